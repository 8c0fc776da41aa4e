(** Model of SetThrottle, ClearThrottle and waitThrottle (server.go:609-642) for one binding, with any number
    of goroutines.  Each atomic.Value Load, Store and channel operation is one step.  Channels are numbered
    in the order they are made. *)
From Verif Require Import Model.GoBase Model.Machine.
Open Scope N_scope.

(** Where goroutine g is.  Set: after the load that saw "off" or nil, before the Store (server.go:630).
    Clear: before close (639) and before the Store (641).  Wait: in the select (614-617). *)
Inductive tpc :=
| TIdle
| TSetStore
| TClrClose (ch : N)
| TClrStore
| TWait (ch : N)
| TDead.            (* panicked: close of a closed channel *)

(** server.go:141, 149-152: one binding's throttle, the channels made, the goroutines using it. *)
Record thst := mkTh {
  cur : option (bool * N);       (* srv.throttle[idx]: None before the first Store; (on, ch) *)
  chClosed : N -> bool;
  nextCh : N;
  tp : N -> tpc;
  isDone : bool;                 (* doneCh of the waiters closed (server.go:295, serveconn.go:439) *)
  busy : nat }.                  (* ghost: SetThrottle and ClearThrottle calls in progress *)

(** NewServer: server.go:154-177. *)
Definition thinit : thst := mkTh None (fun _ => false) 0 (fun _ => TIdle) false 0.

(** The atomic actions: server.go:609-642. *)
Inductive tlabel :=
| TCallSet (g : N)      (* server.go:622-629 *)
| TCallClear (g : N)    (* server.go:634-638 *)
| TCallWait (g : N)     (* server.go:610-613 *)
| TStep (g : N)         (* the next action of g's SetThrottle or ClearThrottle *)
| TPass (g : N)         (* server.go:615: the waiter receives from the closed channel *)
| TPassDone (g : N)     (* server.go:616 *)
| TDone.                (* Shutdown closes doneChan / the connection's context is cancelled *)

(** One action: server.go:609-642. *)
Definition thstep (s : thst) (l : tlabel) : option thst :=
  match l with
  | TCallSet g =>
    match tp s g with
    | TIdle =>
      match cur s with
      | Some (true, _) => Some s
      | _ => Some (mkTh (cur s) (chClosed s) (nextCh s) (upd (tp s) g TSetStore) (isDone s) (S (busy s)))
      end
    | _ => None
    end
  | TCallClear g =>
    match tp s g with
    | TIdle =>
      match cur s with
      | None => Some s
      | Some (_, ch) => Some (mkTh (cur s) (chClosed s) (nextCh s) (upd (tp s) g (TClrClose ch)) (isDone s) (S (busy s)))
      end
    | _ => None
    end
  | TCallWait g =>
    match tp s g with
    | TIdle =>
      match cur s with
      | Some (true, ch) => Some (mkTh (cur s) (chClosed s) (nextCh s) (upd (tp s) g (TWait ch)) (isDone s) (busy s))
      | _ => Some s
      end
    | _ => None
    end
  | TStep g =>
    match tp s g with
    | TSetStore =>
      Some (mkTh (Some (true, nextCh s)) (chClosed s) (nextCh s + 1) (upd (tp s) g TIdle) (isDone s) (pred (busy s)))
    | TClrClose ch =>
      if chClosed s ch then Some (mkTh (cur s) (chClosed s) (nextCh s) (upd (tp s) g TDead) (isDone s) (busy s))
      else Some (mkTh (cur s) (upd (chClosed s) ch true) (nextCh s) (upd (tp s) g TClrStore) (isDone s) (busy s))
    | TClrStore =>
      Some (mkTh (Some (false, nextCh s)) (chClosed s) (nextCh s + 1) (upd (tp s) g TIdle) (isDone s) (pred (busy s)))
    | _ => None
    end
  | TPass g =>
    match tp s g with
    | TWait ch => if chClosed s ch then Some (mkTh (cur s) (chClosed s) (nextCh s) (upd (tp s) g TIdle) (isDone s) (busy s)) else None
    | _ => None
    end
  | TPassDone g =>
    match tp s g with
    | TWait ch => if isDone s then Some (mkTh (cur s) (chClosed s) (nextCh s) (upd (tp s) g TIdle) (isDone s) (busy s)) else None
    | _ => None
    end
  | TDone => Some (mkTh (cur s) (chClosed s) (nextCh s) (tp s) true (busy s))
  end.

(** The same machine when the program never runs two SetThrottle/ClearThrottle calls at the same time; waiters
    are not restricted. *)
Definition thstepS (s : thst) (l : tlabel) : option thst :=
  match l with
  | TCallSet _ | TCallClear _ => if Nat.eqb (busy s) 0 then thstep s l else None
  | _ => thstep s l
  end.
