(** Model of Server.Shutdown, Server.OnShutdown and closeListenersLocked (server.go).
    Any number of goroutines call Shutdown and OnShutdown.  What happens between srv.mu.Lock and Unlock is
    one atomic step.  Not modelled: srv.wg.Wait() (how long Shutdown's caller waits for connections). *)
From Verif Require Import Model.GoBase Model.Machine.
Open Scope nat_scope.

(** A Shutdown call that found [done] unset, after Unlock: about to close doneChan (server.go:534), calling
    the remaining shutdown functions (536-538), or at wg.Wait (541). *)
Inductive shutPhase := ShClose | ShRun (todo : list N) | ShWait.

(** server.go:127-147: listeners, doneChan, shutdownFunc, done, wg; the Shutdown calls under way; ghosts. *)
Record shst := mkSh {
  done : bool;                  (* srv.done *)
  chanClosed : bool;            (* srv.doneChan closed *)
  funcs : list N;               (* srv.shutdownFunc *)
  listeners : list bool;        (* srv.listeners, true: not nil *)
  shutters : list shutPhase;    (* calls of Shutdown past the critical section *)
  waiters : nat;                (* calls of Shutdown that found done set: at wg.Wait *)
  late : list N;                (* calls of OnShutdown that found done set: about to call f *)
  failures : nat;               (* calls of Shutdown that returned a listener's error *)
  regs : N -> nat;              (* ghost: how often each function was passed to OnShutdown *)
  ran : N -> nat;               (* how often it was called *)
  panicked : bool }.            (* close of a closed channel *)

(** NewServer: server.go:154-177. *)
Definition shinit (ls : list bool) : shst :=
  mkSh false false [] ls [] 0 [] 0 (fun _ => 0) (fun _ => 0) false.

(** server.go:596-607 closeListenersLocked; [bad]: the index whose Close fails.  Returns the new slice and
    whether there was an error. *)
Fixpoint closeListeners (i : nat) (ls : list bool) (bad : option nat) : list bool * bool :=
  match ls with
  | [] => ([], false)
  | l :: ls' =>
    if negb l then let '(r, e) := closeListeners (S i) ls' bad in (l :: r, e)
    else if match bad with Some b => b =? i | None => false end then (l :: ls', true)
    else let '(r, e) := closeListeners (S i) ls' bad in (false :: r, e)
  end.

(** The atomic actions: server.go:410-418, 515-559. *)
Inductive shlabel :=
| LShutdown (bad : option nat)   (* a goroutine calls Shutdown: server.go:515-532 *)
| LShutStep (k : nat)            (* the k-th call in [shutters] does its next action *)
| LOnShutdown (f : N)            (* a goroutine calls OnShutdown: server.go:547-559 *)
| LLate (k : nat)                (* the k-th late OnShutdown call runs its function: server.go:552 *)
| LTrack (i : nat) (add : bool). (* trackListener: server.go:410-418 *)

(** l[k] = v (language). *)
Fixpoint setNth {A} (l : list A) (k : nat) (v : A) : list A :=
  match l, k with
  | [], _ => []
  | _ :: l, O => v :: l
  | x :: l, S k => x :: setNth l k v
  end.
(** list removal (no counterpart in /repo). *)
Fixpoint delNth {A} (l : list A) (k : nat) : list A :=
  match l, k with
  | [], _ => []
  | _ :: l, O => l
  | x :: l, S k => x :: delNth l k
  end.

(** One action: server.go:410-418, 515-559, 596-607. *)
Definition shstep (s : shst) (l : shlabel) : option shst :=
  if panicked s then None else
  match l with
  | LShutdown bad =>
    if done s then
      Some (mkSh (done s) (chanClosed s) (funcs s) (listeners s) (shutters s) (S (waiters s)) (late s) (failures s)
                 (regs s) (ran s) (panicked s))
    else
      let '(ls, err) := closeListeners 0 (listeners s) bad in
      if err then
        Some (mkSh (done s) (chanClosed s) (funcs s) ls (shutters s) (waiters s) (late s) (S (failures s))
                   (regs s) (ran s) (panicked s))
      else
        Some (mkSh true (chanClosed s) (funcs s) ls (shutters s ++ [ShClose]) (waiters s) (late s) (failures s)
                   (regs s) (ran s) (panicked s))
  | LShutStep k =>
    match nth_error (shutters s) k with
    | Some ShClose =>
      Some (mkSh (done s) true (funcs s) (listeners s) (setNth (shutters s) k (ShRun (funcs s))) (waiters s) (late s)
                 (failures s) (regs s) (ran s) (chanClosed s))
    | Some (ShRun []) =>
      Some (mkSh (done s) (chanClosed s) (funcs s) (listeners s) (setNth (shutters s) k ShWait) (waiters s) (late s)
                 (failures s) (regs s) (ran s) (panicked s))
    | Some (ShRun (f :: fs)) =>
      Some (mkSh (done s) (chanClosed s) (funcs s) (listeners s) (setNth (shutters s) k (ShRun fs)) (waiters s) (late s)
                 (failures s) (regs s) (upd (ran s) f (S (ran s f))) (panicked s))
    | _ => None
    end
  | LOnShutdown f =>
    if done s then
      Some (mkSh (done s) (chanClosed s) (funcs s) (listeners s) (shutters s) (waiters s) (late s ++ [f]) (failures s)
                 (upd (regs s) f (S (regs s f))) (ran s) (panicked s))
    else
      Some (mkSh (done s) (chanClosed s) (funcs s ++ [f]) (listeners s) (shutters s) (waiters s) (late s) (failures s)
                 (upd (regs s) f (S (regs s f))) (ran s) (panicked s))
  | LLate k =>
    match nth_error (late s) k with
    | Some f =>
      Some (mkSh (done s) (chanClosed s) (funcs s) (listeners s) (shutters s) (waiters s) (delNth (late s) k) (failures s)
                 (regs s) (upd (ran s) f (S (ran s f))) (panicked s))
    | None => None
    end
  | LTrack i add =>
    Some (mkSh (done s) (chanClosed s) (funcs s) (setNth (listeners s) i add) (shutters s) (waiters s) (late s) (failures s)
               (regs s) (ran s) (panicked s))
  end.
