(** Model of walking over the connections of one binding: Server.WalkConnByID, GetConnectionInfoByID and WalkConn
    (server.go:567-594), while connections are accepted, given ids, kicked and closed (Model/Lifecycle.v).

    Simplified: a walk is one goroutine w; the call of f is the step that looks the connection up, what f does is
    done by steps of other goroutines before w's next step (so f may itself close, kick, set ids and walk), and
    the result of f is given with the call.  f does not panic.  sync.Map.Range is its documented contract: no key
    twice, every key that stays in the map for the whole walk, any other key that was in the map at some moment
    of the walk may or may not be visited. *)
From Verif Require Import Model.GoBase Model.Machine Model.Lifecycle.
Open Scope N_scope.

(** list membership (no counterpart in /repo). *)
Definition inb (c : N) (l : list N) : bool := existsb (N.eqb c) l.
(** absence of duplicates (no counterpart in /repo). *)
Fixpoint nodupb (l : list N) : bool := match l with [] => true | c :: l => negb (inb c l) && nodupb l end.

(** Where a walk is: not begun; WalkConnByID at position pos of ids (server.go:569); WalkConn with the keys Range
    has still to turn to (server.go:590), [gone]: connections that had left the map when it began; returned. *)
Inductive walk :=
| WNo
| WIds (ids : list N) (pos : nat)
| WConns (todo : list N) (gone : N -> bool)
| WEnd.

(** server.go:139-140 (id2Conn, activeConn, both in [wl]), the connections accepted so far, the walks, and ghosts:
    the calls f(writer, info, i) of each WalkConnByID and f(writer, info) with its result of each WalkConn,
    oldest first.  A connection stands for its writer and its info. *)
Record wst := mkW {
  wl : lst;
  made : list N;
  wk : N -> walk;
  ilog : N -> list (N * nat);
  clog : N -> list (N * bool) }.

(** NewServer (server.go:160-180): no connection, no walk. *)
Definition winit : wst := mkW linit [] (fun _ => WNo) (fun _ => []) (fun _ => []).

(** Labels: server.go:421-443 (newConn), 567-594, and those of Model/Lifecycle.v. *)
Inductive wlabel :=
| WL (l : llabel)               (* an action of Model/Lifecycle.v *)
| WNew (c : N)                  (* newConn: server.go:421-443 *)
| WWalkIDs (w : N) (ids : list N)  (* WalkConnByID is called: server.go:568 *)
| WWalk (w : N) (order : list N)   (* WalkConn is called, Range will turn to the keys in this order: server.go:589-590 *)
| WStep (w : N)                 (* one turn of the loop server.go:569-575, or a walk returns *)
| WVisit (w : N) (b : bool)     (* Range calls the function with the next key, f returns b: server.go:591-592 *)
| WSkip (w : N).                (* Range passes over a key that is not in the map *)

(** the connection a call of Model/Lifecycle.v is made on is one that was accepted. *)
Definition known (m : list N) (l : llabel) : bool :=
  match l with LSetID _ c _ => inb c m | LClose _ c => inb c m | LReg _ c _ => inb c m | LG _ => true end.

(** Server.GetConnectionInfoByID: server.go:579-586 (the ConnectionInfo is in the context since newConn,
    server.go:435, so the assertion holds). *)
Definition GetConnectionInfoByID (s : wst) (i : N) : option N := id2 (wl s) i.

(** setter (no counterpart in /repo). *)
Definition setw (s : wst) (w : N) (k : walk) : wst := mkW (wl s) (made s) (upd (wk s) w k) (ilog s) (clog s).

(** One action: server.go:421-443, 567-594. *)
Definition wstep (s : wst) (l : wlabel) : option wst :=
  match l with
  | WL l =>
    if known (made s) l then
      match lstep (wl s) l with Some t => Some (mkW t (made s) (wk s) (ilog s) (clog s)) | None => None end
    else None
  | WNew c => if inb c (made s) then None else Some (mkW (wl s) (c :: made s) (wk s) (ilog s) (clog s))
  | WWalkIDs w ids => match wk s w with WNo => Some (setw s w (WIds ids 0)) | _ => None end
  | WWalk w order =>
    match wk s w with
    | WNo =>
      if nodupb order && forallb (fun c => negb (act (wl s) c) || inb c order) (made s)
      then Some (setw s w (WConns order (fun c => inb c (made s) && negb (act (wl s) c))))
      else None
    | _ => None
    end
  | WStep w =>
    match wk s w with
    | WIds ids pos =>
      match nth_error ids pos with
      | None => Some (setw s w WEnd)
      | Some i =>
        match id2 (wl s) i with
        | Some c => Some (mkW (wl s) (made s) (upd (wk s) w (WIds ids (S pos))) (upd (ilog s) w (ilog s w ++ [(c, pos)])) (clog s))
        | None => Some (setw s w (WIds ids (S pos)))
        end
      end
    | WConns [] _ => Some (setw s w WEnd)
    | _ => None
    end
  | WVisit w b =>
    match wk s w with
    | WConns (c :: todo) gone =>
      if inb c (made s) && negb (gone c)
      then Some (mkW (wl s) (made s) (upd (wk s) w (if b then WConns todo gone else WEnd)) (ilog s) (upd (clog s) w (clog s w ++ [(c, b)])))
      else None
    | _ => None
    end
  | WSkip w =>
    match wk s w with
    | WConns (c :: todo) gone => if inb c (made s) && act (wl s) c then None else Some (setw s w (WConns todo gone))
    | _ => None
    end
  end.
