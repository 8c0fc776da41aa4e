(** MaxCloseRate: the goroutines that close the connections of one binding, and the limiter they pass (serveconn.go:755-768,
    server.go:156-160).
    Simplified: ratelimit.Limiter is not part of the repository and is modelled by its contract: a turn every 1/MaxCloseRate seconds, unused
    turns are saved up to a burst.  Time goes in steps of 1/MaxCloseRate seconds.  Of closeUntracked only rwc.Close is modelled. *)
From Verif Require Import Model.GoBase Model.Machine.
Open Scope N_scope.

(** Who closes: readFrames after a read error (serveconn.go:378), serve when it returns (serveconn.go:158), a handler or a failed write
    (frame.go:76-90, serveconn.go:594-597), bindID for another connection (server.go:462-469) *)
Inductive role := Reader | Server | App | Kick.

(** A goroutine: elsewhere; before Take (serveconn.go:757-759); before the compare-and-swap of untrack (server.go:493); won it, before
    close(untrackedCh) (server.go:497-510); lost it, at <-ch (serveconn.go:763, server.go:464); before rwc.Close (serveconn.go:771) *)
Inductive cpc := TIdle | TTake (k : N) (r : role) | TUn (k : N) (r : role) | TCb (k : N) (r : role) | TWait (k : N) (r : role) | TSock (k : N) (r : role).

(** The limiter's burst and saved turns, the time; goroutines; for each connection: read side ended, serve returned, untrack, untrackedCh closed,
    socket closed, the deferred function of serve done with Close; ghost: the turns that were taken, for which connection and by whom, the connections kicked *)
Record cst := mkC {
  burst : nat; saved : nat; now : nat;
  thr : N -> cpc;
  rdrEnd : N -> bool; srvEnd : N -> bool;
  untr : N -> bool; chClosed : N -> bool; shut : N -> bool; ended : N -> bool;
  turns : list (N * role); kicks : list N }.

(** At the start (server.go:156-160) *)
Definition cinit (b : nat) : cst :=
  mkC b b 0 (fun _ => TIdle) (fun _ => false) (fun _ => false) (fun _ => false) (fun _ => false) (fun _ => false) (fun _ => false) [] [].

(** The atomic actions *)
Inductive clabel :=
| LTick                              (* 1/MaxCloseRate seconds pass.  server.go:159 *)
| LStart (t k : N) (r : role)        (* goroutine t comes to close connection k.  The lines are in [role] *)
| LTake (t : N)                      (* limiter.Take returns.  serveconn.go:758 *)
| LUntrack (t : N)                   (* the compare-and-swap.  server.go:493-496 *)
| LDone (t : N)                      (* close(untrackedCh), after OnKickCB.  server.go:510 *)
| LCh (t : N)                        (* <-ch.  serveconn.go:763, server.go:464 *)
| LSock (t : N).                     (* rwc.Close.  serveconn.go:771 *)

(** goroutine t goes on to q (serveconn.go:755-768) *)
Definition goto (s : cst) (t : N) (q : cpc) : cst :=
  mkC (burst s) (saved s) (now s) (upd (thr s) t q) (rdrEnd s) (srvEnd s) (untr s) (chClosed s) (shut s) (ended s) (turns s) (kicks s).

(** One action.  The lines are given in [clabel]. *)
Definition cstep (s : cst) (l : clabel) : option cst :=
  match l with
  | LTick => Some (mkC (burst s) (Nat.min (burst s) (saved s + 1)) (now s + 1) (thr s) (rdrEnd s) (srvEnd s) (untr s) (chClosed s) (shut s) (ended s) (turns s) (kicks s))
  | LStart t k r =>
    match thr s t with
    | TIdle =>
      match r with
      | Reader => if rdrEnd s k then None else
          Some (mkC (burst s) (saved s) (now s) (upd (thr s) t (TTake k r)) (upd (rdrEnd s) k true) (srvEnd s) (untr s) (chClosed s) (shut s) (ended s) (turns s) (kicks s))
      | Server => if srvEnd s k then None else
          Some (mkC (burst s) (saved s) (now s) (upd (thr s) t (TTake k r)) (rdrEnd s) (upd (srvEnd s) k true) (untr s) (chClosed s) (shut s) (ended s) (turns s) (kicks s))
      | App => Some (goto s t (TTake k r))
      | Kick =>
          Some (mkC (burst s) (saved s) (now s) (upd (thr s) t (TUn k r)) (rdrEnd s) (srvEnd s) (untr s) (chClosed s) (shut s) (ended s) (turns s) (k :: kicks s))
      end
    | _ => None
    end
  | LTake t =>
    match thr s t, saved s with
    | TTake k r, S n => Some (mkC (burst s) n (now s) (upd (thr s) t (TUn k r)) (rdrEnd s) (srvEnd s) (untr s) (chClosed s) (shut s) (ended s) ((k, r) :: turns s) (kicks s))
    | _, _ => None
    end
  | LUntrack t =>
    match thr s t with
    | TUn k r =>
      if untr s k then Some (goto s t (TWait k r)) else
      Some (mkC (burst s) (saved s) (now s) (upd (thr s) t (TCb k r)) (rdrEnd s) (srvEnd s) (upd (untr s) k true) (chClosed s) (shut s) (ended s) (turns s) (kicks s))
    | _ => None
    end
  | LDone t =>
    match thr s t with
    | TCb k r => Some (mkC (burst s) (saved s) (now s) (upd (thr s) t (TSock k r)) (rdrEnd s) (srvEnd s) (untr s) (upd (chClosed s) k true) (shut s) (ended s) (turns s) (kicks s))
    | _ => None
    end
  | LCh t =>
    match thr s t with
    | TWait k r => if chClosed s k then Some (goto s t (TSock k r)) else None
    | _ => None
    end
  | LSock t =>
    match thr s t with
    | TSock k r =>
      Some (mkC (burst s) (saved s) (now s) (upd (thr s) t TIdle) (rdrEnd s) (srvEnd s) (untr s) (chClosed s) (upd (shut s) k true)
                (match r with Server => upd (ended s) k true | _ => ended s end) (turns s) (kicks s))
    | _ => None
    end
  end.
