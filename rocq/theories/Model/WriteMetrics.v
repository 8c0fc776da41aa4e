(** The counter of failed writes of a server connection, CounterMetric with method "writeFrames" (serveconn.go:490-503), on top of the
    EndWrite calls of Model/WriteCombine.v.
    Simplified: CounterMetric is not nil; the labels of the counter are left out, but for the call whose deferred function counted (ghost). *)
From Verif Require Import Model.GoBase Model.Machine Model.WriteCombine.
Open Scope N_scope.

(** The connection, and for each count the call that made it, newest first (serveconn.go:499-500) *)
Record mst := mkM { conn : wst; counted : list N }.

(** Nothing counted yet (server.go:421-443) *)
Definition minit : mst := mkM winit [].

(** err != nil in the deferred function: serveconn.go:494 ([None]: ctx.Err(), 517-518) *)
Definition isErr (r : option wr) : bool := match r with Some ROk | Some RNil => false | Some RErr | None => true end.

(** One action; the deferred function of the call that holds the lock counts after tryFreeStreams: serveconn.go:490-503 *)
Definition mstep (cap : nat) (m : mst) (l : wlabel) : option mst :=
  match wstep cap (conn m) l with
  | None => None
  | Some s =>
    Some (mkM s (match l with
                 | WStep w _ => match pc (conn m) w with QFree _ r => if isErr r then w :: counted m else counted m | _ => counted m end
                 | _ => counted m
                 end))
  end.
