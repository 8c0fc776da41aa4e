(** Request ids of one connection, both sides. *)
From Verif Require Import Model.GoBase.

(** clientconn.go:346-349 Connection.nextRequestID: atomic add on a uint64, then 2*ridGen+1.
    Returns the new counter and the id. *)
Definition clientNextID (ridGen : N) : N * N :=
  let g := u64 (ridGen + 1) in (g, u64 (u64 (2 * g) + 1)).

(** serveconn.go:719-722 serveconn.nextRequestID *)
Definition serverNextID (ridGen : N) : N * N :=
  let g := u64 (ridGen + 1) in (g, u64 (2 * g)).

(** which end of the connection: clientconn.go:346-349 or serveconn.go:719-722. *)
Inductive side := Client | Server.

(** Both ends of one connection; each label is one atomic nextRequestID call by any
    goroutine of that side; counters start at 0 (clientconn.go:44, serveconn.go:52). *)
Definition idStep (st : N * N) (s : side) : (N * N) * (side * N) :=
  match s with
  | Client => let '(g, id) := clientNextID (fst st) in ((g, snd st), (Client, id))
  | Server => let '(g, id) := serverNextID (snd st) in ((fst st, g), (Server, id))
  end.

(** the ids a schedule of calls hands out, in order. *)
Fixpoint idRun (st : N * N) (sched : list side) : list (side * N) :=
  match sched with
  | [] => []
  | s :: sched' => let '(st', x) := idStep st s in x :: idRun st' sched'
  end.
