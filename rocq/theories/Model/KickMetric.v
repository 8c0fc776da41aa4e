(** The counter "kickoff" (server.go:468-479): Model/Lifecycle.v with the socket of each connection, the result of rwc.Close, and
    the adds to CounterMetric.

    Simplified: CounterMetric is set; one binding; rwc.Close fails exactly when the socket was closed before (a close that fails
    for another reason is not modelled); an add is one action. *)
From Verif Require Import Model.GoBase Model.Machine Model.Lifecycle.
Open Scope N_scope.

(** Where a goroutine is in closeUntracked and after it: not past rwc.Close; rwc.Close on connection v returned, with an error or not
    (serveconn.go:771); closeUntracked returned to bindID, the add comes next (server.go:475-479). *)
Inductive mph := MNo | MGot (v : N) (err : bool) | MCnt (v : N) (err : bool).

(** server.go:468-479, serveconn.go:769-771.  An add is listed as: the connection that was to be kicked, the connection whose SetID
    did it, and whether the label "error" is other than "<nil>". *)
Record mst := mkM {
  mc : lst;
  sock : N -> bool;              (* the socket was closed *)
  mp : N -> mph;
  adds : list (N * N * bool) }.  (* newest first *)

(** no connection closed, nothing counted: server.go:421-443. *)
Definition minit : mst := mkM linit (fun _ => false) (fun _ => MNo) [].

(** Labels: those of Model/Lifecycle.v, rwc.Close (serveconn.go:771), the add (server.go:475-479). *)
Inductive mlabel := ML (l : llabel) | MSock (g : N) | MCount (g : N).

(** The goroutine of an action of Model/Lifecycle.v. *)
Definition mgor (l : llabel) : N := match l with LSetID g _ _ | LClose g _ | LReg g _ _ | LG g => g end.

(** where a goroutine that got v, err from rwc.Close is after its next action: closeUntracked returned to bindID (server.go:468) or to
    Close (serveconn.go:765), or goes on (serveconn.go:773-794). *)
Definition mnext (v : N) (err : bool) (p : lpc) : mph :=
  match p with LBind _ _ => MCnt v err | LIdle => MNo | _ => MGot v err end.

(** One action: server.go:450-513, serveconn.go:96-133, 755-795. *)
Definition mstep (m : mst) (l : mlabel) : option mst :=
  match l with
  | ML l =>
    let g := mgor l in
    match mp m g with
    | MNo =>
      match lp (mc m) g with
      | LLock _ _ => None           (* rwc.Close first: serveconn.go:771 *)
      | _ =>
        match lstep (mc m) l with
        | Some s' => Some (mkM s' (sock m) (mp m) (adds m))
        | None => None
        end
      end
    | MGot v e =>
      match lstep (mc m) l with
      | Some s' => Some (mkM s' (sock m) (upd (mp m) g (mnext v e (lp s' g))) (adds m))
      | None => None
      end
    | MCnt _ _ => None
    end
  | MSock g =>
    match mp m g, lp (mc m) g with
    | MNo, LLock v _ => Some (mkM (mc m) (upd (sock m) v true) (upd (mp m) g (MGot v (sock m v))) (adds m))
    | _, _ => None
    end
  | MCount g =>
    match mp m g, lp (mc m) g with
    | MCnt v e, LBind c _ => Some (mkM (mc m) (sock m) (upd (mp m) g MNo) ((v, c, e) :: adds m))
    | _, _ => None
    end
  end.
