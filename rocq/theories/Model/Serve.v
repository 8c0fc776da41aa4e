(** Model of the serve loop of a server connection (serveconn.go): readFrames, the channel readFrameCh, the
    gate, serve, handleRequestPanic's counter, and the inbound rate limit.

    Requests handed to handlers are numbered 0, 1, 2 ... in the order readFrames read them.  Not modelled here:
    decoding (Model/FrameReader.v), pushed frames and responses (readFrames handles them itself and reads on,
    serveconn.go:385-412, see Model/Response.v), what the handlers write, the throttle (Model/Throttle.v),
    int32 wrap-around of inflightStreams. *)
From Verif Require Import Model.GoBase Model.Machine.
Open Scope nat_scope.

(** readFrames: reading (364), sending request n on readFrameCh (416, 427; [b]: blocking), waiting for the
    gate (433), returned. *)
Inductive rdpc := RRead | RSend (n : nat) (b : bool) | RGate | RExit.

(** serve: at the select (195), running the handler of blocking request n (203), its deferred
    handleRequestPanic (202, 250), readMore (205), returned: before and after the deferred Close (158). *)
Inductive svpc := SLoop | SBlk (n : nat) | SDefer (n : nat) | SDone | SExit | SClosed.

(** What the handlers do, in order. *)
Inductive hev := EStart (n : nat) | EFinish (n : nat).

(** serve and readFrames of one connection: serveconn.go:145-225, 322-442. *)
Record sst := mkS {
  rd : rdpc;
  sv : svpc;
  ch : list (nat * bool);     (* readFrameCh *)
  gateFull : bool;            (* gate, capacity 1 *)
  cancelled : bool;           (* ctx.Done() closed *)
  spawned : list nat;         (* nonblocking requests whose goroutine was started but has not reached the handler *)
  running : list nat;         (* nonblocking requests whose handler runs *)
  counter : Z;                (* inflightStreams *)
  narr : nat;                 (* ghost: requests read so far *)
  kind : nat -> bool;         (* ghost: true: blocking *)
  evs : list hev;             (* ghost: what happened, oldest first *)
  blkDone : nat }.            (* ghost: blocking requests whose deferred function decremented the counter *)

(** serveconn.go:177-192 *)
Definition sinit : sst := mkS RRead SLoop [] false false [] [] 0%Z 0 (fun _ => false) [] 0.

(** The atomic actions: serveconn.go:145-225, 250-278, 322-442. *)
Inductive slabel :=
| SLRead (b : bool)   (* ReadFrame returned a request; b: blocking (no NBFlag) *)
| SLReadErr           (* ReadFrame failed, or the rate limit: Close, return (377-384) *)
| SLEnq               (* readFrames: the send on readFrameCh goes into the buffer *)
| SLHand              (* the send is received by serve at once (the only way when the capacity is 0) *)
| SLRecv              (* serve receives from the buffer *)
| SLGate              (* readFrames receives from the gate (433) *)
| SLRdDone            (* readFrames sees ctx.Done() in one of its selects *)
| SLBlkRet            (* the blocking handler returns or panics *)
| SLDefer             (* its deferred handleRequestPanic *)
| SLReadMore          (* serve: res.readMore() (205) *)
| SLSvDone            (* serve sees ctx.Done() (196) *)
| SLSvClose           (* serve's deferred sc.Close() (158) *)
| SLCancel            (* somebody else closes the connection *)
| SLStart (n : nat)   (* the goroutine of nonblocking request n enters its handler (213-217) *)
| SLFinish (n : nat). (* it returns or panics, and the deferred function runs (214, 251-253) *)

(** list removal (no counterpart in /repo). *)
Definition rmv (n : nat) (l : list nat) : list nat := filter (fun m => negb (m =? n)) l.
(** list membership (no counterpart in /repo). *)
Definition mem (n : nat) (l : list nat) : bool := existsb (fun m => m =? n) l.

(** serve's treatment of a request it received: serveconn.go:200-220.  [lim]: MaxInboundInflightStreamPerConn
    if positive. *)
Definition dispatch (lim : option Z) (n : nat) (b : bool) (s : sst) : sst :=
  if b then
    mkS (rd s) (SBlk n) (ch s) (gateFull s) (cancelled s) (spawned s) (running s) (counter s) (narr s) (kind s)
        (evs s ++ [EStart n]) (blkDone s)
  else
    match lim with
    | Some m =>
      let c := (counter s + 1)%Z in
      if (c >? m)%Z then
        mkS (rd s) SExit (ch s) (gateFull s) (cancelled s) (spawned s) (running s) c (narr s) (kind s) (evs s) (blkDone s)
      else
        mkS (rd s) SLoop (ch s) (gateFull s) (cancelled s) (spawned s ++ [n]) (running s) c (narr s) (kind s) (evs s) (blkDone s)
    | None =>
      mkS (rd s) SLoop (ch s) (gateFull s) (cancelled s) (spawned s ++ [n]) (running s) (counter s) (narr s) (kind s) (evs s) (blkDone s)
    end.

(** serveconn.go:251-253 *)
Definition decr (lim : option Z) (c : Z) : Z := match lim with Some _ => (c - 1)%Z | None => c end.

(** readFrames after the send went through: serveconn.go:414-436 *)
Definition afterSend (b : bool) : rdpc := if b then RGate else RRead.

(** One action: serveconn.go:145-225, 250-278, 322-442. *)
Definition sstep (K : nat) (lim : option Z) (s : sst) (l : slabel) : option sst :=
  match l with
  | SLRead b =>
    match rd s with
    | RRead => Some (mkS (RSend (narr s) b) (sv s) (ch s) (gateFull s) (cancelled s) (spawned s) (running s) (counter s)
                         (S (narr s)) (fun n => if n =? narr s then b else kind s n) (evs s) (blkDone s))
    | _ => None
    end
  | SLReadErr =>
    match rd s with
    | RRead => Some (mkS RExit (sv s) (ch s) (gateFull s) true (spawned s) (running s) (counter s)
                         (narr s) (kind s) (evs s) (blkDone s))
    | _ => None
    end
  | SLEnq =>
    match rd s with
    | RSend n b =>
      if length (ch s) <? K then
        Some (mkS (afterSend b) (sv s) (ch s ++ [(n, b)]) (gateFull s) (cancelled s) (spawned s) (running s) (counter s)
                  (narr s) (kind s) (evs s) (blkDone s))
      else None
    | _ => None
    end
  | SLHand =>
    match rd s, sv s, ch s with
    | RSend n b, SLoop, [] =>
      Some (dispatch lim n b (mkS (afterSend b) (sv s) (ch s) (gateFull s) (cancelled s) (spawned s) (running s) (counter s)
                  (narr s) (kind s) (evs s) (blkDone s)))
    | _, _, _ => None
    end
  | SLRecv =>
    match sv s, ch s with
    | SLoop, (n, b) :: rest =>
      Some (dispatch lim n b (mkS (rd s) (sv s) rest (gateFull s) (cancelled s) (spawned s) (running s) (counter s)
                  (narr s) (kind s) (evs s) (blkDone s)))
    | _, _ => None
    end
  | SLGate =>
    match rd s with
    | RGate =>
      if gateFull s then
        Some (mkS RRead (sv s) (ch s) false (cancelled s) (spawned s) (running s) (counter s)
                  (narr s) (kind s) (evs s) (blkDone s))
      else None
    | _ => None
    end
  | SLRdDone =>
    match rd s with
    | RExit => None
    | _ => if cancelled s then
        Some (mkS RExit (sv s) (ch s) (gateFull s) (cancelled s) (spawned s) (running s) (counter s)
                  (narr s) (kind s) (evs s) (blkDone s))
      else None
    end
  | SLBlkRet =>
    match sv s with
    | SBlk n =>
      Some (mkS (rd s) (SDefer n) (ch s) (gateFull s) (cancelled s) (spawned s) (running s) (counter s)
                (narr s) (kind s) (evs s ++ [EFinish n]) (blkDone s))
    | _ => None
    end
  | SLDefer =>
    match sv s with
    | SDefer n =>
      Some (mkS (rd s) SDone (ch s) (gateFull s) (cancelled s) (spawned s) (running s) (decr lim (counter s))
                (narr s) (kind s) (evs s) (S (blkDone s)))
    | _ => None
    end
  | SLReadMore =>
    match sv s with
    | SDone =>
      if gateFull s then None    (* gate.Done() blocks *)
      else Some (mkS (rd s) SLoop (ch s) true (cancelled s) (spawned s) (running s) (counter s)
                     (narr s) (kind s) (evs s) (blkDone s))
    | _ => None
    end
  | SLSvDone =>
    match sv s with
    | SLoop => if cancelled s then
        Some (mkS (rd s) SExit (ch s) (gateFull s) (cancelled s) (spawned s) (running s) (counter s)
                  (narr s) (kind s) (evs s) (blkDone s))
      else None
    | _ => None
    end
  | SLSvClose =>
    match sv s with
    | SExit => Some (mkS (rd s) SClosed (ch s) (gateFull s) true (spawned s) (running s) (counter s)
                  (narr s) (kind s) (evs s) (blkDone s))
    | _ => None
    end
  | SLCancel =>
    Some (mkS (rd s) (sv s) (ch s) (gateFull s) true (spawned s) (running s) (counter s)
              (narr s) (kind s) (evs s) (blkDone s))
  | SLStart n =>
    if mem n (spawned s) then
      Some (mkS (rd s) (sv s) (ch s) (gateFull s) (cancelled s) (rmv n (spawned s)) (running s ++ [n]) (counter s)
                (narr s) (kind s) (evs s ++ [EStart n]) (blkDone s))
    else None
  | SLFinish n =>
    if mem n (running s) then
      Some (mkS (rd s) (sv s) (ch s) (gateFull s) (cancelled s) (spawned s) (rmv n (running s)) (decr lim (counter s))
                (narr s) (kind s) (evs s ++ [EFinish n]) (blkDone s))
    else None
  end.

(** serveconn.go:358-376: the inbound rate limit.  [ts]: the clock second observed after each frame read;
    [m]: MaxInboundFramePerSecond > 0.  Result: how many of the frames are accepted before the connection is
    closed ([None]: all of them).  [last] starts at 0 and [cnt] at 0. *)
Fixpoint rateRun (m : nat) (last : Z) (cnt : nat) (acc : nat) (ts : list Z) : option nat :=
  match ts with
  | [] => None
  | t :: ts' =>
    let cnt' := if (t =? last)%Z then S cnt else 1 in
    if m <? cnt' then Some acc
    else rateRun m t cnt' (S acc) ts'
  end.
(** serveconn.go:358-376, from the start. *)
Definition rateLimit (m : nat) (ts : list Z) : option nat := rateRun m 0%Z 0 0 ts.
