(** One channel.Receiver used by several goroutines: clientReceiver.Receive (channel/clienttransport.go:114-151) and
    serveReceiver.Receive (channel/servetransport.go:70-93), step by step.
    Simplified: a message is its number on the stream, 0, 1, ...; the Sender of a Pipe has opened the stream before (until then
    Receive returns ErrNoResp: C44); decoding a frame (C44) is left out; messages that were read wait in a list where the code has the
    reader wait in AddInFrame (stream.go:131-144) with one of them. *)
From Verif Require Import Model.GoBase Model.Machine.
Open Scope N_scope.

(** Where a goroutine is in Receive: not in it, before firstFrame (hasReceivedFirstFrame) is read
    (channel/clienttransport.go:121, channel/servetransport.go:73), in GetFrameWithContext
    (channel/clienttransport.go:122), before firstFrame (hasReceivedFirstFrame) is set (channel/clienttransport.go:123,
    channel/servetransport.go:85) with the frame it has, in the select on FrameCh
    (channel/clienttransport.go:125-135, channel/servetransport.go:74-83). *)
Inductive rpc := RIdle | RLook | RWait | RStore (m : option N) | RCh.

(** What happens: Receive called, returned with message m, with ErrStreamFinished, with another error *)
Inductive revt := ECall (t : N) | EGot (t m : N) | EFin (t : N) | EErr (t : N).

(** channel/clienttransport.go:15-27, channel/servetransport.go:20-23 *)
Record rst := mkR {
  srv : bool;               (* a serveReceiver *)
  first : bool;             (* firstFrame is not nil, hasReceivedFirstFrame *)
  rch : list N;             (* the channel of the Response *)
  rclosed : bool;           (* it was closed *)
  fq : list N;              (* the frames for FrameCh *)
  narr : N;                 (* the messages that have arrived *)
  ended : bool;             (* FrameCh is closed behind fq *)
  glost : bool;             (* ghost: the connection has ended *)
  rthr : N -> rpc;
  rlog : list revt }.        (* ghost: what happened, oldest first *)

(** channel/clienttransport.go:38-51; channel/servetransport.go:42-46: a serveReceiver has message 0 from the beginning *)
Definition rinit (b : bool) : rst := mkR b false [] false [] (if b then 1 else 0) false false (fun _ => RIdle) [].

(** The atomic actions *)
Inductive rlabel :=
| LArrive                  (* a message is read: the first one goes to the Response (clientconn.go:91-93), others to FrameCh (stream.go:131-144) *)
| LEnd (lost : bool)       (* the stream ends behind its messages (stream.go:146-160); [lost]: the connection ends (clientconn.go:95-97, stream.go:223-230) *)
| LCall (t : N)            (* channel/clienttransport.go:141-142, channel/servetransport.go:70-71 *)
| LLook (t : N)            (* channel/clienttransport.go:121, channel/servetransport.go:73 *)
| LTake (t : N)            (* clientconn.go:81-85: a frame from the Response, or it was closed *)
| LCtx (t : N)             (* ctx.Done() in either select: clientconn.go:86-87, channel/clienttransport.go:126-128, channel/servetransport.go:75-77 *)
| LStore (t : N)           (* channel/clienttransport.go:123, channel/servetransport.go:85; Receive returns *)
| LRecv (t : N).           (* channel/clienttransport.go:129-134, channel/servetransport.go:78-82: a frame, or the channel is closed; Receive returns *)

(** one goroutine moves (no counterpart in /repo) *)
Definition go (s : rst) (t : N) (p : rpc) : rst := mkR (srv s) (first s) (rch s) (rclosed s) (fq s) (narr s) (ended s) (glost s) (upd (rthr s) t p) (rlog s).
(** Receive is called or returns (ghost, no counterpart in /repo) *)
Definition say (s : rst) (e : revt) : rst := mkR (srv s) (first s) (rch s) (rclosed s) (fq s) (narr s) (ended s) (glost s) (rthr s) (rlog s ++ [e]).

(** One action.  The lines are given in [rlabel]. *)
Definition rstep (s : rst) (l : rlabel) : option rst :=
  match l with
  | LArrive =>
    if ended s then None
    else if narr s =? 0 then Some (mkR (srv s) (first s) [0] (rclosed s) (fq s) 1 (ended s) (glost s) (rthr s) (rlog s))
    else Some (mkR (srv s) (first s) (rch s) (rclosed s) (fq s ++ [narr s]) (narr s + 1) (ended s) (glost s) (rthr s) (rlog s))
  | LEnd lost =>
    if ended s then None
    else Some (mkR (srv s) (first s) (rch s) (lost && (narr s =? 0)) (if lost then [] else fq s) (narr s) true lost (rthr s) (rlog s))
  | LCall t => match rthr s t with RIdle => Some (say (go s t RLook) (ECall t)) | _ => None end
  | LLook t =>
    match rthr s t with
    | RLook => Some (go s t (if first s then RCh else if srv s then RStore (Some 0) else RWait))
    | _ => None
    end
  | LTake t =>
    match rthr s t with
    | RWait =>
      match rch s with
      | m :: r => let s' := go s t (RStore (Some m)) in
                  Some (mkR (srv s') (first s') r (rclosed s') (fq s') (narr s') (ended s') (glost s') (rthr s') (rlog s'))
      | [] => if rclosed s then Some (go s t (RStore None)) else None
      end
    | _ => None
    end
  | LCtx t =>
    match rthr s t with
    | RWait => Some (go s t (RStore None))
    | RCh => Some (say (go s t RIdle) (EErr t))
    | _ => None
    end
  | LStore t =>
    match rthr s t with
    | RStore m =>
      let s' := say (go s t RIdle) (match m with Some m => EGot t m | None => EErr t end) in
      Some (mkR (srv s') (match m with Some _ => true | None => false end) (rch s') (rclosed s') (fq s') (narr s') (ended s') (glost s') (rthr s') (rlog s'))
    | _ => None
    end
  | LRecv t =>
    match rthr s t with
    | RCh =>
      match fq s with
      | m :: r => let s' := say (go s t RIdle) (EGot t m) in
                  Some (mkR (srv s') (first s') (rch s') (rclosed s') r (narr s') (ended s') (glost s') (rthr s') (rlog s'))
      | [] => if ended s then Some (say (go s t RIdle) (EFin t)) else None
      end
    | _ => None
    end
  end.
