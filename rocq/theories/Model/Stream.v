(** Model of one connection's streams: /repo/stream.go, /repo/framereader.go:39-77 (ReadFrame),
    collectWriteFrames of serveconn.go:622-680 and clientconn.go:595-701, and the reset written by
    handleRequestPanic (serveconn.go:267-276, clientconn.go:557-567).

    One label is one atomic operation (sync.Map operation, atomic load/store/swap/CAS, channel
    operation, cancel).  One reader goroutine and one writer at a time: clientconn.go:225-227 starts a
    single writeFrames goroutine, on the server wlockCh (serveconn.go:466-468) admits one.
    Abstracted: payload encoding (Model/FrameWriter), the reading of bytes (Model/Reader), the batch
    counter (a batch may end at any point), what handlers do except: receive from FrameCh, write,
    return. *)
From Verif Require Import Model.GoBase Model.Machine Model.Qrpc Model.FrameReader.
Open Scope N_scope.

(** stream.go:74-87 Stream *)
Record strm := mkStrm {
  sid : N;   (* ID (stream.go:76) *)
  spush : bool;   (* which table: closeNotify's target (stream.go:40-50) *)
  cancelled : bool;   (* its own ctx was cancelled (stream.go:219-223) *)
  closedSelf : bool;   (* stream.go:81 *)
  closedPeer : bool;   (* stream.go:82 *)
  fullClosed : bool;   (* stream.go:83 *)
  binded : bool;   (* stream.go:84 *)
  chClosed : bool;   (* frameCh closed (stream.go:77) *)
  fullCh : bool;   (* fullCloseCh closed (stream.go:85) *)
  notified : nat;   (* ghost: how often closeNotify ran (stream.go:86) *)
  got : list Frame;   (* ghost: frames handed over: first frame (TryBind), then frameCh *)
  out : list FrameFlag;   (* ghost: flags of the outgoing frames accepted for this stream *)
  lateRst : bool;   (* ghost: the peer's reset arrived when closedSelf was already set *)
  rstd : bool;   (* ghost: the peer reset this stream (ResetByPeer was called) *)
  hEnded : bool;   (* ghost: the handler of this stream's request returned *)
}.

(** field setters (no counterpart in /repo) *)
Definition set_cancelled (v : bool) (x : strm) : strm := mkStrm (sid x) (spush x) v (closedSelf x) (closedPeer x) (fullClosed x) (binded x) (chClosed x) (fullCh x) (notified x) (got x) (out x) (lateRst x) (rstd x) (hEnded x).
(** setter of a record field (no counterpart in /repo) *)
Definition set_closedSelf (v : bool) (x : strm) : strm := mkStrm (sid x) (spush x) (cancelled x) v (closedPeer x) (fullClosed x) (binded x) (chClosed x) (fullCh x) (notified x) (got x) (out x) (lateRst x) (rstd x) (hEnded x).
(** setter of a record field (no counterpart in /repo) *)
Definition set_closedPeer (v : bool) (x : strm) : strm := mkStrm (sid x) (spush x) (cancelled x) (closedSelf x) v (fullClosed x) (binded x) (chClosed x) (fullCh x) (notified x) (got x) (out x) (lateRst x) (rstd x) (hEnded x).
(** setter of a record field (no counterpart in /repo) *)
Definition set_fullClosed (v : bool) (x : strm) : strm := mkStrm (sid x) (spush x) (cancelled x) (closedSelf x) (closedPeer x) v (binded x) (chClosed x) (fullCh x) (notified x) (got x) (out x) (lateRst x) (rstd x) (hEnded x).
(** setter of a record field (no counterpart in /repo) *)
Definition set_binded (v : bool) (x : strm) : strm := mkStrm (sid x) (spush x) (cancelled x) (closedSelf x) (closedPeer x) (fullClosed x) v (chClosed x) (fullCh x) (notified x) (got x) (out x) (lateRst x) (rstd x) (hEnded x).
(** setter of a record field (no counterpart in /repo) *)
Definition set_chClosed (v : bool) (x : strm) : strm := mkStrm (sid x) (spush x) (cancelled x) (closedSelf x) (closedPeer x) (fullClosed x) (binded x) v (fullCh x) (notified x) (got x) (out x) (lateRst x) (rstd x) (hEnded x).
(** setter of a record field (no counterpart in /repo) *)
Definition set_fullCh (v : bool) (x : strm) : strm := mkStrm (sid x) (spush x) (cancelled x) (closedSelf x) (closedPeer x) (fullClosed x) (binded x) (chClosed x) v (notified x) (got x) (out x) (lateRst x) (rstd x) (hEnded x).
(** setter of a record field (no counterpart in /repo) *)
Definition set_notified (v : nat) (x : strm) : strm := mkStrm (sid x) (spush x) (cancelled x) (closedSelf x) (closedPeer x) (fullClosed x) (binded x) (chClosed x) (fullCh x) v (got x) (out x) (lateRst x) (rstd x) (hEnded x).
(** setter of a record field (no counterpart in /repo) *)
Definition set_got (v : list Frame) (x : strm) : strm := mkStrm (sid x) (spush x) (cancelled x) (closedSelf x) (closedPeer x) (fullClosed x) (binded x) (chClosed x) (fullCh x) (notified x) v (out x) (lateRst x) (rstd x) (hEnded x).
(** setter of a record field (no counterpart in /repo) *)
Definition set_out (v : list FrameFlag) (x : strm) : strm := mkStrm (sid x) (spush x) (cancelled x) (closedSelf x) (closedPeer x) (fullClosed x) (binded x) (chClosed x) (fullCh x) (notified x) (got x) v (lateRst x) (rstd x) (hEnded x).
(** setter of a record field (no counterpart in /repo) *)
Definition set_lateRst (v : bool) (x : strm) : strm := mkStrm (sid x) (spush x) (cancelled x) (closedSelf x) (closedPeer x) (fullClosed x) (binded x) (chClosed x) (fullCh x) (notified x) (got x) (out x) v (rstd x) (hEnded x).
(** setter of a record field (no counterpart in /repo) *)
Definition set_rstd (v : bool) (x : strm) : strm := mkStrm (sid x) (spush x) (cancelled x) (closedSelf x) (closedPeer x) (fullClosed x) (binded x) (chClosed x) (fullCh x) (notified x) (got x) (out x) (lateRst x) v (hEnded x).
(** setter of a record field (no counterpart in /repo) *)
Definition set_hEnded (v : bool) (x : strm) : strm := mkStrm (sid x) (spush x) (cancelled x) (closedSelf x) (closedPeer x) (fullClosed x) (binded x) (chClosed x) (fullCh x) (notified x) (got x) (out x) (lateRst x) (rstd x) v.

(** stream.go:89-94 newStream *)
Definition newStream (requestID : N) (push : bool) : strm :=
  mkStrm requestID push false false false false false false false 0%nat [] [] false false false.

(** what happens when closePeerIfNeeded returns: TryBind returns true and ReadFrame returns the frame
    (framereader.go:67-69), or AddInFrame returns true and ReadFrame starts over (framereader.go:75) *)
Inductive rcont := KRet | KStart.

(** program counter of the reader goroutine, at ReadFrame (framereader.go:40-77) *)
Inductive rpc_t :=
| RIdle                                   (* at dfr.readFrame(), framereader.go:42 *)
| RRst (f : Frame)                        (* GetStream, framereader.go:55 *)
| RRbp1 (s : N)                           (* ResetByPeer: CAS closedPeer, stream.go:199 *)
| RRbp2 (s : N)                           (* close(frameCh), stream.go:201 *)
| RRbp3 (s : N)                           (* reset, stream.go:204 *)
| RGet (f : Frame)                        (* CreateOrGetStream, framereader.go:62 *)
| RBind (f : Frame) (s : N)               (* TryBind, framereader.go:67, stream.go:106-111 *)
| RCl1 (f : Frame) (s : N) (k : rcont)    (* closePeerIfNeeded, stream.go:146-151 *)
| RCl2 (s : N) (k : rcont)                (* store closedPeer, stream.go:153 *)
| RCl3 (s : N) (k : rcont)                (* close(frameCh), stream.go:154 *)
| RCl4 (s : N) (k : rcont)                (* load closedSelf, stream.go:155 *)
| RAd1 (s : N) (k : rcont)                (* afterDone: CAS fullClosed, stream.go:209 *)
| RAd2 (s : N) (k : rcont)                (* reset, stream.go:212 *)
| RAd3 (s : N) (k : rcont)                (* closeNotify, stream.go:213 *)
| RAd4 (s : N) (k : rcont)                (* close(fullCloseCh), stream.go:214 *)
| RAddIn (f : Frame) (s : N)              (* AddInFrame: load closedPeer, stream.go:132 *)
| RSend (f : Frame) (s : N)               (* select, stream.go:136-142 *)
| RWait (f : Frame) (s : N)               (* <-s.Done(), framereader.go:72 *)
| RExit.                                  (* reader goroutine returned *)

(** program counter of the writer, in collectWriteFrames and AddOutFrame (stream.go:166-195) *)
Inductive wpc_t :=
| WIdle                                   (* select on writeFrameCh *)
| WLook (id : N) (fl : FrameFlag) (ce : bool) (* GetStream / CreateOrGetStream; ce = dfw.checkExist is looked at *)
| WR1 (s : N) (fl : FrameFlag)            (* swap closedSelf, stream.go:171 *)
| WR2 (s : N) (fl : FrameFlag) (old : bool)   (* load closedPeer, stream.go:173 *)
| WN1 (s : N) (fl : FrameFlag)            (* load closedSelf, stream.go:182; IsDone, 186 *)
| WN2 (s : N) (fl : FrameFlag)            (* store closedSelf, stream.go:190 *)
| WN3 (s : N) (fl : FrameFlag)            (* load closedPeer, stream.go:191 *)
| WAd1 (s : N) (fl : FrameFlag) (acc : bool)  (* afterDone, stream.go:209; acc = what AddOutFrame returns *)
| WAd2 (s : N) (fl : FrameFlag) (acc : bool)
| WAd3 (s : N) (fl : FrameFlag) (acc : bool)
| WAd4 (s : N) (fl : FrameFlag) (acc : bool)
| WExit.                                  (* no writer any more *)

(** result of a write request (serveconn.go:637-670) *)
Inductive wres :=
| WSent (s : option N)      (* put into cachedBuffs; the stream it was accounted to (None: pushed frame) *)
| WErrRstNonExisting        (* ErrRstNonExistingStream *)
| WNoNeed                   (* nil, reset not sent *)
| WErrNotExists             (* ErrStreamNotExists *)
| WErrClosedSelf.           (* ErrWriteAfterCloseSelf *)

(** stream.go:12-17, 74-87: the streams of a connection, its reader and its writer. *)
Record sst := mkSst {
  heap : N -> strm;               (* streams, by creation order *)
  next : N;                       (* number of streams created *)
  tbl : bool -> N -> option N;    (* stream.go:13-17; true = pushstreams *)
  connDone : bool;                (* the connection's ctx is cancelled *)
  rpc : rpc_t;
  wpc : wpc_t;
  wfirst : bool;                  (* the writer waits for the first frame of a batch (clientconn.go:604-653) *)
  rstq : list N;                  (* streams for which handleRequestPanic queued a reset, oldest first *)
  panicked : bool;
  inlog : list Frame;             (* ghost: frames read from the network, oldest first *)
  wlog : list (N * FrameFlag * wres);   (* ghost: handled write requests, oldest first *)
}.

(** field setters (no counterpart in /repo) *)
Definition w_heap (v : N -> strm) (st : sst) : sst := mkSst v (next st) (tbl st) (connDone st) (rpc st) (wpc st) (wfirst st) (rstq st) (panicked st) (inlog st) (wlog st).
(** setter of a record field (no counterpart in /repo) *)
Definition w_next (v : N) (st : sst) : sst := mkSst (heap st) v (tbl st) (connDone st) (rpc st) (wpc st) (wfirst st) (rstq st) (panicked st) (inlog st) (wlog st).
(** setter of a record field (no counterpart in /repo) *)
Definition w_tbl (v : bool -> N -> option N) (st : sst) : sst := mkSst (heap st) (next st) v (connDone st) (rpc st) (wpc st) (wfirst st) (rstq st) (panicked st) (inlog st) (wlog st).
(** setter of a record field (no counterpart in /repo) *)
Definition w_connDone (v : bool) (st : sst) : sst := mkSst (heap st) (next st) (tbl st) v (rpc st) (wpc st) (wfirst st) (rstq st) (panicked st) (inlog st) (wlog st).
(** setter of a record field (no counterpart in /repo) *)
Definition w_rpc (v : rpc_t) (st : sst) : sst := mkSst (heap st) (next st) (tbl st) (connDone st) v (wpc st) (wfirst st) (rstq st) (panicked st) (inlog st) (wlog st).
(** setter of a record field (no counterpart in /repo) *)
Definition w_wpc (v : wpc_t) (st : sst) : sst := mkSst (heap st) (next st) (tbl st) (connDone st) (rpc st) v (wfirst st) (rstq st) (panicked st) (inlog st) (wlog st).
(** setter of a record field (no counterpart in /repo) *)
Definition w_wfirst (v : bool) (st : sst) : sst := mkSst (heap st) (next st) (tbl st) (connDone st) (rpc st) (wpc st) v (rstq st) (panicked st) (inlog st) (wlog st).
(** setter of a record field (no counterpart in /repo) *)
Definition w_rstq (v : list N) (st : sst) : sst := mkSst (heap st) (next st) (tbl st) (connDone st) (rpc st) (wpc st) (wfirst st) v (panicked st) (inlog st) (wlog st).
(** setter of a record field (no counterpart in /repo) *)
Definition w_panicked (v : bool) (st : sst) : sst := mkSst (heap st) (next st) (tbl st) (connDone st) (rpc st) (wpc st) (wfirst st) (rstq st) v (inlog st) (wlog st).
(** setter of a record field (no counterpart in /repo) *)
Definition w_inlog (v : list Frame) (st : sst) : sst := mkSst (heap st) (next st) (tbl st) (connDone st) (rpc st) (wpc st) (wfirst st) (rstq st) (panicked st) v (wlog st).
(** setter of a record field (no counterpart in /repo) *)
Definition w_wlog (v : list (N * FrameFlag * wres)) (st : sst) : sst := mkSst (heap st) (next st) (tbl st) (connDone st) (rpc st) (wpc st) (wfirst st) (rstq st) (panicked st) (inlog st) v.

(** change stream [s] *)
Definition modS (s : N) (g : strm -> strm) (st : sst) : sst := w_heap (upd (heap st) s (g (heap st s))) st.
(** sync.Map Store / Delete *)
Definition tset (t : bool -> N -> option N) (p : bool) (id : N) (v : option N) : bool -> N -> option N :=
  fun p' => if Bool.eqb p' p then upd (t p) id v else t p'.

(** stream.go:36-59 CreateOrGetStream: LoadOrStore.  The stream object thrown away when the key is
    already present is not represented. *)
Definition createOrGet (st : sst) (id : N) (fl : FrameFlag) : sst * N :=
  match tbl st (IsPush fl) id with
  | Some s => (st, s)
  | None => (w_tbl (tset (tbl st) (IsPush fl) id (Some (next st)))
              (w_next (next st + 1) (w_heap (upd (heap st) (next st) (newStream id (IsPush fl))) st)), next st)
  end.

(** the stream's ctx is done: it is a child of the connection's ctx (stream.go:90) *)
Definition ctxDone (st : sst) (s : N) : bool := connDone st || cancelled (heap st s).

Definition rend (k : rcont) : rpc_t := RIdle.   (* framereader.go:68 returns to readFrames, 75 loops *)
Definition boom (st : sst) : sst := w_panicked true st.

(** closeNotify: target.Delete(requestID), stream.go:47-50 *)
Definition notify (s : N) (st : sst) : sst :=
  let x := heap st s in
  w_tbl (tset (tbl st) (spush x) (sid x) None) (modS s (set_notified (S (notified x))) st).

(** deterministic step of the reader *)
Definition rstep (st : sst) : option sst :=
  match rpc st with
  | RRst f =>
    match tbl st (IsPush (fFlags f)) (fRequestID f) with
    | Some s => Some (w_rpc (RRbp1 s) st)
    | None => Some (w_rpc RIdle st)
    end
  | RRbp1 s =>
    let x := heap st s in
    if closedPeer x then Some (w_rpc (RRbp3 s) (modS s (set_rstd true) st))
    else Some (w_rpc (RRbp2 s) (modS s (fun x => set_rstd true (set_lateRst (closedSelf x) (set_closedPeer true x))) st))
  | RRbp2 s =>
    if chClosed (heap st s) then Some (boom st)
    else Some (w_rpc (RRbp3 s) (modS s (set_chClosed true) st))
  | RRbp3 s => Some (w_rpc RIdle (modS s (set_cancelled true) st))
  | RGet f => let '(st', s) := createOrGet st (fRequestID f) (fFlags f) in Some (w_rpc (RBind f s) st')
  | RBind f s =>
    if binded (heap st s) then Some (w_rpc (RAddIn f s) st)
    else Some (w_rpc (RCl1 f s KRet) (modS s (fun x => set_got [f] (set_binded true x)) st))
  | RCl1 f s k =>
    let st1 := if IsPush (fFlags f) then modS s (set_closedSelf true) st else st in
    Some (w_rpc (if IsDone (fFlags f) then RCl2 s k else rend k) st1)
  | RCl2 s k => Some (w_rpc (RCl3 s k) (modS s (set_closedPeer true) st))
  | RCl3 s k =>
    if chClosed (heap st s) then Some (boom st)
    else Some (w_rpc (RCl4 s k) (modS s (set_chClosed true) st))
  | RCl4 s k => Some (w_rpc (if closedSelf (heap st s) then RAd1 s k else rend k) st)
  | RAd1 s k =>
    if fullClosed (heap st s) then Some (w_rpc (rend k) st)
    else Some (w_rpc (RAd2 s k) (modS s (set_fullClosed true) st))
  | RAd2 s k => Some (w_rpc (RAd3 s k) (modS s (set_cancelled true) st))
  | RAd3 s k => Some (w_rpc (RAd4 s k) (notify s st))
  | RAd4 s k =>
    if fullCh (heap st s) then Some (boom st)
    else Some (w_rpc (rend k) (modS s (set_fullCh true) st))
  | RAddIn f s => Some (w_rpc (if closedPeer (heap st s) then RWait f s else RSend f s) st)
  | RWait f s => if fullCh (heap st s) then Some (w_rpc RIdle st) else None   (* f is dropped *)
  | RIdle | RSend _ _ | RExit => None
  end.

(** a write request is finished *)
Definition wdone (id : N) (fl : FrameFlag) (r : wres) (st : sst) : sst :=
  w_wpc WIdle (w_wlog (wlog st ++ [(id, fl, r)]) st).
(** accepted: appended to cachedRequests and cachedBuffs (serveconn.go:669-670, clientconn.go:647-648) *)
Definition waccept (s : N) (fl : FrameFlag) (st : sst) : sst :=
  w_wfirst false (wdone (sid (heap st s)) fl (WSent (Some s)) (modS s (fun x => set_out (out x ++ [fl]) x) st)).
(** AddOutFrame returned [acc] for a frame handled by afterDone *)
Definition wfin (s : N) (fl : FrameFlag) (acc : bool) (st : sst) : sst :=
  if acc then waccept s fl st else wdone (sid (heap st s)) fl WNoNeed st.

(** deterministic step of the writer *)
Definition wstep (st : sst) : option sst :=
  match wpc st with
  | WLook id fl ce =>
    if IsRst fl then                                         (* serveconn.go:637-647 *)
      match tbl st (IsPush fl) id with
      | Some s => Some (w_wpc (WR1 s fl) st)
      | None => Some (wdone id fl WErrRstNonExisting st)
      end
    else if IsPush fl then Some (w_wfirst false (wdone id fl (WSent None) st))   (* serveconn.go:648 *)
    else if ce then                                          (* serveconn.go:650-655 *)
      match tbl st false id with
      | Some s => Some (w_wpc (WN1 s fl) st)
      | None => Some (wdone id fl WErrNotExists st)
      end
    else let '(st', s) := createOrGet st id fl in Some (w_wpc (WN1 s fl) st')    (* serveconn.go:658 *)
  | WR1 s fl => Some (w_wpc (WR2 s fl (closedSelf (heap st s))) (modS s (set_closedSelf true) st))
  | WR2 s fl old =>
    if closedPeer (heap st s) then Some (w_wpc (WAd1 s fl (negb old)) st)
    else Some (waccept s fl st)
  | WN1 s fl =>
    if closedSelf (heap st s) then Some (wdone (sid (heap st s)) fl WErrClosedSelf st)
    else if IsDone fl then Some (w_wpc (WN2 s fl) st)
    else Some (waccept s fl st)
  | WN2 s fl => Some (w_wpc (WN3 s fl) (modS s (set_closedSelf true) st))
  | WN3 s fl =>
    if closedPeer (heap st s) then Some (w_wpc (WAd1 s fl true) st)
    else Some (waccept s fl st)
  | WAd1 s fl a =>
    if fullClosed (heap st s) then Some (wfin s fl a st)
    else Some (w_wpc (WAd2 s fl a) (modS s (set_fullClosed true) st))
  | WAd2 s fl a => Some (w_wpc (WAd3 s fl a) (modS s (set_cancelled true) st))
  | WAd3 s fl a => Some (w_wpc (WAd4 s fl a) (notify s st))
  | WAd4 s fl a =>
    if fullCh (heap st s) then Some (boom st)
    else Some (wfin s fl a (modS s (set_fullCh true) st))
  | WIdle | WExit => None
  end.

(** stream.go:227-230 Stream.Release, run when reader and writer are gone *)
Definition relStream (s : N) (st : sst) : sst :=
  let x := heap st s in
  let st1 := modS s (fun x => set_cancelled true (set_chClosed true (set_closedPeer true x))) st in
  if fullClosed x then st1
  else notify s (modS s (fun x => set_fullCh true (set_fullClosed true x)) st1).

(** The atomic actions: stream.go:20-230, framereader.go:40-77, serveconn.go:622-680, clientconn.go:595-701. *)
Inductive slabel :=
| LFrame (f : Frame)        (* readFrame returns f *)
| LRStep                    (* next step of the reader *)
| LDeliver                  (* someone receives the pending frame from frameCh (stream.go:137) *)
| LCtx                      (* the select takes the ctx.Done branch (stream.go:140) *)
| LRExit                    (* readFrame fails: the reader goroutine returns *)
| LWrite (id : N) (fl : FrameFlag) (ce : bool)   (* a write request is taken from writeFrameCh *)
| LWriteRst                 (* the oldest reset queued by handleRequestPanic is taken *)
| LWStep                    (* next step of the writer *)
| LWFlush                   (* the batch ends: written, next batch *)
| LWExit                    (* the writer stops for good *)
| LHEnd (s : N)             (* the handler of stream s's request returned: handleRequestPanic *)
| LDone                     (* the connection's ctx is cancelled *)
| LRel (s : N).             (* ConnStreams.Release visits s (stream.go:61-72) *)

(** Is dfw.checkExist looked at?  The server always does (serveconn.go:650); the client only for the
    first frame of a batch (clientconn.go:627 versus 678-687). *)
Definition honours (isClient : bool) (st : sst) : bool := negb isClient || wfirst st.

(** One action; the lines are given case by case. *)
Definition sstep (isClient : bool) (st : sst) (l : slabel) : option sst :=
  if panicked st then None else
  match l with
  | LFrame f =>
    match rpc st with
    | RIdle => Some (w_rpc (if IsRst (fFlags f) then RRst f else RGet f) (w_inlog (inlog st ++ [f]) st))
    | _ => None
    end
  | LRStep => rstep st
  | LDeliver =>
    match rpc st with
    | RSend f s =>
      if chClosed (heap st s) then Some (boom st)   (* send on closed channel *)
      else Some (w_rpc (RCl1 f s KStart) (modS s (fun x => set_got (got x ++ [f]) x) st))
    | _ => None
    end
  | LCtx =>
    match rpc st with
    | RSend f s => if ctxDone st s then Some (w_rpc (RWait f s) st) else None
    | _ => None
    end
  | LRExit => match rpc st with RIdle => Some (w_rpc RExit st) | _ => None end
  | LWrite id fl ce =>
    match wpc st with WIdle => Some (w_wpc (WLook id fl (ce && honours isClient st)) st) | _ => None end
  | LWriteRst =>
    match wpc st, rstq st with
    | WIdle, s :: q => Some (w_wpc (WLook (sid (heap st s)) StreamRstFlag false) (w_rstq q st))
    | _, _ => None
    end
  | LWStep => wstep st
  | LWFlush => match wpc st with WIdle => Some (w_wfirst true st) | _ => None end
  | LWExit => match wpc st with WIdle => Some (w_wpc WExit st) | _ => None end
  | LHEnd s =>                                               (* serveconn.go:267-276 *)
    let x := heap st s in
    if (s <? next st) && binded x && negb (hEnded x) && negb (spush x) then
      let st1 := modS s (set_hEnded true) st in
      Some (if closedSelf x then st1 else w_rstq (rstq st ++ [s]) st1)
    else None
  | LDone => Some (w_connDone true st)
  | LRel s =>
    match rpc st, wpc st with
    | RExit, WExit =>
      if match tbl st (spush (heap st s)) (sid (heap st s)) with Some s' => N.eqb s' s | None => false end
      then Some (relStream s st) else None
    | _, _ => None
    end
  end.

(** a new connection: empty tables (clientconn.go:195, server.go: newConn) *)
Definition sinit : sst :=
  mkSst (fun _ => newStream 0 false) 0 (fun _ _ => None) false RIdle WIdle true [] false [] [].
