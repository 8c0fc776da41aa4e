(** Model of concurrent EndWrite calls on a server connection: serveconn.writeFrameBytes, collectWriteFrames,
    writeBuffers, addAndCheckInflight, tryFreeStreams (serveconn.go:448-695), with the parts of serve, readFrames,
    Close and the kick by SetID they interact with.  A call of writeFrameBytes is a number; any number of
    calls run at the same time.

    Assumed: a Go release whose net.Buffers clears consumed entries, by which the code tells written frames (Props/Io.v, C14).
    Simplified: a frame is its call's number, and the write of a batch is one step that writes all of it, or fails after the
    first n frames (bytes: Model/ConnWriter.v); whether the stream logic accepts a frame is up to the environment (Model/Stream.v);
    the write requests of wfrPool are taken to be fresh (a request is put back only after its result was received);
    ErrNoNewUUID is left out (Model/Response.v); int32 is Z; metrics and the close rate limiter are left out.  The steps of
    untrack and closeUntracked that matter here are the flags below (Model/Lifecycle.v has the rest). *)
From Verif Require Import Model.GoBase Model.Machine.
Open Scope N_scope.

(** what a call is answered: [ROk] its frame was written; [RNil] nil for a reset that need not be sent (serveconn.go:645);
    [RErr] an error *)
Inductive wr := ROk | RNil | RErr.

(** Where a call is: about to do the action named.  [ok]: releaseWlock.  [QDone None]: returned ctx.Err(). *)
Inductive wpc :=
| QIdle
| QEnq                                (* select: serveconn.go:460-464 *)
| QSel                                (* select: serveconn.go:466-538 *)
| QHold                               (* holds the lock; len(wfr.result) > 0: 470 *)
| QRel                                (* <-sc.wlockCh: 472 *)
| QRecv                               (* <-wfr.result: 473 *)
| QInf                                (* addAndCheckInflight: 480, 683 *)
| QBack                               (* inflight - 1: 684 *)
| QStuck                              (* <-sc.ctx.Done(): 482-485 *)
| QColl (i : nat) (k : list N)        (* collectWriteFrames, loop index, cachedRequests: 622-680 *)
| QWrite (k : list N)                 (* writeBuffers: 542-588 *)
| QErr (k : list N) (n : nat)         (* the write failed after n frames; IsClosed(): 595 *)
| QUntr (k : list N) (n : nat)        (* Close, untrack: 596, 761, server.go:491-512 *)
| QWaitU (k : list N) (n : nat)       (* <-ch: 763 *)
| QCls (k : list N) (n : nat)         (* closeUntracked: 765-784 *)
| QCan (k : list N) (n : nat)         (* cancelCtx: 786 *)
| QAns (a : list (N * wr)) (ok : bool) (* request.result <- ...: 561-563, 602-617 *)
| QWait (ok : bool)                   (* err = <-wfr.result: 527 *)
| QFree (ok : bool) (r : option wr)   (* deferred tryFreeStreams: 492, 690-695 *)
| QUnl (r : option wr)                (* deferred <-sc.wlockCh: 506 *)
| QDone (r : option wr).

(** readFrames: serve has not started it; running; returned *)
Inductive rdst := RNot | RRun | RQuit.

(** serveconn.go:27-60, 448-450: the connection, its calls of writeFrameBytes; ghosts. *)
Record wst := mkW {
  wq : list N; (* writeFrameCh: calls whose frame is queued, oldest first *)
  lock : option N; (* wlockCh: the call that put its token in *)
  rs : N -> option wr; (* content of the call's wfr.result (capacity 1) *)
  pc : N -> wpc; (* where each call is *)
  infl : Z; (* sc.inflight *)
  rd : rdst; (* readFrames *)
  untr : bool; (* sc.untrack <> 0: IsClosed() *)
  utch : bool; (* sc.untrackedCh closed *)
  clsd : bool; (* ci.closed *)
  ctxD : bool; (* sc.ctx is done *)
  kicking : bool; (* a goroutine is in untrack(sc, true), OnKickCB has not returned *)
  kcb : option N; (* the EndWrite call OnKickCB is in *)
  wire : list N; (* calls whose frame has been written completely, in order *)
  failed : bool; (* ghost: a write to the connection has failed *)
  released : nat; (* calls of sc.cs.Release *)
  late : bool; (* ghost: a stream was created or looked up in sc.cs after Release *)
  enq : list N; (* ghost: calls in the order their frames were queued *)
  calls : list N }. (* ghost: all EndWrite calls so far, newest first *)

(** setters of the record above (no counterpart in /repo) *)
Definition w_wq (v : list N) (s : wst) : wst := mkW v (lock s) (rs s) (pc s) (infl s) (rd s) (untr s) (utch s) (clsd s) (ctxD s) (kicking s) (kcb s) (wire s) (failed s) (released s) (late s) (enq s) (calls s).
(** setter of a field of [wst] (no counterpart in /repo) *)
Definition w_lock (v : option N) (s : wst) : wst := mkW (wq s) v (rs s) (pc s) (infl s) (rd s) (untr s) (utch s) (clsd s) (ctxD s) (kicking s) (kcb s) (wire s) (failed s) (released s) (late s) (enq s) (calls s).
(** setter of a field of [wst] (no counterpart in /repo) *)
Definition w_rs (v : N -> option wr) (s : wst) : wst := mkW (wq s) (lock s) v (pc s) (infl s) (rd s) (untr s) (utch s) (clsd s) (ctxD s) (kicking s) (kcb s) (wire s) (failed s) (released s) (late s) (enq s) (calls s).
(** setter of a field of [wst] (no counterpart in /repo) *)
Definition w_pc (v : N -> wpc) (s : wst) : wst := mkW (wq s) (lock s) (rs s) v (infl s) (rd s) (untr s) (utch s) (clsd s) (ctxD s) (kicking s) (kcb s) (wire s) (failed s) (released s) (late s) (enq s) (calls s).
(** setter of a field of [wst] (no counterpart in /repo) *)
Definition w_infl (v : Z) (s : wst) : wst := mkW (wq s) (lock s) (rs s) (pc s) v (rd s) (untr s) (utch s) (clsd s) (ctxD s) (kicking s) (kcb s) (wire s) (failed s) (released s) (late s) (enq s) (calls s).
(** setter of a field of [wst] (no counterpart in /repo) *)
Definition w_rd (v : rdst) (s : wst) : wst := mkW (wq s) (lock s) (rs s) (pc s) (infl s) v (untr s) (utch s) (clsd s) (ctxD s) (kicking s) (kcb s) (wire s) (failed s) (released s) (late s) (enq s) (calls s).
(** setter of a field of [wst] (no counterpart in /repo) *)
Definition w_untr (v : bool) (s : wst) : wst := mkW (wq s) (lock s) (rs s) (pc s) (infl s) (rd s) v (utch s) (clsd s) (ctxD s) (kicking s) (kcb s) (wire s) (failed s) (released s) (late s) (enq s) (calls s).
(** setter of a field of [wst] (no counterpart in /repo) *)
Definition w_utch (v : bool) (s : wst) : wst := mkW (wq s) (lock s) (rs s) (pc s) (infl s) (rd s) (untr s) v (clsd s) (ctxD s) (kicking s) (kcb s) (wire s) (failed s) (released s) (late s) (enq s) (calls s).
(** setter of a field of [wst] (no counterpart in /repo) *)
Definition w_clsd (v : bool) (s : wst) : wst := mkW (wq s) (lock s) (rs s) (pc s) (infl s) (rd s) (untr s) (utch s) v (ctxD s) (kicking s) (kcb s) (wire s) (failed s) (released s) (late s) (enq s) (calls s).
(** setter of a field of [wst] (no counterpart in /repo) *)
Definition w_ctxD (v : bool) (s : wst) : wst := mkW (wq s) (lock s) (rs s) (pc s) (infl s) (rd s) (untr s) (utch s) (clsd s) v (kicking s) (kcb s) (wire s) (failed s) (released s) (late s) (enq s) (calls s).
(** setter of a field of [wst] (no counterpart in /repo) *)
Definition w_kicking (v : bool) (s : wst) : wst := mkW (wq s) (lock s) (rs s) (pc s) (infl s) (rd s) (untr s) (utch s) (clsd s) (ctxD s) v (kcb s) (wire s) (failed s) (released s) (late s) (enq s) (calls s).
(** setter of a field of [wst] (no counterpart in /repo) *)
Definition w_kcb (v : option N) (s : wst) : wst := mkW (wq s) (lock s) (rs s) (pc s) (infl s) (rd s) (untr s) (utch s) (clsd s) (ctxD s) (kicking s) v (wire s) (failed s) (released s) (late s) (enq s) (calls s).
(** setter of a field of [wst] (no counterpart in /repo) *)
Definition w_wire (v : list N) (s : wst) : wst := mkW (wq s) (lock s) (rs s) (pc s) (infl s) (rd s) (untr s) (utch s) (clsd s) (ctxD s) (kicking s) (kcb s) v (failed s) (released s) (late s) (enq s) (calls s).
(** setter of a field of [wst] (no counterpart in /repo) *)
Definition w_failed (v : bool) (s : wst) : wst := mkW (wq s) (lock s) (rs s) (pc s) (infl s) (rd s) (untr s) (utch s) (clsd s) (ctxD s) (kicking s) (kcb s) (wire s) v (released s) (late s) (enq s) (calls s).
(** setter of a field of [wst] (no counterpart in /repo) *)
Definition w_released (v : nat) (s : wst) : wst := mkW (wq s) (lock s) (rs s) (pc s) (infl s) (rd s) (untr s) (utch s) (clsd s) (ctxD s) (kicking s) (kcb s) (wire s) (failed s) v (late s) (enq s) (calls s).
(** setter of a field of [wst] (no counterpart in /repo) *)
Definition w_late (v : bool) (s : wst) : wst := mkW (wq s) (lock s) (rs s) (pc s) (infl s) (rd s) (untr s) (utch s) (clsd s) (ctxD s) (kicking s) (kcb s) (wire s) (failed s) (released s) v (enq s) (calls s).
(** setter of a field of [wst] (no counterpart in /repo) *)
Definition w_enq (v : list N) (s : wst) : wst := mkW (wq s) (lock s) (rs s) (pc s) (infl s) (rd s) (untr s) (utch s) (clsd s) (ctxD s) (kicking s) (kcb s) (wire s) (failed s) (released s) (late s) v (calls s).
(** setter of a field of [wst] (no counterpart in /repo) *)
Definition w_calls (v : list N) (s : wst) : wst := mkW (wq s) (lock s) (rs s) (pc s) (infl s) (rd s) (untr s) (utch s) (clsd s) (ctxD s) (kicking s) (kcb s) (wire s) (failed s) (released s) (late s) (enq s) v.

(** newConn: server.go:421-443 *)
Definition winit : wst :=
  mkW [] None (fun _ => None) (fun _ => QIdle) 0%Z RNot false false false false false None [] false 0%nat false [] [].

(** which way a call goes where there is more than one *)
Inductive choice :=
| CGo | CSend | CLock | CResult | CCtx      (* the arms of the selects *)
| CKeep (st : bool)                         (* collect: the frame is kept; st: sc.cs is used *)
| CReject (r : wr) (st : bool)              (* collect: it is answered at once *)
| CDefault                                  (* collect: the loop ends *)
| CRegFail                                  (* ErrConnAlreadyClosed: serveconn.go:559-565 *)
| CWriteOk | CWriteErr (n : nat).

(** The atomic actions of the calls and of the rest of the connection. *)
Inductive wlabel :=
| WStart (w : N)              (* EndWrite is called: framewriter.go EndWrite -> writeFrameBytes *)
| WStep (w : N) (c : choice)
| EServe                      (* serve: serveconn.go:178-181 *)
| ERead                       (* the reader reads a frame: framereader.go:62 *)
| ERdQuit                     (* readFrames returns: serveconn.go:332-333 *)
| EUntrack                    (* another goroutine's untrack without OnKickCB *)
| ECls                        (* another goroutine's closeUntracked: serveconn.go:769-784 *)
| ECancel                     (* and its cancelCtx: serveconn.go:786 *)
| EStop                       (* the listener's Serve returns: all its connections' contexts are cancelled: server.go:292-293, 335 *)
| EKick                       (* bindID: untrack(sc, true), before OnKickCB: server.go:462, 491-507 *)
| EKCall (w : N)              (* OnKickCB calls EndWrite *)
| EKRet                       (* which returns *)
| EKEnd.                      (* OnKickCB returns, untrackedCh closed: server.go:507-510 *)

(** serveconn.go:602-610: after a failed write, the requests whose buffers are consumed get nil, the others the error *)
Definition failAns (k : list N) (n : nat) : list (N * wr) :=
  map (fun x => (x, ROk)) (firstn n k) ++ map (fun x => (x, RErr)) (skipn n k).

(** call w is at p (no counterpart in /repo). *)
Definition go (w : N) (p : wpc) (s : wst) : wst := w_pc (upd (pc s) w p) s.
(** request.result <- v, or its content taken (serveconn.go:473, 527, 532, 562, 604-615). *)
Definition put (x : N) (v : option wr) (s : wst) : wst := w_rs (upd (rs s) x v) s.
(** use of sc.cs: serveconn.go:637-667, framereader.go:55-62 *)
Definition useCs (st : bool) (s : wst) : wst := if st && (0 <? released s)%nat then w_late true s else s.
(** serveconn.go:690-695 tryFreeStreams *)
Definition tryFree (s : wst) : wst :=
  let s := w_infl (infl s - 1)%Z s in
  if (infl s =? 0)%Z then w_released (S (released s)) s else s.
(** a call of writeFrameBytes begins: serveconn.go:452. *)
Definition start (w : N) (s : wst) : wst := w_calls (w :: calls s) (go w QEnq s).

(** One action of call w: serveconn.go:452-680. *)
Definition cstep (cap : nat) (s : wst) (w : N) (c : choice) : option wst :=
  match pc s w, c with
  | QEnq, CSend => if (length (wq s) <? cap)%nat then Some (go w QSel (w_enq (enq s ++ [w]) (w_wq (wq s ++ [w]) s))) else None
  | QEnq, CCtx => if ctxD s then Some (go w (QDone None) s) else None
  | QSel, CLock => match lock s with None => Some (go w QHold (w_lock (Some w) s)) | Some _ => None end
  | QSel, CResult => match rs s w with Some r => Some (go w (QDone (Some r)) (put w None s)) | None => None end
  | QSel, CCtx => if ctxD s then Some (go w (QDone None) s) else None
  | QHold, CGo => match rs s w with Some _ => Some (go w QRel s) | None => Some (go w QInf s) end
  | QRel, CGo => Some (go w QRecv (w_lock None s))
  | QRecv, CGo => match rs s w with Some r => Some (go w (QDone (Some r)) (put w None s)) | None => None end
  | QInf, CGo => let s := w_infl (infl s + 1)%Z s in
                 if (infl s =? 1)%Z then Some (go w QBack s) else Some (go w (QColl 0 []) s)
  | QBack, CGo => Some (go w QStuck (w_infl (infl s - 1)%Z s))
  | QStuck, CCtx => if ctxD s then Some (go w (QDone None) s) else None
  | QColl i k, CKeep st =>
    match wq s with
    | x :: q => if (i <? cap)%nat then Some (go w (QColl (S i) (k ++ [x])) (useCs st (w_wq q s))) else None
    | [] => None
    end
  | QColl i k, CReject r st =>
    match wq s, r with
    | x :: q, ROk => None
    | x :: q, _ => if (i <? cap)%nat then match rs s x with
                                          | None => Some (go w (QColl (S i) k) (put x (Some r) (useCs st (w_wq q s))))
                                          | Some _ => None
                                          end else None
    | [], _ => None
    end
  | QColl i k, CCtx => if ctxD s && (i <? cap)%nat then Some (go w (QFree false None) s) else None
  | QColl i k, CDefault =>
    if (i <? cap)%nat then match wq s with [] => if ctxD s then None else Some (go w (QWrite k) s) | _ => None end
    else Some (go w (QWrite k) s)
  | QWrite [], CGo => Some (go w (QWait true) s)
  | QWrite (x :: k), CRegFail => if clsd s then Some (go w (QAns (map (fun y => (y, RErr)) (x :: k)) false) s) else None
  | QWrite (x :: k), CWriteOk => Some (go w (QAns (map (fun y => (y, ROk)) (x :: k)) true) (w_wire (wire s ++ x :: k) s))
  | QWrite (x :: k), CWriteErr n => Some (go w (QErr (x :: k) n) (w_failed true (w_wire (wire s ++ firstn n (x :: k)) s)))
  | QErr k n, CGo => if untr s then Some (go w (QAns (failAns k n) false) s) else Some (go w (QUntr k n) s)
  | QUntr k n, CGo => if untr s then Some (go w (QWaitU k n) s) else Some (go w (QCls k n) (w_utch true (w_untr true s)))
  | QWaitU k n, CGo => if utch s then Some (go w (QCls k n) s) else None
  | QCls k n, CGo => if clsd s then Some (go w (QAns (failAns k n) false) s) else Some (go w (QCan k n) (w_clsd true s))
  | QCan k n, CGo => Some (go w (QAns (failAns k n) false) (w_ctxD true s))
  | QAns ((x, r) :: a) ok, CGo => match rs s x with None => Some (go w (QAns a ok) (put x (Some r) s)) | Some _ => None end
  | QAns [] ok, CGo => Some (go w (QWait ok) s)
  | QWait ok, CGo => match rs s w with Some r => Some (go w (QFree ok (Some r)) (put w None s)) | None => None end
  | QFree ok r, CGo => Some (go w (if ok then QUnl r else QDone r) (tryFree s))
  | QUnl r, CGo => Some (go w (QDone r) (w_lock None s))
  | _, _ => None
  end.

(** not yet called (no counterpart in /repo). *)
Definition isIdle (p : wpc) : bool := match p with QIdle => true | _ => false end.

(** One action: serveconn.go:452-680 and the environment above. *)
Definition wstep (cap : nat) (s : wst) (l : wlabel) : option wst :=
  match l with
  | WStart w => if isIdle (pc s w) then Some (start w s) else None
  | WStep w c => cstep cap s w c
  | EServe => match rd s with RNot => Some (w_rd RRun (w_infl 1%Z s)) | _ => None end
  | ERead => match rd s with RRun => Some (useCs true s) | _ => None end
  | ERdQuit =>
    (* after sc.Close() has returned, so ci.closed is set (serveconn.go:378), or with the context done (417, 421, 428, 434) *)
    match rd s with RRun => if clsd s || ctxD s then Some (tryFree (w_rd RQuit s)) else None | _ => None end
  | EUntrack => if untr s then None else Some (w_utch true (w_untr true s))
  | ECls => if utch s then Some (w_clsd true s) else None
  | ECancel => if clsd s then Some (w_ctxD true s) else None
  | EStop => Some (w_ctxD true s)
  | EKick => if untr s then None else Some (w_kicking true (w_untr true s))
  | EKCall w => match kcb s with
                | None => if kicking s && isIdle (pc s w) then Some (w_kcb (Some w) (start w s)) else None
                | Some _ => None
                end
  | EKRet => match kcb s with
             | Some w => match pc s w with QDone _ => Some (w_kcb None s) | _ => None end
             | None => None
             end
  | EKEnd => match kcb s with
             | None => if kicking s then Some (w_kicking false (w_utch true s)) else None
             | Some _ => None
             end
  end.
