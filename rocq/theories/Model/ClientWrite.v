(** Model of concurrent EndWrite calls on a client connection: Connection.writeFrameBytes, writeFrames,
    collectWriteFrames, abortRequestsWhenClosed, writeBuffers (clientconn.go:380-418, 574-772), with the parts of
    loop, connect, closeRWC, readFrames and Close they interact with (clientconn.go:213-304, 429-466, 477-545),
    including the goroutines loop waits for: handlers (523-528) and the OnConnect and OnDisconnect callbacks, which
    loop runs itself (229-231, 236-238).  A call of writeFrameBytes is a number; any number of calls run at the
    same time.

    Assumed: a Go release whose net.Buffers clears consumed entries, by which the code tells written frames (Props/Io.v, C14).
    Simplified: a frame is its call's number, and the write of a batch is one step that writes all of it, or fails
    after the first n frames (bytes: Model/ConnWriter.v); whether the stream logic accepts a frame is up to the
    environment (Model/Stream.v); readFrames may return at any time (it does so when the link fails or is closed; how it
    can hang is in Model/Stream.v); the write requests of wfrPool are taken to be fresh; ErrNoNewUUID is left out
    (Model/Response.v); a SubFunc called by readFrames is one more handler (clientconn.go:496-498: loop waits
    for it as well).  Addresses and dialing: Model/Dial.v. *)
From Verif Require Import Model.GoBase Model.Machine.
Open Scope N_scope.

(** what a call is answered: [ROk] its frame was written; [RNil] nil for a reset that need not be sent
    (clientconn.go:622, 675); [RErr] an error *)
Inductive cres := ROk | RNil | RErr.

(** Where a call is: about to do the action named.  [g]: the incarnation whose loopCtx it loaded.
    [QDone None]: returned without a result, with loopCtx.Err() or ErrConnAlreadyClosed. *)
Inductive cpc :=
| QIdle
| QLoad               (* atomicLoopCtx: clientconn.go:389-392 *)
| QEnq (g : nat)      (* select: 393-397 *)
| QWaitR (g : nat)    (* 400-416 *)
| QDone (r : option cres).

(** The writer goroutine, writeFrames.  [k]: cachedRequests; [n]: frames taken in this batch. *)
Inductive wpc :=
| WFirst                                 (* the first select: 607-653 *)
| WGot (k : list N) (n : nat) (x : N)    (* x received: 610-648, 663-690 *)
| WMore (k : list N) (n : nat)           (* the select in the loop: 660-698 *)
| WWrite (k : list N)                    (* writeBuffers: 715-747 *)
| WAns (a : list (N * cres)) (ok : bool) (* sending results: 710-712, 725-727, 754-769; ok: writeFrames goes on *)
| WQuit.                                 (* returned; no writer *)

(** The loop goroutine. *)
Inductive lpc :=
| LCb1    (* OnConnect: 229-231 *)
| LServe  (* <-loopCtx.Done(), closeRWC: 233-234 *)
| LCb2    (* OnDisconnect: 236-238 *)
| LWait   (* loopWG.Wait, endLoop: 240-247 *)
| LConn   (* connect: 259-304 *)
| LExit.  (* returned *)

(** The connection (clientconn.go:25-59), its goroutines and the calls of writeFrameBytes. *)
Record cst := mkC {
  wq : list N; (* writeFrameCh, oldest first *)
  rs : N -> option cres; (* content of the call's wfr.result (capacity 1) *)
  pc : N -> cpc; (* where each call is *)
  gen : nat; (* incarnations of the connection so far; 0: loopCtx is nil *)
  lctx : bool; (* the current loopCtx is done (true when there is none) *)
  ctx : bool; (* Close was called: conn.ctx is done *)
  rwc : bool; (* conn.rwc <> nil *)
  lp : lpc; (* the loop *)
  lcall : option N; (* the call its callback is in *)
  wp : wpc; (* the writer *)
  rd : bool; (* readFrames is running *)
  hrun : list N; (* handlers that have not returned *)
  hcall : N -> option N; (* the call a handler is in *)
  wire : list (nat * N); (* frames written completely: incarnation, call; in order *)
  enq : list N; (* ghost: calls in the order their frames were queued *)
  calls : list N }. (* ghost: all calls so far, newest first *)

(** setters of the record above (no counterpart in /repo) *)
Definition c_wq (v : list N) (s : cst) : cst := mkC v (rs s) (pc s) (gen s) (lctx s) (ctx s) (rwc s) (lp s) (lcall s) (wp s) (rd s) (hrun s) (hcall s) (wire s) (enq s) (calls s).
(** setter of a field of [cst] (no counterpart in /repo) *)
Definition c_rs (v : N -> option cres) (s : cst) : cst := mkC (wq s) v (pc s) (gen s) (lctx s) (ctx s) (rwc s) (lp s) (lcall s) (wp s) (rd s) (hrun s) (hcall s) (wire s) (enq s) (calls s).
(** setter of a field of [cst] (no counterpart in /repo) *)
Definition c_pc (v : N -> cpc) (s : cst) : cst := mkC (wq s) (rs s) v (gen s) (lctx s) (ctx s) (rwc s) (lp s) (lcall s) (wp s) (rd s) (hrun s) (hcall s) (wire s) (enq s) (calls s).
(** setter of a field of [cst] (no counterpart in /repo) *)
Definition c_gen (v : nat) (s : cst) : cst := mkC (wq s) (rs s) (pc s) v (lctx s) (ctx s) (rwc s) (lp s) (lcall s) (wp s) (rd s) (hrun s) (hcall s) (wire s) (enq s) (calls s).
(** setter of a field of [cst] (no counterpart in /repo) *)
Definition c_lctx (v : bool) (s : cst) : cst := mkC (wq s) (rs s) (pc s) (gen s) v (ctx s) (rwc s) (lp s) (lcall s) (wp s) (rd s) (hrun s) (hcall s) (wire s) (enq s) (calls s).
(** setter of a field of [cst] (no counterpart in /repo) *)
Definition c_ctx (v : bool) (s : cst) : cst := mkC (wq s) (rs s) (pc s) (gen s) (lctx s) v (rwc s) (lp s) (lcall s) (wp s) (rd s) (hrun s) (hcall s) (wire s) (enq s) (calls s).
(** setter of a field of [cst] (no counterpart in /repo) *)
Definition c_rwc (v : bool) (s : cst) : cst := mkC (wq s) (rs s) (pc s) (gen s) (lctx s) (ctx s) v (lp s) (lcall s) (wp s) (rd s) (hrun s) (hcall s) (wire s) (enq s) (calls s).
(** setter of a field of [cst] (no counterpart in /repo) *)
Definition c_lp (v : lpc) (s : cst) : cst := mkC (wq s) (rs s) (pc s) (gen s) (lctx s) (ctx s) (rwc s) v (lcall s) (wp s) (rd s) (hrun s) (hcall s) (wire s) (enq s) (calls s).
(** setter of a field of [cst] (no counterpart in /repo) *)
Definition c_lcall (v : option N) (s : cst) : cst := mkC (wq s) (rs s) (pc s) (gen s) (lctx s) (ctx s) (rwc s) (lp s) v (wp s) (rd s) (hrun s) (hcall s) (wire s) (enq s) (calls s).
(** setter of a field of [cst] (no counterpart in /repo) *)
Definition c_wp (v : wpc) (s : cst) : cst := mkC (wq s) (rs s) (pc s) (gen s) (lctx s) (ctx s) (rwc s) (lp s) (lcall s) v (rd s) (hrun s) (hcall s) (wire s) (enq s) (calls s).
(** setter of a field of [cst] (no counterpart in /repo) *)
Definition c_rd (v : bool) (s : cst) : cst := mkC (wq s) (rs s) (pc s) (gen s) (lctx s) (ctx s) (rwc s) (lp s) (lcall s) (wp s) v (hrun s) (hcall s) (wire s) (enq s) (calls s).
(** setter of a field of [cst] (no counterpart in /repo) *)
Definition c_hrun (v : list N) (s : cst) : cst := mkC (wq s) (rs s) (pc s) (gen s) (lctx s) (ctx s) (rwc s) (lp s) (lcall s) (wp s) (rd s) v (hcall s) (wire s) (enq s) (calls s).
(** setter of a field of [cst] (no counterpart in /repo) *)
Definition c_hcall (v : N -> option N) (s : cst) : cst := mkC (wq s) (rs s) (pc s) (gen s) (lctx s) (ctx s) (rwc s) (lp s) (lcall s) (wp s) (rd s) (hrun s) v (wire s) (enq s) (calls s).
(** setter of a field of [cst] (no counterpart in /repo) *)
Definition c_wire (v : list (nat * N)) (s : cst) : cst := mkC (wq s) (rs s) (pc s) (gen s) (lctx s) (ctx s) (rwc s) (lp s) (lcall s) (wp s) (rd s) (hrun s) (hcall s) v (enq s) (calls s).
(** setter of a field of [cst] (no counterpart in /repo) *)
Definition c_enq (v : list N) (s : cst) : cst := mkC (wq s) (rs s) (pc s) (gen s) (lctx s) (ctx s) (rwc s) (lp s) (lcall s) (wp s) (rd s) (hrun s) (hcall s) (wire s) v (calls s).
(** setter of a field of [cst] (no counterpart in /repo) *)
Definition c_calls (v : list N) (s : cst) : cst := mkC (wq s) (rs s) (pc s) (gen s) (lctx s) (ctx s) (rwc s) (lp s) (lcall s) (wp s) (rd s) (hrun s) (hcall s) (wire s) (enq s) v.

(** newConnection: clientconn.go:187-211.  [up]: the first dial succeeded (always so for NewConnection). *)
Definition cinit (up : bool) : cst :=
  mkC [] (fun _ => None) (fun _ => QIdle) (if up then 1 else 0)%nat (negb up) false up (if up then LCb1 else LConn) None
      (if up then WFirst else WQuit) up [] (fun _ => None) [] [] [].

(** which way a call goes where there is more than one *)
Inductive cchoice := XLoad | XSend | XHand | XCtx | XResult.
(** and the writer *)
Inductive wchoice :=
| YTake                (* receive from the buffered writeFrameCh *)
| YKeep                (* the frame received is kept *)
| YReject (r : cres)   (* it is answered at once *)
| YCtx                 (* loopCtx.Done() *)
| YDefault             (* the loop of collectWriteFrames ends *)
| YNoConn              (* conn.rwc = nil: 723-728 *)
| YOk | YErr (n : nat) (* the write *)
| YGo.                 (* the next result *)

(** The atomic actions: clientconn.go:213-304, 380-418, 429-466, 477-545, 574-772. *)
Inductive clabel :=
| CStart (w : N)             (* a goroutine not mentioned below calls EndWrite *)
| CCall (w : N) (c : cchoice)
| CW (c : wchoice)
| CRdQuit                    (* readFrames returns: deferred loopCancelCtx, 479 *)
| CHandler (h : N)           (* readFrames starts a handler: 523 *)
| CHCall (h w : N)           (* a handler calls EndWrite *)
| CHRet (h : N)              (* which returns *)
| CHEnd (h : N)              (* the handler returns *)
| CLoop                      (* the loop's next action, not dialing *)
| CLCall (w : N)             (* a callback run by loop calls EndWrite *)
| CLRet                      (* which returns *)
| CDial (ok : bool)          (* 266-303 *)
| CCloseRWC                  (* a handler closes the connection it got: frame.go:89, closeRWC 429-443 *)
| CClose.                    (* Close: 454-465 *)

(** call w is at p (no counterpart in /repo). *)
Definition go (w : N) (p : cpc) (s : cst) : cst := c_pc (upd (pc s) w p) s.
(** request.result <- v, or its content taken (clientconn.go:402, 409, 711, 726, 756-767). *)
Definition put (x : N) (v : option cres) (s : cst) : cst := c_rs (upd (rs s) x v) s.
(** a call of writeFrameBytes begins: clientconn.go:380. *)
Definition start (w : N) (s : cst) : cst := c_calls (w :: calls s) (go w QLoad s).
(** not yet called (no counterpart in /repo). *)
Definition isIdle (p : cpc) : bool := match p with QIdle => true | _ => false end.
(** returned (no counterpart in /repo). *)
Definition isDone (p : cpc) : bool := match p with QDone _ => true | _ => false end.

(** loopCtx of incarnation g is done: each is cancelled before the next is made (clientconn.go:233, 284) *)
Definition ctxDone (s : cst) (g : nat) : bool := (g <? gen s)%nat || lctx s.

(** clientconn.go:389-416 *)
Definition callStep (reconnect : bool) (cap : nat) (s : cst) (w : N) (c : cchoice) : option cst :=
  match pc s w, c with
  | QLoad, XLoad => Some (go w (if (gen s =? 0)%nat then QDone None else QEnq (gen s)) s)
  | QEnq g, XSend => if (length (wq s) <? cap)%nat then Some (go w (QWaitR g) (c_enq (enq s ++ [w]) (c_wq (wq s ++ [w]) s))) else None
  | QEnq g, XHand => (* an unbuffered channel: the writer receives at the same time *)
    match cap, wp s with
    | O, WFirst => Some (go w (QWaitR g) (c_enq (enq s ++ [w]) (c_wp (WGot [] 0 w) s)))
    | _, _ => None
    end
  | QEnq g, XCtx => if ctxDone s g then Some (go w (QDone None) s) else None
  | QWaitR g, XResult => match rs s w with Some r => Some (go w (QDone (Some r)) (put w None s)) | None => None end
  | QWaitR g, XCtx => if negb reconnect && ctxDone s g then Some (go w (QDone None) s) else None
  | _, _ => None
  end.

(** clientconn.go:655-660: batch *)
Definition next (cap : nat) (k : list N) (n : nat) : wpc := if (S n <? cap)%nat then WMore k (S n) else WWrite k.

(** clientconn.go:754-762: the requests whose buffers are consumed get nil, the others the error *)
Definition failAns (k : list N) (n : nat) : list (N * cres) :=
  map (fun x => (x, ROk)) (firstn n k) ++ map (fun x => (x, RErr)) (skipn n k).

(** writeFrames: clientconn.go:574-772. *)
Definition writerStep (reconnect : bool) (cap : nat) (s : cst) (c : wchoice) : option cst :=
  match wp s, c with
  | WFirst, YTake => match wq s with x :: q => Some (c_wp (WGot [] 0 x) (c_wq q s)) | [] => None end
  | WFirst, YCtx => if lctx s then Some (c_wp WQuit s) else None
  | WGot k n x, YKeep => Some (c_wp (next cap (k ++ [x]) n) s)
  | WGot k n x, YReject ROk => None
  | WGot k n x, YReject r =>
    match rs s x with
    | None => Some (put x (Some r) (c_wp (match n with O => WFirst | _ => next cap k n end) s))
    | Some _ => None
    end
  | WMore k n, YTake => match wq s with x :: q => Some (c_wp (WGot k n x) (c_wq q s)) | [] => None end
  | WMore k n, YCtx =>
    if lctx s then Some (c_wp (if reconnect then WAns (map (fun x => (x, RErr)) k) false else WQuit) s) else None
  | WMore k n, YDefault => match wq s with [] => if lctx s then None else Some (c_wp (WWrite k) s) | _ => None end
  | WWrite k, YNoConn => if rwc s then None else Some (c_wp (WAns (map (fun x => (x, RErr)) k) false) s)
  | WWrite k, YOk => if rwc s then Some (c_wire (wire s ++ map (pair (gen s)) k) (c_wp (WAns (map (fun x => (x, ROk)) k) true) s)) else None
  | WWrite k, YErr n => if rwc s then Some (c_wire (wire s ++ map (pair (gen s)) (firstn n k)) (c_wp (WAns (failAns k n) false) s)) else None
  | WAns ((x, r) :: a) ok, YGo => match rs s x with None => Some (put x (Some r) (c_wp (WAns a ok) s)) | Some _ => None end
  | WAns [] ok, YGo => if ok then Some (c_wp WFirst s) else Some (c_lctx true (c_wp WQuit s))
  | _, _ => None
  end.

(** list membership (no counterpart in /repo). *)
Definition memb (h : N) (l : list N) : bool := existsb (N.eqb h) l.

(** clientconn.go:213-304 *)
Definition loopStep (reconnect : bool) (s : cst) : option cst :=
  match lp s with
  | LCb1 => match lcall s with None => Some (c_lp LServe s) | Some _ => None end
  | LServe => if lctx s then Some (c_lp LCb2 (c_rwc false s)) else None
  | LCb2 => match lcall s with None => Some (c_lp LWait s) | Some _ => None end
  | LWait =>
    match wp s, rd s, hrun s with
    | WQuit, false, [] => if reconnect then Some (c_lp LConn s) else Some (c_lp LExit (c_ctx true s))
    | _, _, _ => None
    end
  | LConn | LExit => None
  end.

(** One action: clientconn.go:213-304, 380-418, 429-466, 477-545, 574-772. *)
Definition cstep (reconnect : bool) (cap : nat) (s : cst) (l : clabel) : option cst :=
  match l with
  | CStart w => if isIdle (pc s w) then Some (start w s) else None
  | CCall w c => callStep reconnect cap s w c
  | CW c => writerStep reconnect cap s c
  | CRdQuit => if rd s then Some (c_lctx true (c_rd false s)) else None
  | CHandler h => if rd s && negb (memb h (hrun s)) then Some (c_hcall (upd (hcall s) h None) (c_hrun (h :: hrun s) s)) else None
  | CHCall h w =>
    if memb h (hrun s) && isIdle (pc s w) then
      match hcall s h with None => Some (c_hcall (upd (hcall s) h (Some w)) (start w s)) | Some _ => None end
    else None
  | CHRet h =>
    match hcall s h with
    | Some w => if isDone (pc s w) then Some (c_hcall (upd (hcall s) h None) s) else None
    | None => None
    end
  | CHEnd h =>
    match hcall s h with
    | None => if memb h (hrun s) then Some (c_hrun (filter (fun x => negb (x =? h)) (hrun s)) s) else None
    | Some _ => None
    end
  | CLoop => loopStep reconnect s
  | CLCall w =>
    match lp s, lcall s with
    | LCb1, None | LCb2, None => if isIdle (pc s w) then Some (c_lcall (Some w) (start w s)) else None
    | _, _ => None
    end
  | CLRet =>
    match lcall s with
    | Some w => if isDone (pc s w) then Some (c_lcall None s) else None
    | None => None
    end
  | CDial ok =>
    match lp s with
    | LConn =>
      if ok then
        Some (c_gen (S (gen s)) (c_lctx (ctx s) (c_rwc true (c_lp LCb1 (c_wp WFirst (c_rd true s))))))
      else Some (c_lp (if ctx s then LExit else LConn) s)
    | _ => None
    end
  | CCloseRWC => Some (c_rwc false s)
  | CClose => Some (c_lctx true (c_ctx true s))
  end.
