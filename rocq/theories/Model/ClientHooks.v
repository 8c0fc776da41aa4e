(** The callbacks of a client Connection: OnConnect and OnDisconnect (conf.go:59-63) with the handlers and SubFunc calls of
    its links, and Wait.  Modelled: newConnection (clientconn.go:187-211), loop (213-249), connect (259-306) without the choice
    of addresses (Model/Dial.v), closeRWC (429-443), Close (454-465), readFrames (477-546) as far as it uses conn.rwc and calls
    user code, RequestFrame.Close on the client's side (frame.go:76-92).
    Simplified: the callbacks return, and one that is nil is a function that does nothing; what writeFrames does is only that
    it ends (574-592); responses are left out (Model/Response.v); dialing succeeds or fails as the environment likes. *)
From Verif Require Import Model.GoBase Model.Machine.
Open Scope N_scope.

(** loop: in connect (215), before the goroutines are started (220-227), before OnConnect (229), in OnConnect (230), waiting for
    loopCtx (233), at closeRWC (234), before OnDisconnect (236), in it (237), waiting for the goroutines (240), after that
    (241-247), returned. *)
Inductive lpc := LDial | LStart | LOnCall | LOn | LWait | LClose | LOffCall | LOff | LJoin | LEnd | LOver.

(** readFrames: not running, before the test of conn.rwc (482), before conn.rwc is read again for the reader (485), reading
    (489), having a frame that is no push before the lock is taken (504), before the handler's goroutine is started (523), in
    SubFunc (497). *)
Inductive rpc := RNo | RTest | RTake | RRead | RGot | RSpawn | RSub.

(** What the user's code sees: link k was dialed (115, 275-290), OnConnect and OnDisconnect called and returned, SubFunc and
    handlers of link k called and returned, Wait may return (309-311). *)
Inductive wev :=
| WDial (k : N) | WConnect (k : N) | WConnected (k : N) | WDis (k : N) | WDisEnd (k : N)
| WSub (k : N) | WSubEnd (k : N) | WHandler (k : N) | WHandlerEnd (k : N) | WOver.

(** A Connection: clientconn.go:29-58.  The links are numbered from 1. *)
Record qst := mkQ {
  lp : lpc;
  kk : N;              (* the number of links so far *)
  rwc : bool;          (* conn.rwc <> nil *)
  ldone : bool;        (* loopCtx is done *)
  closed : bool;       (* Close was called: conn.ctx is done *)
  rd : rpc;
  wr : bool;           (* writeFrames runs *)
  hsp : nat;           (* handlers' goroutines that have not called the handler yet *)
  hrun : nat;          (* running handlers *)
  crashed : bool;      (* a nil pointer was dereferenced in a goroutine without recover: the process ends *)
  wlog : list wev }.   (* ghost: what happened, oldest first *)

(** clientconn.go:99-115, 153-176, 187-211: with or without a first link (NewConnection returns an error instead). *)
Definition qinit (first : bool) : qst :=
  mkQ LDial (if first then 1 else 0) first false false RNo false 0 0 false (if first then [WDial 1] else []).

(** The atomic actions: clientconn.go:213-306, 429-465, 477-546 *)
Inductive qlabel :=
| QHave                 (* connect: conn.rwc is there already (261-263) *)
| QDialOk               (* 265-291 *)
| QDialFail             (* 282-302 *)
| QSpawn                (* 220-227 *)
| QOn | QOnRet          (* 229-231 *)
| QDone                 (* 233 *)
| QCloseRWC             (* 234 *)
| QOff | QOffRet        (* 236-238 *)
| QJoin                 (* 240 *)
| QEnd                  (* 241-247 *)
| QClose                (* the user calls Close: 454-465 *)
| QFrameClose           (* the user calls Close on a frame a handler was given: frame.go:90 *)
| QTest                 (* 482-484 *)
| QTake                 (* 485, and the first use of the socket: reader.go:96 *)
| QRdEnd                (* ReadFrame failed (490-492) or a frame is refused (515-522); deferred loopCancelCtx (479) *)
| QPush | QPushRet      (* 494-501 *)
| QFrame                (* a frame that is no push: 503 *)
| QLook                 (* 504-513: not in the table; the socket may have been closed *)
| QGo                   (* 523-529 *)
| QHStart | QHEnd       (* 524-527 *)
| QWrEnd.               (* writeFrames returns (on an error or because loopCtx is done); deferred loopCancelCtx: 576 *)

(** a handler of this Connection was called (so a frame may have been kept; no counterpart in /repo) *)
Definition everHandled (l : list wev) : bool := existsb (fun e => match e with WHandler _ => true | _ => false end) l.

(** setter of loop's program counter, with what happened (no counterpart in /repo) *)
Definition goLp (s : qst) (p : lpc) (es : list wev) : qst :=
  mkQ p (kk s) (rwc s) (ldone s) (closed s) (rd s) (wr s) (hsp s) (hrun s) (crashed s) (wlog s ++ es).
(** setter of readFrames's program counter, with what happened (no counterpart in /repo) *)
Definition goRd (s : qst) (p : rpc) (es : list wev) : qst :=
  mkQ (lp s) (kk s) (rwc s) (ldone s) (closed s) p (wr s) (hsp s) (hrun s) (crashed s) (wlog s ++ es).
(** readFrames returns: its deferred loopCancelCtx (clientconn.go:479) *)
Definition rdEnd (s : qst) : qst :=
  mkQ (lp s) (kk s) (rwc s) true (closed s) RNo (wr s) (hsp s) (hrun s) (crashed s) (wlog s).

(** One action.  The lines are given in [qlabel]. *)
Definition qstep (reconnect : bool) (s : qst) (l : qlabel) : option qst :=
  if crashed s then None
  else match l with
  | QHave => match lp s with LDial => if rwc s then Some (goLp s LStart []) else None | _ => None end
  | QDialOk =>
    match lp s with
    | LDial => if rwc s then None
      else Some (mkQ LStart (kk s + 1) true (closed s) (closed s) (rd s) (wr s) (hsp s) (hrun s) false (wlog s ++ [WDial (kk s + 1)]))
    | _ => None
    end
  | QDialFail =>
    match lp s with LDial => if rwc s then None else Some (if closed s then goLp s LOver [WOver] else s) | _ => None end
  | QSpawn =>
    match lp s with
    | LStart => Some (mkQ LOnCall (kk s) (rwc s) (ldone s) (closed s) RTest true (hsp s) (hrun s) false (wlog s))
    | _ => None
    end
  | QOn => match lp s with LOnCall => Some (goLp s LOn [WConnect (kk s)]) | _ => None end
  | QOnRet => match lp s with LOn => Some (goLp s LWait [WConnected (kk s)]) | _ => None end
  | QDone => match lp s with LWait => if ldone s then Some (goLp s LClose []) else None | _ => None end
  | QCloseRWC =>
    match lp s with
    | LClose => Some (mkQ LOffCall (kk s) false (ldone s) (closed s) (rd s) (wr s) (hsp s) (hrun s) false (wlog s))
    | _ => None
    end
  | QOff => match lp s with LOffCall => Some (goLp s LOff [WDis (kk s)]) | _ => None end
  | QOffRet => match lp s with LOff => Some (goLp s LJoin [WDisEnd (kk s)]) | _ => None end
  | QJoin =>
    match lp s, rd s, wr s, hsp s, hrun s with LJoin, RNo, false, O, O => Some (goLp s LEnd []) | _, _, _, _, _ => None end
  | QEnd =>
    match lp s with
    | LEnd => if reconnect then Some (goLp s LDial [])
      else Some (mkQ LOver (kk s) (rwc s) true true (rd s) (wr s) (hsp s) (hrun s) false (wlog s ++ [WOver]))
    | _ => None
    end
  | QClose => Some (mkQ (lp s) (kk s) (rwc s) true true (rd s) (wr s) (hsp s) (hrun s) false (wlog s))
  | QFrameClose =>
    if everHandled (wlog s) then Some (mkQ (lp s) (kk s) false (ldone s) (closed s) (rd s) (wr s) (hsp s) (hrun s) false (wlog s)) else None
  | QTest => match rd s with RTest => Some (if rwc s then goRd s RTake [] else rdEnd s) | _ => None end
  | QTake =>
    match rd s with
    | RTake =>
      if rwc s then Some (goRd s RRead [])
      else Some (mkQ (lp s) (kk s) (rwc s) (ldone s) (closed s) (rd s) (wr s) (hsp s) (hrun s) true (wlog s))
    | _ => None
    end
  | QRdEnd => match rd s with RRead => Some (rdEnd s) | _ => None end
  | QPush => match rd s with RRead => Some (goRd s RSub [WSub (kk s)]) | _ => None end
  | QPushRet => match rd s with RSub => Some (goRd s RRead [WSubEnd (kk s)]) | _ => None end
  | QFrame => match rd s with RRead => Some (goRd s RGot []) | _ => None end
  | QLook => match rd s with RGot => Some (if rwc s then goRd s RSpawn [] else rdEnd s) | _ => None end
  | QGo =>
    match rd s with
    | RSpawn => Some (mkQ (lp s) (kk s) (rwc s) (ldone s) (closed s) RRead (wr s) (S (hsp s)) (hrun s) false (wlog s))
    | _ => None
    end
  | QHStart =>
    match hsp s with
    | S n => Some (mkQ (lp s) (kk s) (rwc s) (ldone s) (closed s) (rd s) (wr s) n (S (hrun s)) false (wlog s ++ [WHandler (kk s)]))
    | O => None
    end
  | QHEnd =>
    match hrun s with
    | S n => Some (mkQ (lp s) (kk s) (rwc s) (ldone s) (closed s) (rd s) (wr s) (hsp s) n false (wlog s ++ [WHandlerEnd (kk s)]))
    | O => None
    end
  | QWrEnd =>
    if wr s then Some (mkQ (lp s) (kk s) (rwc s) true (closed s) (rd s) false (hsp s) (hrun s) false (wlog s)) else None
  end.
