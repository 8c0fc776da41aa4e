(** Model of channel/clienttransport.go and channel/servetransport.go: Sender and Receiver.
    Calls on one Sender (or one Receiver) are taken one after the other, as sequences; Marshal and
    Unmarshal (channel/encode.go:6-25) are parameters: a message is given by what Marshal returns for it. *)
From Verif Require Import Model.GoBase Model.Qrpc.
Open Scope N_scope.

(** Calls made on the underlying qrpc objects. *)
Inductive wireCall :=
| WOpen (cmd : Cmd) (flags : FrameFlag) (payload : bytes)     (* StreamInitiator.StreamRequest *)
| WNext (cmd : Cmd) (payload : bytes) (fin : bool)            (* StreamWriter StartWrite, WriteBytes, EndWrite(fin) *)
| WFrame (requestID : N) (cmd : Cmd) (flags : FrameFlag) (payload : bytes) (* FrameWriter StartWrite, WriteBytes, EndWrite *)
| WReset.                                                     (* ResetFrame *)

(** One call on a Sender.  [msg = None]: Marshal fails.  [conn = None]: the qrpc call succeeds,
    [Some e]: it fails with e. *)
Inductive sop :=
| Send (cmd : Cmd) (msg : option bytes) (fin : bool) (conn : option N)
| End (conn : option N).

(** channel/clienttransport.go:53-64 and the errors passed through. *)
Inductive sres := SOk | SMarshalErr | ErrSenderClosed | ErrSenderCloseTwice | SConnErr (e : N).
(** channel/clienttransport.go:84-93, 110-111: the error of the qrpc call is passed through. *)
Definition ofConn (c : option N) : sres := match c with None => SOk | Some e => SConnErr e end.

(** channel/clienttransport.go:15-24: streamWriter (nil or not) and closed. *)
Record clientSender := mkCS { streamWriter : bool; sclosed : bool }.
(** channel/clienttransport.go:38-51: a new Sender. *)
Definition newClientSender := mkCS false false.

(** channel/clienttransport.go:66-112 Send and End.  The flag (80-83) is only used for the first message. *)
Definition csStep (s : clientSender) (o : sop) : clientSender * list wireCall * sres :=
  match o with
  | Send cmd None _ _ => (s, [], SMarshalErr)
  | Send cmd (Some b) fin conn =>
    if sclosed s then (s, [], ErrSenderClosed)
    else
      let flag := if fin then N.lor StreamFlag StreamEndFlag else StreamFlag in
      if negb (streamWriter s) then
        (mkCS (match conn with None => true | Some _ => false end) (sclosed s), [WOpen cmd flag b], ofConn conn)
      else (s, [WNext cmd b false], ofConn conn)
  | End conn =>
    if sclosed s then (s, [], ErrSenderCloseTwice)
    else if negb (streamWriter s) then (mkCS (streamWriter s) true, [], SOk)
    else (mkCS (streamWriter s) true, [WReset], ofConn conn)
  end.

(** channel/servetransport.go:16-19, 48-68: serveSender's Send and End; there is no state. *)
Definition ssStep (requestID : N) (o : sop) : list wireCall * sres :=
  match o with
  | Send cmd None _ _ => ([], SMarshalErr)
  | Send cmd (Some b) fin conn =>
    let flag := if fin then N.lor StreamFlag StreamEndFlag else StreamFlag in
    ([WFrame requestID cmd flag b], ofConn conn)
  | End conn => ([WReset], ofConn conn)
  end.

(** Histories: each call with the calls it made and its result. *)
Definition entry : Type := sop * list wireCall * sres.
(** successive calls on one Sender (no counterpart in /repo). *)
Fixpoint csRun (s : clientSender) (os : list sop) : list entry :=
  match os with
  | [] => []
  | o :: os => let '(s', w, r) := csStep s o in (o, w, r) :: csRun s' os
  end.
(** successive calls on one serve Sender (no counterpart in /repo). *)
Definition ssRun (requestID : N) (os : list sop) : list entry :=
  map (fun o => (o, fst (ssStep requestID o), snd (ssStep requestID o))) os.

(** ** Receivers *)
Section Receivers.
Context {M : Type} (Unmarshal : bytes -> option M).

(** A message on the stream: cmd and payload. *)
Definition chFrame : Type := Cmd * bytes.

(** Result of one Receive: [RMsg c m]: nil or decoding error; [c] is the value stored through the cmd
    pointer (None: nothing stored), [m] what was decoded into msg (None: msg left as it was);
    [RDecode]: Unmarshal failed. *)
Inductive rres :=
| RMsg (c : option Cmd) (m : option M)
| RDecode (c : option Cmd)
| ErrStreamFinished
| RNoResp          (* channel/clienttransport.go:116-119 ErrNoResp *)
| RStreamClosed    (* qrpc.ErrStreamClosed from Response.GetFrame *)
| RCtx.            (* the context expired *)

(** One call: whether cmd is non-nil, and whether the select picks ctx.Done(). *)
Record rcall := mkRC { wantCmd : bool; expired : bool }.

(** [inc]: the messages not yet taken; when it is used up the channel is closed.  A Receive that has to
    wait for a message is modelled at the moment the message is there.
    channel/clienttransport.go:114-151: the first message comes from the Response, which is closed if
    there is none; a failed wait leaves firstFrame nil. *)
Record clientReceiver := mkCR { hasResp : bool; firstFrame : bool; crInc : list chFrame }.
(** channel/clienttransport.go:141-151: cmd and Unmarshal into msg. *)
Definition decodeTo (want : bool) (f : chFrame) : rres :=
  let c := if want then Some (fst f) else None in
  match Unmarshal (snd f) with Some m => RMsg c (Some m) | None => RDecode c end.

(** channel/clienttransport.go:114-151: one Receive. *)
Definition crStep (r : clientReceiver) (c : rcall) : clientReceiver * rres :=
  if negb (hasResp r) then (r, RNoResp)
  else if expired c then (r, RCtx)
  else if negb (firstFrame r) then
    match crInc r with
    | [] => (r, RStreamClosed)
    | f :: inc => (mkCR true true inc, decodeTo (wantCmd c) f)
    end
  else
    match crInc r with
    | [] => (r, ErrStreamFinished)
    | f :: inc => (mkCR true true inc, decodeTo (wantCmd c) f)
    end.

(** channel/servetransport.go:70-93: the first message is the request frame itself; Unmarshal is inside
    [if cmd != nil]. *)
Record serveReceiver := mkSR { reqFrame : chFrame; hasReceivedFirstFrame : bool; srInc : list chFrame }.
(** channel/servetransport.go:70-93: msg is decoded only if cmd is not nil. *)
Definition srDeliver (want : bool) (f : chFrame) : rres :=
  if want then match Unmarshal (snd f) with Some m => RMsg (Some (fst f)) (Some m) | None => RDecode (Some (fst f)) end
  else RMsg None None.
(** channel/servetransport.go:70-93: one Receive. *)
Definition srStep (r : serveReceiver) (c : rcall) : serveReceiver * rres :=
  if hasReceivedFirstFrame r then
    if expired c then (r, RCtx)
    else match srInc r with
         | [] => (r, ErrStreamFinished)
         | f :: inc => (mkSR (reqFrame r) true inc, srDeliver (wantCmd c) f)
         end
  else (mkSR (reqFrame r) true (srInc r), srDeliver (wantCmd c) (reqFrame r)).

(** successive calls of Receive (no counterpart in /repo). *)
Fixpoint crRun (r : clientReceiver) (cs : list rcall) : list rres :=
  match cs with [] => [] | c :: cs => let '(r', x) := crStep r c in x :: crRun r' cs end.
(** successive calls of Receive (no counterpart in /repo). *)
Fixpoint srRun (r : serveReceiver) (cs : list rcall) : list rres :=
  match cs with [] => [] | c :: cs => let '(r', x) := srStep r c in x :: srRun r' cs end.
End Receivers.
