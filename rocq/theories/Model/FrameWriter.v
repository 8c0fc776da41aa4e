(** Model of /repo/framewriter.go (the frame writer's buffer) and of conf.go's
    CompressorCodec.  The connection behind the writer ([fbw]) is not modelled
    here: the bytes handed to [writeFrameBytes] are an output of the model. *)
From Verif Require Import Model.GoBase Model.Qrpc.

(** conf.go:12-17  CompressorCodec; [None] models a non-nil error. *)
Record Codec := mkCodec { Encode : bytes -> option bytes; Decode : bytes -> option bytes }.

(** framewriter.go:16-23  defaultFrameWriter.  [fbw] is replaced by the codec
    argument of [EndWrite] and by the model's output; [resp] (a pending Response)
    is an abstract identity. *)
Record dfw := mkDfw { wbuf : bytes; resp : option N; checkExist : bool }.

(** dfw.wbuf = b (setter). *)
Definition set_wbuf (w : dfw) (b : bytes) : dfw := mkDfw b (resp w) (checkExist w).

(** framewriter.go:28-34  a writer freshly allocated by the pool's New *)
Definition headerSize : nat := 16.
(** framewriter.go:32-34: what the pool makes. *)
Definition fresh : dfw := mkDfw (repeat 0 headerSize) None false.

(** framewriter.go:36-42  newFrameWriter on the pool element [p]: [fbw] and
    [checkExist] are reset, [wbuf] is not. *)
Definition newFrameWriter (p : dfw) : dfw := mkDfw (wbuf p) (resp p) false.

(** framewriter.go:44-48  Finalize: what goes back to the pool *)
Definition Finalize (w : dfw) : dfw := mkDfw (wbuf w) None (checkExist w).

(** framewriter.go:50-55  StartWrite: writes bytes 4..15 in place; does not touch the payload *)
Definition StartWrite (w : dfw) (requestID : N) (cmd : Cmd) (flags : FrameFlag) : dfw :=
  let b := put_at 4 (be64 requestID) (wbuf w) in
  let cmdAndFlags := u32 (u32 (N.shiftl flags 24) + N.land cmd 0xffffff) in
  set_wbuf w (put_at 12 (be32 cmdAndFlags) b).

(** framewriter.go:57-60  Cmd *)
Definition getCmd (w : dfw) : Cmd :=
  N.lor (N.lor (N.shiftl (getb (wbuf w) 13) 16) (N.shiftl (getb (wbuf w) 14) 8)) (getb (wbuf w) 15).

(** framewriter.go:62-64  SetCmd *)
Definition SetCmd (w : dfw) (cmd : Cmd) : dfw :=
  set_wbuf w (put_at 13 [u8 (N.shiftr cmd 16); u8 (N.shiftr cmd 8); u8 cmd] (wbuf w)).

(** framewriter.go:66-69  RequestID *)
Definition getRequestID (w : dfw) : N := rd64 (wbuf w) 4.

(** framewriter.go:71-73  SetRequestID *)
Definition SetRequestID (w : dfw) (requestID : N) : dfw :=
  set_wbuf w (put_at 4 (be64 requestID) (wbuf w)).

(** framewriter.go:75-77  Flags *)
Definition getFlags (w : dfw) : FrameFlag := getb (wbuf w) 12.

(** framewriter.go:79-81  SetFlags *)
Definition SetFlags (w : dfw) (flags : FrameFlag) : dfw :=
  set_wbuf w (put_at 12 [u8 flags] (wbuf w)).

(** framewriter.go:87-89  Payload *)
Definition getPayload (w : dfw) : bytes := skipn 16 (wbuf w).

(** framewriter.go:182  WriteBytes; 162-179 WriteUint64/32/16/8 *)
Definition WriteBytes (w : dfw) (v : bytes) : dfw := set_wbuf w (wbuf w ++ v).
(** framewriter.go:161-164. *)
Definition WriteUint64 (w : dfw) (v : N) : dfw := WriteBytes w (be64 v).
(** framewriter.go:166-169. *)
Definition WriteUint32 (w : dfw) (v : N) : dfw := WriteBytes w (be32 v).
(** framewriter.go:171-174. *)
Definition WriteUint16 (w : dfw) (v : N) : dfw := WriteBytes w [u8 (N.shiftr v 8); u8 v].
(** framewriter.go:176-179. *)
Definition WriteUint8 (w : dfw) (v : N) : dfw := WriteBytes w [u8 v].

(** framewriter.go:145-147  Length *)
Definition getLength (w : dfw) : N := rd32 (wbuf w) 0.

(** Outcome of the EndWrite family: an error before anything is handed to the
    connection, or the bytes handed to [writeFrameBytes] (whose own error is
    then returned to the caller). *)
Inductive ewResult := EwNoCodec | EwCodecError | EwSent (wire : bytes).

(** framewriter.go:131-143  endWrite: patches the length, hands the buffer over,
    truncates it to the header.  [length] is a Go int, its low 32 bits are stored. *)
Definition endWrite (w : dfw) : dfw * ewResult :=
  let length := N.of_nat (length (wbuf w)) - 4 in
  let b := put_at 0 [u8 (N.shiftr length 24); u8 (N.shiftr length 16);
                     u8 (N.shiftr length 8); u8 length] (wbuf w) in
  (set_wbuf w (firstn 16 b), EwSent b).

(** framewriter.go:96-124  EndWrite *)
Definition EndWrite (codec : option Codec) (w : dfw) : dfw * ewResult :=
  let payloadLength := length (getPayload w) in
  if Nat.eqb payloadLength 0 then
    endWrite (SetFlags w (ToNonCodec (getFlags w)))
  else if IsCodec (getFlags w) then
    match codec with
    | None => (w, EwNoCodec)
    | Some c =>
      match Encode c (getPayload w) with
      | None => (w, EwCodecError)
      | Some encodedPayload =>
        if Nat.ltb payloadLength (length encodedPayload) then
          endWrite (SetFlags w (ToNonCodec (getFlags w)))
        else
          endWrite (WriteBytes (set_wbuf w (firstn 16 (wbuf w))) encodedPayload)
      end
    end
  else endWrite w.

(** framewriter.go:126-129  EndWriteCompressed *)
Definition EndWriteCompressed (w : dfw) : dfw * ewResult :=
  endWrite (SetFlags w (ToCodec (getFlags w))).

(** framewriter.go:149-154  StreamEndWrite *)
Definition StreamEndWrite (codec : option Codec) (w : dfw) (fin : bool) : dfw * ewResult :=
  EndWrite codec (if fin then SetFlags w (ToEndStream (getFlags w)) else w).

(** framewriter.go:156-159  ResetFrame *)
Definition ResetFrame (codec : option Codec) (w : dfw) (requestID : N) (reason : Cmd) : dfw * ewResult :=
  EndWrite codec (StartWrite w requestID reason StreamRstFlag).

(** framewriter.go:186-212  the StreamWriter view of the same object *)
Definition SwStartWrite (w : dfw) (cmd : Cmd) : dfw := SetCmd w cmd.
(** framewriter.go:199-201. *)
Definition SwEndWrite := StreamEndWrite.
(** framewriter.go:207-212. *)
Definition SwResetFrame (codec : option Codec) (w : dfw) (reason : Cmd) : dfw * ewResult :=
  ResetFrame codec w (getRequestID w) reason.

(** A call made by the owner of a writer. *)
Inductive wop :=
| OStart (requestID : N) (cmd : Cmd) (flags : FrameFlag)
| OBytes (v : bytes)
| OEnd
| OEndCompressed
| OReset (requestID : N) (reason : Cmd)
| OSwStart (cmd : Cmd)
| OSwEnd (fin : bool)
| OSwReset (reason : Cmd).

(** One call: framewriter.go:50-212. *)
Definition wstep (codec : option Codec) (w : dfw) (o : wop) : dfw * list ewResult :=
  let r (x : dfw * ewResult) := (fst x, [snd x]) in
  match o with
  | OStart id cmd fl => (StartWrite w id cmd fl, [])
  | OBytes v => (WriteBytes w v, [])
  | OEnd => r (EndWrite codec w)
  | OEndCompressed => r (EndWriteCompressed w)
  | OReset id reason => r (ResetFrame codec w id reason)
  | OSwStart cmd => (SwStartWrite w cmd, [])
  | OSwEnd fin => r (SwEndWrite codec w fin)
  | OSwReset reason => r (SwResetFrame codec w reason)
  end.

(** The outcomes of a history of calls, in order, and the final writer. *)
Fixpoint wrun (codec : option Codec) (w : dfw) (os : list wop) : dfw * list ewResult :=
  match os with
  | [] => (w, [])
  | o :: os' => let '(w1, r1) := wstep codec w o in
                let '(w2, r2) := wrun codec w1 os' in (w2, r1 ++ r2)
  end.

(** framewriter.go:36-48: one borrower of a pooled writer: newFrameWriter on the pool
    element [p], the borrower's calls, Finalize.  Returns what goes back to the pool
    and the outcomes.  (The pool may hand the object to any later borrower on any
    connection of the process, e.g. serveconn.go:216-218.) *)
Definition session (codec : option Codec) (p : dfw) (os : list wop) : dfw * list ewResult :=
  let '(w, rs) := wrun codec (newFrameWriter p) os in (Finalize w, rs).

(** successive borrowers of the same pool element *)
Fixpoint sessions (codec : option Codec) (p : dfw) (ss : list (list wop)) : list (list ewResult) :=
  match ss with
  | [] => []
  | os :: ss' => let '(p', rs) := session codec p os in rs :: sessions codec p' ss'
  end.
