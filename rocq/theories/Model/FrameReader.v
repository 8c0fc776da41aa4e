(** Model of /repo/framereader.go:83-127 (readFrame). The stream logic of
    ReadFrame is in Model/Stream. *)
From Verif Require Import Model.GoBase Model.Qrpc Model.FrameWriter Model.Reader.
Open Scope N_scope.

(** frame.go:9-16  Frame (payload nil is [[]]; Stream and stash are not modelled here) *)
Record Frame := mkFrame { fRequestID : N; fFlags : FrameFlag; fCmd : Cmd; fPayload : bytes }.

(** frame.go:36-46 *)
Definition FromClient (id : N) : bool := (id mod 2 =? 1).
(** frame.go:42-46. *)
Definition FromServer (id : N) : bool := (id mod 2 =? 0).

(** the errors of readFrame: framereader.go:13-18, 83-127. *)
Inductive frErr := FrRead (e : rerr) | FrTooLarge | FrInvalidSize | FrNoCodec | FrDecode.

(** framereader.go:98 [dfr.maxFrameSize > 0 && size > uint32(dfr.maxFrameSize)];
    maxFrameSize is a Go int (64 bit), converted to uint32 for the comparison. *)
Definition tooLarge (maxFrameSize : Z) (size : N) : bool :=
  (Z.ltb 0 maxFrameSize && N.ltb (Z.to_N (maxFrameSize mod 4294967296)) size)%bool.

(** framereader.go:83-127 readFrame.  [frPayload] is the tail from line 106:
    read the payload, decode it if CodecFlag is set. *)
Definition frPayload (codec : option Codec) (r : rdr) (ctxDone : bool) (size requestID flags cmd : N)
  : rdr * (Frame + frErr) :=
  if 12 <? size then
    match ReadBytes r (N.to_nat (size - 12)) ctxDone with
    | (r', inr e) => (r', inr (FrRead e))
    | (r', inl payload) =>
      if IsCodec flags then
        match codec with
        | None => (r', inr FrNoCodec)
        | Some c => match Decode c payload with
                    | None => (r', inr FrDecode)
                    | Some p => (r', inl (mkFrame requestID flags cmd p))
                    end
        end
      else (r', inl (mkFrame requestID flags cmd payload))
    end
  else (r, inl (mkFrame requestID flags cmd [])).

(** framereader.go:83-127, as described above. *)
Definition readFrame (codec : option Codec) (maxFrameSize : Z) (r : rdr) (ctxDone : bool)
  : rdr * (Frame + frErr) :=
  match ReadBytes r 16 ctxDone with
  | (r1, inr e) => (r1, inr (FrRead e))
  | (r1, inl header) =>
    let size := rd32 header 0 in
    let requestID := rd64 header 4 in
    let cmdAndFlags := rd32 header 12 in
    let cmd := N.land cmdAndFlags 0xffffff in
    let flags := u8 (N.shiftr cmdAndFlags 24) in
    if tooLarge maxFrameSize size then (r1, inr FrTooLarge)
    else if size <? 12 then (r1, inr FrInvalidSize)
    else frPayload codec r1 ctxDone size requestID flags cmd
  end.

(** serveconn.go:20-23, 166-172: the limit a server uses; clientconn.go:485 and
    framereader.go:31-33: a client connection uses 0 (no limit). *)
Definition DefaultMaxFrameSize : Z := 10 * 1024 * 1024.
(** serveconn.go:166-172. *)
Definition serverMaxFrameSize (bindingMax : Z) : Z :=
  if Z.ltb 0 bindingMax then bindingMax else DefaultMaxFrameSize.
(** framereader.go:31-33: no limit. *)
Definition clientMaxFrameSize : Z := 0%Z.

(** framereader.go:40-42: successive readFrame calls until an error (the stream logic of lines 47-75 is left out). [fuel]
    bounds the number of frames. *)
Fixpoint readFrames (fuel : nat) (codec : option Codec) (mfs : Z) (r : rdr) (ctxDone : bool)
  : list Frame * option frErr :=
  match fuel with
  | O => ([], None)
  | S fuel' =>
    match readFrame codec mfs r ctxDone with
    | (r', inl f) => let '(fs, e) := readFrames fuel' codec mfs r' ctxDone in (f :: fs, e)
    | (_, inr e) => ([], Some e)
    end
  end.
