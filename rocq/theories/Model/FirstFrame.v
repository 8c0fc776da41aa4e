(** Model of the calls that write a whole frame in one go:
    Connection.Request / StreamRequest / ResetFrame (clientconn.go),
    serveconn.Request / StreamRequest (serveconn.go), and tool/packet. *)
From Verif Require Import Model.GoBase Model.Qrpc Model.FrameWriter.

(** clientconn.go:351-374 and serveconn.go:728-752 writeFirstFrame, from newFrameWriter to
    EndWrite; [p] is the object obtained from the writer pool.  The IsClosed check, the
    Response and the connection's own result are left out. *)
Definition writeFirstFrame (codec : option Codec) (p : dfw) (requestID : N) (cmd : Cmd)
    (flags : FrameFlag) (payload : bytes) : dfw * ewResult :=
  EndWrite codec (WriteBytes (StartWrite (newFrameWriter p) requestID cmd flags) payload).

(** clientconn.go:326-335 Connection.Request *)
Definition clientRequest codec p requestID cmd flags payload :=
  writeFirstFrame codec p requestID cmd (ToNonStream flags) payload.

(** clientconn.go:312-324 Connection.StreamRequest (serveconn.go:705-717 is the same) *)
Definition streamRequest codec p requestID cmd flags payload :=
  writeFirstFrame codec p requestID cmd (ToStream flags) payload.

(** serveconn.go:698-703 serveconn.Request *)
Definition serverRequest codec p requestID cmd flags payload :=
  writeFirstFrame codec p requestID cmd (N.lor flags NBFlag) payload.

(** clientconn.go:420-426 Connection.ResetFrame *)
Definition clientResetFrame codec p requestID reason : dfw * ewResult :=
  let '(w, r) := ResetFrame codec (newFrameWriter p) requestID reason in (Finalize w, r).

(** tool/packet/main.go:26-43: the bytes printed for the command line values; [None] is log.Fatal *)
Definition packet (cmd flg : Z) (requestID : N) (payload : bytes) : option bytes :=
  if (Z.ltb cmd 0 || Z.ltb 0xffffff cmd)%bool then None
  else if (Z.ltb flg 0 || Z.ltb 0xff flg)%bool then None
  else
    let buf := repeat 0 (16 + length payload) in
    let length := N.of_nat (length buf) - 4 in
    let buf := put_at 0 (be32 (u32 length)) buf in
    let buf := put_at 4 (be64 requestID) buf in
    let cmdAndFlags := u32 (u32 (N.shiftl (Z.to_N flg) 24) + N.land (Z.to_N cmd) 0xffffff) in
    let buf := put_at 12 (be32 cmdAndFlags) buf in
    Some (put_at 16 payload buf).
