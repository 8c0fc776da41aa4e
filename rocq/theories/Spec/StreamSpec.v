(** A stream of frames: each element is (id, flags, cmd, payload on the wire, payload
    after decompression). *)
From Verif Require Import Model.GoBase Model.Qrpc Model.FrameWriter Model.FrameReader Spec.FrameSpec.
Open Scope N_scope.

(** the frame fits the format and the reader's size limit, and its payload decodes *)
Definition wf_frame (codec : option Codec) (mfs : Z) (x : N * N * N * bytes * bytes) : Prop :=
  let '(id, fl, cmd, wirepay, pay) := x in
  id < 2^64 /\ fl < 256 /\ cmd < 2^24 /\ N.of_nat (length wirepay) < 2^32 - 12 /\
  tooLarge mfs (12 + N.of_nat (length wirepay)) = false /\
  match wirepay with
  | [] => pay = []
  | _ => if IsCodec fl then exists c, codec = Some c /\ Decode c wirepay = Some pay else pay = wirepay
  end.

Definition wire_of (x : N * N * N * bytes * bytes) : bytes :=
  let '(id, fl, cmd, wirepay, _) := x in doc_frame id fl cmd wirepay.
Definition frame_of (x : N * N * N * bytes * bytes) : Frame :=
  let '(id, fl, cmd, _, pay) := x in mkFrame id fl cmd pay.

