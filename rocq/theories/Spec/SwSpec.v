(** What the frames written through a StreamWriter should be, from the calls alone:
    bits 0, 1, 2 and 5 of the flag byte are stream, end, reset and codec (doc/frame.md
    and the comments of qrpc.go:31-44). *)
From Verif Require Import Model.GoBase Model.Qrpc Model.FrameWriter Spec.FrameSpec.

(** how one frame is finished *)
Inductive ending := EndPlain (fin : bool) | EndCompressed | EndReset (reason : Cmd).

(** one frame: StartWrite(cmd), some WriteBytes, one of the three endings *)
Record turn := mkTurn { t_cmd : Cmd; t_chunks : list bytes; t_end : ending }.

Definition t_payload (t : turn) : bytes := concat (t_chunks t).

(** the calls *)
Definition turn_ops (t : turn) : list wop :=
  OSwStart (t_cmd t) :: map OBytes (t_chunks t) ++
  [match t_end t with
   | EndPlain fin => OSwEnd fin
   | EndCompressed => OEndCompressed
   | EndReset reason => OSwReset reason
   end].

(** the outcome of the frame on a stream whose flags are [fl]: nothing here depends on the
    other frames of the stream *)
Definition turn_asked (codec : option Codec) (id fl : N) (t : turn) : ewResult :=
  let pay := t_payload t in
  match t_end t with
  | EndReset reason => EwSent (doc_frame id 4 reason pay)
  | EndCompressed => EwSent (doc_frame id (N.setbit fl 5) (t_cmd t) pay)
  | EndPlain fin =>
      let f := if fin then N.setbit fl 1 else fl in
      match pay with
      | [] => EwSent (doc_frame id (N.clearbit f 5) (t_cmd t) [])
      | _ =>
        if N.testbit f 5 then
          match codec with
          | None => EwNoCodec
          | Some c =>
            match Encode c pay with
            | None => EwCodecError
            | Some e => if Nat.leb (length e) (length pay)
                        then EwSent (doc_frame id f (t_cmd t) e)
                        else EwSent (doc_frame id (N.clearbit f 5) (t_cmd t) pay)
            end
          end
        else EwSent (doc_frame id f (t_cmd t) pay)
      end
  end.

(** the frame ends the writing side *)
Definition ends (t : turn) : bool :=
  match t_end t with EndPlain fin => fin | EndCompressed => false | EndReset _ => true end.

(** only the last frame ends it *)
Fixpoint ends_last (ts : list turn) : Prop :=
  match ts with
  | [] => True
  | t :: ts' => (ends t = true -> ts' = []) /\ ends_last ts'
  end.

(** compression is asked for all frames of the stream and helps for each of them *)
Definition compresses (codec : option Codec) (pay : bytes) : Prop :=
  exists c e, codec = Some c /\ Encode c pay = Some e /\ pay <> [] /\ (length e <= length pay)%nat.
