(** What the frames of a writer should carry, from the calls alone. *)
From Verif Require Import Model.GoBase Model.Qrpc Model.FrameWriter Spec.FrameSpec.

Definition is_end (o : wop) : bool :=
  match o with OEnd | OEndCompressed | OReset _ _ | OSwEnd _ | OSwReset _ => true | _ => false end.

(** One payload per ending call: what was written since the previous ending call. *)
Fixpoint payloads_since_end (acc : bytes) (os : list wop) : list bytes :=
  match os with
  | [] => []
  | OBytes v :: os' => payloads_since_end (acc ++ v) os'
  | o :: os' => if is_end o then acc :: payloads_since_end [] os'
                else payloads_since_end acc os'
  end.

(** The bytes [wire] are one well-formed frame whose payload is [p], as such or compressed. *)
Definition carries (codec : option Codec) (wire : bytes) (p : bytes) : Prop :=
  exists id fl cmd q, wire = doc_frame id fl cmd q /\
    (q = p \/ (IsCodec fl = true /\ exists c, codec = Some c /\ Encode c p = Some q)).

Definition is_sent (r : ewResult) : bool := match r with EwSent _ => true | _ => false end.

(** every outcome that put a frame on the wire carries the payload at the same position *)
Definition results_carry (codec : option Codec) (rs : list ewResult) (ps : list bytes) : Prop :=
  Forall2 (fun r p => match r with EwSent wire => carries codec wire p | _ => True end) rs ps.

(** arguments of the calls are Go values: flags are bytes *)
Definition wop_ok (o : wop) : Prop :=
  match o with OStart _ _ fl => fl < 256 | _ => True end.

(** a writer whose buffer holds a header and nothing else *)
Definition clean (w : dfw) : Prop := length (wbuf w) = 16%nat /\ Forall isbyte (wbuf w).

(** bytes written after the last ending call *)
Fixpoint pending_after (acc : bytes) (os : list wop) : bytes :=
  match os with
  | [] => acc
  | OBytes v :: os' => pending_after (acc ++ v) os'
  | o :: os' => pending_after (if is_end o then [] else acc) os'
  end.
