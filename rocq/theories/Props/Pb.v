(** C41, C42: the generated protobuf code of RpcRequest. *)
From Coq Require Import ZifyBool ZifyNat ZifyN.
From Verif Require Import Model.GoBase Model.Pb Spec.PbSpec Proofs.PbP.
Open Scope N_scope.

(** ** C41: for every request whose encoding fits in memory (length below 2^63, Go's int). *)
Definition request (ns method params : bytes) : RpcRequest := mkReq ns method params [].

Lemma field_len : forall k f, (length f <= length (pb_field k f))%nat.
Proof. intros k [|b f]; [cbn; lia|]. unfold pb_field. rewrite !app_length. lia. Qed.

Lemma fits : forall ns method params, (zlen (pb_message ns method params) < 2 ^ 63)%Z ->
  blen ns < 2 ^ 64 /\ blen method < 2 ^ 64 /\ blen params < 2 ^ 64.
Proof.
  intros ns me pa H. unfold pb_message, zlen in H. rewrite !app_length in H.
  pose proof (field_len 1 ns). pose proof (field_len 2 me). pose proof (field_len 3 pa).
  unfold blen. change (2^64) with 18446744073709551616. lia.
Qed.

Theorem C41_round_trip :
  forall ns method params,
  (zlen (pb_message ns method params) < 2 ^ 63)%Z ->
  exists enc, Marshal (request ns method params) = Some enc /\
    Unmarshal enc = Ok (request ns method params) /\
    Size (request ns method params) = length enc.
Proof.
  intros ns me pa H. destruct (fits ns me pa H) as (A & B & C).
  exists (pb_message ns me pa). split; [|split].
  - rewrite (Marshal_spec (request ns me pa)) by assumption. cbn. rewrite app_nil_r. reflexivity.
  - apply roundtrip. assumption.
  - rewrite (Size_spec (request ns me pa)) by assumption. cbn. rewrite app_nil_r. reflexivity.
Qed.
Print Assumptions C41_round_trip.

(** the bytes are the protobuf encoding of the message *)
Theorem C41_wire_format :
  forall ns method params,
  (zlen (pb_message ns method params) < 2 ^ 63)%Z ->
  Marshal (request ns method params) = Some (pb_message ns method params).
Proof.
  intros ns me pa H. destruct (fits ns me pa H) as (A & B & C).
  rewrite (Marshal_spec (request ns me pa)) by assumption. cbn. rewrite app_nil_r. reflexivity.
Qed.
Print Assumptions C41_wire_format.

(** two-byte length varint, an empty field, all field kinds *)
Example C41_example :
  let r := request (repeat 65 130) [] [1;2;3] in
  (zlen (pb_message (repeat 65%N 130) [] [1;2;3]%N) < 2 ^ 63)%Z /\
  Size r = 138%nat /\
  match Marshal r with
  | Some enc => firstn 4 enc = [10; 130; 1; 65] /\ Unmarshal enc = Ok r
  | None => False
  end.
Proof. vm_compute. repeat split. Qed.

(** ** C42 *)
Definition C42_statement : Prop := forall d : bytes, Forall isbyte d -> Unmarshal d <> Panic.

(** a declared length of 2^63-1 overflows the end index: slice bounds out of range *)
Theorem C42_decode_panics_refuted : ~ C42_statement.
Proof.
  intro H. apply (H [0x0a; 255;255;255;255;255;255;255;255;0x7f]).
  - repeat constructor.
  - vm_compute. reflexivity.
Qed.
Print Assumptions C42_decode_panics_refuted.

(** the same through skipRpc: unknown field with a huge length, alone and inside a group *)
Example C42_skip_panics :
  Unmarshal [0x0a; 1; 65; 0x22; 255;255;255;255;255;255;255;255;0x7f] = Err ErrInvalidLength /\
  Unmarshal [0x23; 0x22; 255;255;255;255;255;255;255;255;0x7f] = Panic.
Proof. split; vm_compute; reflexivity. Qed.

(** Partial: inputs in which every 8 consecutive bytes contain one below 0x80 (so no varint longer than
    8 bytes) never panic.  Missing: inputs with longer runs, for which it is false in general. *)
Theorem C42_decode_total_partial :
  forall d : bytes, (zlen d < 2 ^ 62)%Z -> short_runs d ->
  (exists m, Unmarshal d = Ok m) \/ (exists e, Unmarshal d = Err e).
Proof.
  intros d Hl Hs. pose proof (unmarshal_short (S (length d)) d 0 emptyReq Hs Hl ltac:(lia) ltac:(unfold zlen; lia)) as H.
  unfold Unmarshal. destruct (unmarshalLoop (S (length d)) d 0 emptyReq) as [m|e| |]; try (elim H; fail).
  - left. exists m. reflexivity.
  - right. exists e. reflexivity.
Qed.
Print Assumptions C42_decode_total_partial.

(** Decoding terminates on every input: the loops never run out of the rounds the model gives them. *)
Theorem C42_decode_terminates_partial :
  forall d : bytes, (zlen d < 2 ^ 62)%Z -> Unmarshal d <> NoFuel.
Proof.
  intros d Hl. apply unmarshal_any; [assumption|lia|unfold zlen; lia].
Qed.
Print Assumptions C42_decode_terminates_partial.

Example C42_example :
  let d := [0x0a; 2; 65; 66; 0x20; 200; 1; 0x2b; 0x08; 5; 0x2c; 0x1a; 1; 9] in
  short_runs d /\ Unmarshal d = Ok (mkReq [65;66] [] [9] [0x20; 200; 1; 0x2b; 0x08; 5; 0x2c]) /\
  Unmarshal (d ++ [0x12; 5; 1]) = Err ErrUnexpectedEOF.
Proof.
  split; [|split; vm_compute; reflexivity].
  intro k. destruct (Nat.eq_dec k 5) as [->|].
  - exists 6%nat. split; [lia|reflexivity].
  - exists k. split; [lia|]. do 14 (destruct k as [|k]; [cbn; lia|]). rewrite nth_overflow by (cbn; lia). lia.
Qed.
