(** C01-C08: wire format, codec, frame writer, cmd and flags. *)
From Coq Require Import ZifyBool ZifyNat ZifyN.
From Verif Require Import Model.GoBase Model.Qrpc Model.FrameWriter Model.Reader Model.FrameReader
  Model.FirstFrame Spec.FrameSpec Spec.WriterSpec Spec.StreamSpec
  Proofs.Bits Proofs.Writer Proofs.ReaderP Proofs.FrameReaderP Proofs.CodecP.
Ltac Zify.zify_post_hook ::= Z.div_mod_to_equations.
Open Scope N_scope.

(** ** C01 *)
Theorem C01_frame_round_trip :
  forall (codecw codecr : option Codec) (mfs : Z) (w : dfw) (r : rdr) (cd : bool)
         (id cmd fl : N) (chunks : list bytes) (rest : bytes),
  clean w -> id < 2^64 -> fl < 256 -> IsCodec fl = false ->
  N.of_nat (length (concat chunks)) < 2^32 - 12 ->
  (mfs <= 0 \/ 12 + Z.of_nat (length (concat chunks)) <= mfs < 2^32)%Z ->
  exists wire,
    snd (wrun codecw w (OStart id cmd fl :: map OBytes chunks ++ [OEnd])) = [EwSent wire] /\
    (pend r = wire ++ rest ->
     exists r', readFrame codecr mfs r cd =
                  (r', inl (mkFrame id fl (cmd mod 2^24) (concat chunks))) /\
                pend r' = rest).
Proof.
  intros codecw codecr mfs w r cd id cmd fl chunks rest HC Hi Hf Hco HL HM.
  pose proof (wrun_frame codecw w id cmd fl chunks HC Hf) as H.
  assert (HP : pack codecw fl (concat chunks) = PkOk fl (concat chunks)).
  { unfold pack. rewrite Hco. destruct (concat chunks); [rewrite ToNonCodec_id by assumption|]; reflexivity. }
  rewrite HP in H. destruct H as (w' & E & _). rewrite E. cbn [snd].
  exists (doc_frame id fl cmd (concat chunks)). split; [reflexivity|]. intro HPd.
  destruct (readFrame_doc codecr mfs r cd id fl cmd (concat chunks) rest Hi Hf HL) as (r' & P & F & E').
  - apply tooLarge_ok. lia.
  - assumption.
  - exists r'. split; [|assumption]. rewrite E'. rewrite Hco.
    destruct (concat chunks); reflexivity.
Qed.
Print Assumptions C01_frame_round_trip.

(** ** C02 *)
Theorem C02_wire_format :
  forall (codec : option Codec) (w : dfw) (id cmd fl : N) (chunks : list bytes),
  clean w -> fl < 256 -> IsCodec fl = false ->
  snd (wrun codec w (OStart id cmd fl :: map OBytes chunks ++ [OEnd]))
  = [EwSent (doc_frame id fl cmd (concat chunks))].
Proof.
  intros codec w id cmd fl chunks HC Hf Hco.
  pose proof (wrun_frame codec w id cmd fl chunks HC Hf) as H.
  assert (HP : pack codec fl (concat chunks) = PkOk fl (concat chunks)).
  { unfold pack. rewrite Hco. destruct (concat chunks); [rewrite ToNonCodec_id by assumption|]; reflexivity. }
  rewrite HP in H. destruct H as (w' & -> & _). reflexivity.
Qed.
Print Assumptions C02_wire_format.

(** With any flags: the layout is the same, only CodecFlag may be cleared, and the payload may be the encoded one; nothing is
    sent only if CodecFlag was set. *)
Theorem C02_wire_format_any_flags :
  forall (codec : option Codec) (w : dfw) (id cmd fl : N) (chunks : list bytes), clean w -> fl < 256 ->
  match snd (wrun codec w (OStart id cmd fl :: map OBytes chunks ++ [OEnd])) with
  | [EwSent wire] => exists fl' q, wire = doc_frame id fl' cmd q /\
      ((q = concat chunks /\ fl' = ToNonCodec fl) \/
       (fl' = fl /\ IsCodec fl = true /\ exists c, codec = Some c /\ Encode c (concat chunks) = Some q))
  | [EwNoCodec] | [EwCodecError] => IsCodec fl = true
  | _ => False
  end.
Proof.
  intros codec w id cmd fl chunks HC Hf. pose proof (wrun_frame codec w id cmd fl chunks HC Hf) as H. unfold pack in H.
  destruct (concat chunks) as [|x q] eqn:EQ.
  - destruct H as (w' & -> & _). cbn [snd]. exists (ToNonCodec fl), []. split; [reflexivity|]. left. auto.
  - destruct (IsCodec fl) eqn:EC.
    + destruct codec as [c|]; [|destruct H as (w' & ->); reflexivity]. destruct (Encode c (x :: q)) as [e|] eqn:EE; [|destruct H as (w' & ->); reflexivity].
      match type of H with context [if ?b then _ else _] => destruct b end; destruct H as (w' & -> & _); cbn [snd]; eexists; eexists; (split; [reflexivity|]); [left; auto|right; eauto].
    + destruct H as (w' & -> & _). cbn [snd]. eexists. eexists. split; [reflexivity|]. left. rewrite ToNonCodec_id by assumption. auto.
Qed.
Print Assumptions C02_wire_format_any_flags.

Theorem C02_packet_tool :
  forall (cmd flg : Z) (id : N) (payload : bytes),
  packet cmd flg id payload =
  if ((0 <=? cmd) && (cmd <=? 16777215) && (0 <=? flg) && (flg <=? 255))%Z%bool
  then Some (doc_frame id (Z.to_N flg) (Z.to_N cmd) payload)
  else None.
Proof.
  intros cmd flg id payload. unfold packet.
  destruct (Z.ltb cmd 0 || Z.ltb 0xffffff cmd)%bool eqn:E1.
  { replace ((0 <=? cmd) && (cmd <=? 16777215))%Z%bool with false by lia. reflexivity. }
  replace ((0 <=? cmd) && (cmd <=? 16777215))%Z%bool with true by lia.
  destruct (Z.ltb flg 0 || Z.ltb 0xff flg)%bool eqn:E2.
  { replace (true && (0 <=? flg) && (flg <=? 255))%Z%bool with false by lia. reflexivity. }
  replace (true && (0 <=? flg) && (flg <=? 255))%Z%bool with true by lia.
  f_equal. rewrite repeat_length.
  rewrite be32_cmdflags by lia. rewrite be64_enc.
  replace (be32 (u32 (N.of_nat (16 + length payload) - 4)))
    with (be_enc 4 (12 + N.of_nat (length payload))).
  2:{ rewrite be32_enc. unfold u32. change 4294967296 with (256 ^ N.of_nat 4). rewrite be_enc_mod.
      f_equal. lia. }
  rewrite repeat_app.
  change (repeat 0 16) with ([] ++ [0;0;0;0] ++ repeat 0 8 ++ repeat 0 4).
  rewrite <- !app_assoc.
  rewrite put_at_app by (rewrite ?be_enc_length; reflexivity). cbn [app].
  rewrite put_at_app by (rewrite ?be_enc_length; reflexivity).
  rewrite (app_assoc (be_enc 4 _) (be_enc 8 id)).
  rewrite put_at_app; [|rewrite app_length, !be_enc_length; reflexivity|cbn [length]; rewrite be_enc_length; reflexivity].
  rewrite (app_assoc (be_enc 4 _ ++ be_enc 8 id)).
  rewrite <- (app_nil_r (repeat 0 (length payload))).
  rewrite put_at_app; [|rewrite !app_length; cbn [length]; rewrite !be_enc_length; reflexivity|apply repeat_length].
  rewrite app_nil_r. unfold doc_frame. rewrite <- !app_assoc. reflexivity.
Qed.
Print Assumptions C02_packet_tool.

(** Integers are appended to the payload in network byte order: as many bytes as the type has, most significant first. *)
Definition beValue (bs : bytes) : N := fold_left (fun acc b => acc * 256 + b) bs 0.
Theorem C02_integers : forall w v, (16 <= length (wbuf w))%nat ->
  let appended (w' : dfw) (k : nat) := exists bs, getPayload w' = getPayload w ++ bs /\ firstn 16 (wbuf w') = firstn 16 (wbuf w) /\
    length bs = k /\ Forall (fun b => b < 256) bs /\ beValue bs = v mod 2 ^ (8 * N.of_nat k) in
  appended (WriteUint64 w v) 8%nat /\ appended (WriteUint32 w v) 4%nat /\ appended (WriteUint16 w v) 2%nat /\ appended (WriteUint8 w v) 1%nat.
Proof.
  intros w v L appended.
  assert (B : forall bs k w', w' = WriteBytes w bs -> length bs = k -> Forall (fun b => b < 256) bs -> beValue bs = v mod 2 ^ (8 * N.of_nat k) -> appended w' k).
  { intros bs k w' -> H1 H2 H3. exists bs. unfold getPayload, WriteBytes, set_wbuf. cbn [wbuf]. rewrite skipn_app, firstn_app.
    replace (16 - length (wbuf w))%nat with 0%nat by lia. cbn [skipn firstn]. rewrite app_nil_r. auto. }
  assert (U : forall x, u8 x < 256) by (intros; apply N.mod_lt; discriminate).
  assert (M : forall k x, x mod 2 ^ (8 * N.of_nat (S k)) = N.shiftr x 8 mod 2 ^ (8 * N.of_nat k) * 256 + u8 x).
  { intros k x. replace (8 * N.of_nat (S k)) with (8 + 8 * N.of_nat k) by lia. rewrite N.pow_add_r, N.mod_mul_r by (try apply N.pow_nonzero; discriminate).
    rewrite N.shiftr_div_pow2. unfold u8. change (2 ^ 8) with 256. lia. }
  repeat split; eapply B; try reflexivity; repeat constructor; try apply U;
    rewrite !M, ?N.shiftr_shiftr; change (2 ^ (8 * N.of_nat 0)) with 1; rewrite N.mod_1_r; reflexivity.
Qed.
Print Assumptions C02_integers.
Example C02_integers_case : getPayload (WriteUint16 (WriteUint32 (mkDfw (repeat 0 16) None false) 0x01020304) 0xabcd) = [1; 2; 3; 4; 0xab; 0xcd].
Proof. reflexivity. Qed.

(** ** C03 *)
Theorem C03_chunking_independent :
  forall (codec : option Codec) (mfs : Z) (cd : bool) xs (r : rdr) tail (fuel : nat),
  Forall (wf_frame codec mfs) xs ->
  pend r = concat (map wire_of xs) ++ tail ->
  (tail = [] \/ exists x k, wf_frame codec mfs x /\ (k < length (wire_of x))%nat /\
                            tail = firstn k (wire_of x)) ->
  (length xs < fuel)%nat ->
  exists e, readFrames fuel codec mfs r cd = (map frame_of xs, Some (FrRead e)).
Proof.
  intros codec mfs cd xs r tail fuel HW HP HT HF.
  exact (readFrames_spec codec mfs cd xs r tail fuel HW HP HF HT).
Qed.
Print Assumptions C03_chunking_independent.

(** ** C04 *)
Theorem C04_frame_size_limit :
  forall (codec : option Codec) (mfs : Z) (r : rdr) (cd : bool) (h rest : bytes),
  length h = 16%nat -> Forall isbyte h -> pend r = h ++ rest ->
  let size := be_val (firstn 4 h) in
  ((0 < mfs < 2^32)%Z -> (mfs < Z.of_N size)%Z ->
     exists r', readFrame codec mfs r cd = (r', inr FrTooLarge) /\ pend r' = rest) /\
  ((mfs < 2^32)%Z -> (mfs <= 0 \/ Z.of_N size <= mfs)%Z -> size < 12 ->
     exists r', readFrame codec mfs r cd = (r', inr FrInvalidSize) /\ pend r' = rest) /\
  (forall r' f, readFrame codec mfs r cd = (r', inl f) ->
     12 <= size /\ ((0 < mfs < 2^32)%Z -> (Z.of_N size <= mfs)%Z) /\
     exists body, rest = body ++ pend r' /\ N.of_nat (length (h ++ body)) = 4 + size).
Proof.
  intros codec mfs r cd h rest HL HB HP.
  destruct (header_split h HL HB) as (size & id & fl & cmd & Hs & Hi & Hf & Hc & Esz & Eh).
  rewrite <- Esz. cbv zeta.
  assert (HP2 : pend r = be_enc 4 size ++ be_enc 8 id ++ [fl] ++ be_enc 3 cmd ++ rest).
  { rewrite HP, Eh at 1. rewrite <- !app_assoc. reflexivity. }
  destruct (readFrame_hdr codec mfs r cd size id fl cmd rest Hs Hi Hf HP2) as (r1 & P1 & F1 & T1 & E1).
  split; [|split].
  - intros Hm Hlt. exists r1. split; [|assumption]. rewrite E1.
    replace (tooLarge mfs size) with true; [reflexivity|].
    symmetry. unfold tooLarge. rewrite Z.mod_small by lia. lia.
  - intros Hm Hle Hlt. exists r1. split; [|assumption]. rewrite E1.
    rewrite tooLarge_ok by lia. replace (size <? 12) with true by (symmetry; apply N.ltb_lt; assumption).
    reflexivity.
  - intros r' f E. rewrite E1 in E.
    destruct (tooLarge mfs size) eqn:ET; [discriminate|].
    destruct (size <? 12) eqn:E12; [discriminate|]. apply N.ltb_ge in E12.
    split; [assumption|]. split.
    { intro Hm. unfold tooLarge in ET. rewrite Z.mod_small in ET by lia. lia. }
    unfold frPayload in E. destruct (12 <? size) eqn:E13.
    + apply N.ltb_lt in E13.
      pose proof (ReadBytes_spec r1 (N.to_nat (size - 12)) cd) as H.
      destruct (Nat.leb (N.to_nat (size - 12)) (length (pend r1))) eqn:EL.
      * destruct H as (r2 & E2 & P2 & _). rewrite E2 in E. apply Nat.leb_le in EL.
        assert (r' = r2).
        { destruct (IsCodec fl); [|congruence].
          destruct codec as [c|]; [|discriminate].
          destruct (Decode c _); [|discriminate]. congruence. }
        subst r'. exists (firstn (N.to_nat (size - 12)) rest). rewrite P2, P1.
        split; [rewrite firstn_skipn; reflexivity|].
        rewrite app_length, firstn_length_le by (rewrite <- P1; assumption). rewrite HL. lia.
      * destruct H as (r2 & E2 & _). rewrite E2 in E. discriminate.
    + apply N.ltb_ge in E13. inversion E; subst r'. exists []. cbn [app]. rewrite P1, app_nil_r.
      split; [reflexivity|]. rewrite HL. lia.
Qed.
Print Assumptions C04_frame_size_limit.

(** A frame is never accepted from fewer than 16 bytes. *)
Theorem C04_no_frame_from_short_input :
  forall codec mfs r cd, (length (pend r) < 16)%nat ->
  exists r' e, readFrame codec mfs r cd = (r', inr (FrRead e)).
Proof.
  intros codec mfs r cd H. pose proof (ReadBytes_spec r 16 cd) as HR.
  replace (Nat.leb 16 (length (pend r))) with false in HR by (symmetry; apply Nat.leb_gt; assumption).
  destruct HR as (r' & E & _). unfold readFrame. rewrite E. eexists. eexists. reflexivity.
Qed.
Print Assumptions C04_no_frame_from_short_input.

(** A server always has a limit: the configured one, or 10 MiB. *)
Theorem C04_server_default :
  forall m, serverMaxFrameSize m = (if Z.leb m 0 then 10485760 else m)%Z.
Proof.
  intro m. unfold serverMaxFrameSize, DefaultMaxFrameSize.
  destruct (Z.ltb_spec 0 m), (Z.leb_spec m 0); lia.
Qed.
Print Assumptions C04_server_default.

(** Outside the quantifier of C04: limits of 2^32 and more wrap to uint32, e.g. 2^32
    refuses every frame although none exceeds it. *)
Theorem C04_huge_limit_wraps : forall size, 0 < size -> tooLarge (2^32) size = true.
Proof. intros size H. unfold tooLarge. cbn [Z.ltb andb]. apply N.ltb_lt. exact H. Qed.
Print Assumptions C04_huge_limit_wraps.

Definition ex_frame (pay : bytes) := doc_frame 7 9 0x010203 pay.
Definition ex_net (chs : list bytes) : rdr := mkRdr [] (mkNet chs REOF) 0%Z.

(** C01/C03/C04 are not vacuous: two frames, split byte by byte with an empty read in
    between, decode to the two frames, then EOF. *)
Example C03_example :
  readFrames 5 None 100 (ex_net (map (fun b => [b]) (ex_frame [1;2;3]) ++ [[]] ++ [ex_frame []; firstn 17 (ex_frame [5;6])])) false
  = ([mkFrame 7 9 0x010203 [1;2;3]; mkFrame 7 9 0x010203 []], Some (FrRead RUnexpectedEOF)).
Proof. vm_compute. reflexivity. Qed.

Example C01_example :
  snd (wrun None fresh (OStart 7 0x5010203 9 :: map OBytes [[1;2];[3]] ++ [OEnd])) = [EwSent (ex_frame [1;2;3])]
  /\ clean fresh.
Proof. split; [vm_compute; reflexivity|]. split; [reflexivity|]. repeat constructor. Qed.

Example C04_example :
  snd (readFrame None 14 (ex_net [ex_frame [1;2;3]]) false) = inr FrTooLarge /\
  snd (readFrame None 15 (ex_net [ex_frame [1;2;3]]) false) = inl (mkFrame 7 9 0x010203 [1;2;3]) /\
  snd (readFrame None 15 (ex_net [[0;0;0;11] ++ repeat 0 12]) false) = inr FrInvalidSize.
Proof. vm_compute. repeat split; reflexivity. Qed.

Example C02_example : packet 66051 9 7 [1;2;3] = Some (ex_frame [1;2;3]).
Proof. vm_compute. reflexivity. Qed.

(** ** C05
    Full statement: for every codec with Decode (Encode p) = p the payload comes back.
    It fails when Encode maps a non-empty payload to the empty string (the reader does not
    decode empty payloads), hence the extra hypothesis [nonempty] of the partial theorem. *)
Definition inverse (c : Codec) : Prop :=
  forall p, exists e, Encode c p = Some e /\ Decode c e = Some p.

Definition C05_statement : Prop :=
  forall (c : Codec) (mfs : Z) (w : dfw) (r : rdr) (cd : bool) (id cmd fl : N) (chunks : list bytes) (rest : bytes),
  inverse c ->
  clean w -> id < 2^64 -> fl < 256 -> IsCodec fl = true ->
  let payload := concat chunks in
  N.of_nat (length payload) < 2^32 - 12 ->
  (mfs <= 0 \/ 12 + Z.of_nat (length payload) <= mfs < 2^32)%Z ->
  exists wire,
    snd (wrun (Some c) w (OStart id cmd fl :: map OBytes chunks ++ [OEnd])) = [EwSent wire] /\
    (length wire <= 16 + length payload)%nat /\
    (pend r = wire ++ rest ->
     exists r' fl', readFrame (Some c) mfs r cd = (r', inl (mkFrame id fl' (cmd mod 2^24) payload)) /\
       pend r' = rest /\ ToNonCodec fl' = ToNonCodec fl /\
       (payload = [] \/ (exists e, Encode c payload = Some e /\ length payload < length e)%nat ->
        IsCodec fl' = false)).

Definition C05_statement_nonempty : Prop :=
  forall (c : Codec) (mfs : Z) (w : dfw) (r : rdr) (cd : bool) (id cmd fl : N) (chunks : list bytes) (rest : bytes),
  inverse c -> (forall p, p <> [] -> Encode c p <> Some []) ->
  clean w -> id < 2^64 -> fl < 256 -> IsCodec fl = true ->
  let payload := concat chunks in
  N.of_nat (length payload) < 2^32 - 12 ->
  (mfs <= 0 \/ 12 + Z.of_nat (length payload) <= mfs < 2^32)%Z ->
  exists wire,
    snd (wrun (Some c) w (OStart id cmd fl :: map OBytes chunks ++ [OEnd])) = [EwSent wire] /\
    (length wire <= 16 + length payload)%nat /\
    (pend r = wire ++ rest ->
     exists r' fl', readFrame (Some c) mfs r cd = (r', inl (mkFrame id fl' (cmd mod 2^24) payload)) /\
       pend r' = rest /\ ToNonCodec fl' = ToNonCodec fl /\
       (payload = [] \/ (exists e, Encode c payload = Some e /\ length payload < length e)%nat ->
        IsCodec fl' = false)).

Lemma ToNonCodec_idem : forall fl, fl < 256 -> ToNonCodec (ToNonCodec fl) = ToNonCodec fl.
Proof.
  intros fl H. apply ToNonCodec_id; [apply ToNonCodec_lt; assumption|apply ToNonCodec_spec; assumption].
Qed.

Theorem C05_compression_transparent_partial : C05_statement_nonempty.
Proof.
  intros c mfs w r cd id cmd fl chunks rest Hinv Hne HC Hi Hf Hco payload HL HM. unfold payload in *.
  pose proof (wrun_frame (Some c) w id cmd fl chunks HC Hf) as H.
  destruct (concat chunks) as [|b p] eqn:Ep.
  - cbn [pack] in H. destruct H as (w' & E & _). exists (doc_frame id (ToNonCodec fl) cmd []).
    rewrite E. split; [reflexivity|]. split; [rewrite doc_frame_length; cbn; lia|]. intro HPd.
    destruct (readFrame_doc (Some c) mfs r cd id (ToNonCodec fl) cmd [] rest Hi (ToNonCodec_lt _ Hf) HL) as (r' & P & F & E').
    + apply tooLarge_ok. cbn [length] in *. lia.
    + assumption.
    + exists r', (ToNonCodec fl). repeat split; [assumption|assumption|apply ToNonCodec_idem; assumption|].
      intros _. apply ToNonCodec_spec. assumption.
  - cbn [pack] in H. rewrite Hco in H.
    destruct (Hinv (b :: p)) as (e & Ee & De). rewrite Ee in H.
    destruct (Nat.ltb (length (b :: p)) (length e)) eqn:EL.
    + destruct H as (w' & E & _). exists (doc_frame id (ToNonCodec fl) cmd (b :: p)).
      rewrite E. split; [reflexivity|]. split; [rewrite doc_frame_length; lia|]. intro HPd.
      destruct (readFrame_doc (Some c) mfs r cd id (ToNonCodec fl) cmd (b :: p) rest Hi (ToNonCodec_lt _ Hf) HL) as (r' & P & F & E').
      * apply tooLarge_ok. lia.
      * assumption.
      * exists r', (ToNonCodec fl). rewrite ToNonCodec_spec in E' by assumption.
        repeat split; [assumption|assumption|apply ToNonCodec_idem; assumption|].
        intros _. apply ToNonCodec_spec. assumption.
    + apply Nat.ltb_ge in EL. destruct H as (w' & E & _). exists (doc_frame id fl cmd e).
      rewrite E. split; [reflexivity|]. split; [rewrite doc_frame_length; lia|]. intro HPd.
      destruct (readFrame_doc (Some c) mfs r cd id fl cmd e rest Hi Hf ltac:(lia)) as (r' & P & F & E').
      * apply tooLarge_ok. lia.
      * assumption.
      * exists r', fl.
        destruct e as [|e0 e]; [exfalso; apply (Hne (b :: p)); [discriminate|assumption]|].
        rewrite Hco, De in E'. repeat split; [assumption|assumption|].
        intros [X|(e' & X & X')]; [discriminate|]. rewrite Ee in X. inversion X; subst. lia.
Qed.
Print Assumptions C05_compression_transparent_partial.

(** Without a codec, EndWrite on a non-empty payload with CodecFlag fails and sends nothing. *)
Theorem C05_no_codec :
  forall (w : dfw) (id cmd fl : N) (chunks : list bytes),
  clean w -> fl < 256 -> IsCodec fl = true -> concat chunks <> [] ->
  snd (wrun None w (OStart id cmd fl :: map OBytes chunks ++ [OEnd])) = [EwNoCodec].
Proof.
  intros w id cmd fl chunks HC Hf Hco Hne.
  pose proof (wrun_frame None w id cmd fl chunks HC Hf) as H.
  unfold pack in H. destruct (concat chunks); [congruence|]. rewrite Hco in H.
  destruct H as (w' & ->). reflexivity.
Qed.
Print Assumptions C05_no_codec.

(** The swap of [] and [7] is a codec with an inverse that loses the payload [7]. *)
Definition swap7 (p : bytes) : option bytes :=
  match p with [] => Some [7] | [b] => Some (if b =? 7 then [] else [b]) | _ => Some p end.
Definition codec7 : Codec := mkCodec swap7 swap7.

Lemma codec7_inverse : inverse codec7.
Proof.
  intro p. cbn. unfold swap7. destruct p as [|b [|b' p]].
  - exists [7]. split; reflexivity.
  - destruct (b =? 7) eqn:E.
    + apply N.eqb_eq in E. subst. exists []. split; reflexivity.
    + exists [b]. split; [reflexivity|]. rewrite E. reflexivity.
  - exists (b :: b' :: p). split; reflexivity.
Qed.

Theorem C05_compression_transparent_refuted : ~ C05_statement.
Proof.
  intro H.
  set (stream := doc_frame 1 CodecFlag 5 []).
  destruct (H codec7 0%Z fresh (ex_net [stream]) false 1 5 CodecFlag [[7]] [] codec7_inverse)
    as (wire & E & _ & R).
  - split; [reflexivity|repeat constructor].
  - reflexivity.
  - reflexivity.
  - reflexivity.
  - reflexivity.
  - left. reflexivity.
  - vm_compute in E. inversion E; subst wire; clear E.
    destruct R as (r' & fl' & E & _); [vm_compute; reflexivity|].
    vm_compute in E. discriminate.
Qed.
Print Assumptions C05_compression_transparent_refuted.

(** A codec meeting the hypotheses of the partial theorem: drop a leading 0 / add a leading 1. *)
Definition codecRle (p : bytes) : option bytes :=
  match p with [] => Some [] | 0 :: 0 :: t => Some (1 :: t) | _ => Some (2 :: p) end.
Definition codecUnrle (p : bytes) : option bytes :=
  match p with [] => Some [] | 1 :: t => Some (0 :: 0 :: t) | 2 :: t => Some t | _ => None end.
Definition codecEx : Codec := mkCodec codecRle codecUnrle.

Example C05_example_hyps : inverse codecEx /\ (forall p, p <> [] -> Encode codecEx p <> Some []).
Proof.
  split.
  - intro p. cbn. unfold codecRle. destruct p as [|a p]; [exists []; split; reflexivity|].
    destruct a as [|a]; [|exists (2 :: N.pos a :: p); split; reflexivity].
    destruct p as [|b p]; [exists [2; 0]; split; reflexivity|].
    destruct b as [|b]; [exists (1 :: p)|exists (2 :: 0 :: N.pos b :: p)]; split; reflexivity.
  - intros p Hp. cbn. unfold codecRle. destruct p as [|a p]; [congruence|].
    destruct a as [|a]; [|discriminate]. destruct p as [|b p]; [discriminate|].
    destruct b; discriminate.
Qed.

Example C05_example :
  snd (wrun (Some codecEx) fresh [OStart 1 5 CodecFlag; OBytes [0;0;9]; OEnd; OStart 1 5 CodecFlag; OBytes [3]; OEnd])
  = [EwSent (doc_frame 1 CodecFlag 5 [1;9]); EwSent (doc_frame 1 0 5 [3])].
Proof. vm_compute. reflexivity. Qed.

(** ** C06
    Full statement over every history, failing calls and pool recycling included. *)
Definition C06_statement : Prop :=
  forall codec w os, clean w -> Forall wop_ok os ->
  results_carry codec (snd (wrun codec w os)) (payloads_since_end [] os).

Definition C06_pool_statement : Prop :=
  forall codec p ss, clean p -> Forall (Forall wop_ok) ss ->
  Forall2 (fun rs os => results_carry codec rs (payloads_since_end [] os)) (sessions codec p ss) ss.

(** Holds for every history in which no ending call failed before sending. *)
Theorem C06_no_payload_leak_partial :
  forall codec w os, clean w -> Forall wop_ok os ->
  Forall (fun r => is_sent r = true) (snd (wrun codec w os)) ->
  results_carry codec (snd (wrun codec w os)) (payloads_since_end [] os).
Proof.
  intros codec w os HC HO HS. destruct (clean_rep w HC) as (id & fl & cmd & R).
  destruct (payloads_exact_all_sent codec os w id fl cmd [] R HO HS) as [<- _].
  eapply wrun_exact; eassumption.
Qed.
Print Assumptions C06_no_payload_leak_partial.

(** ... and across borrowers of the pool, if each borrower leaves nothing unsent. *)
Theorem C06_pool_no_payload_leak_partial :
  forall codec p ss, clean p ->
  Forall (fun os => Forall wop_ok os /\ pending_after [] os = []) ss ->
  Forall (Forall (fun r => is_sent r = true)) (sessions codec p ss) ->
  Forall2 (fun rs os => results_carry codec rs (payloads_since_end [] os)) (sessions codec p ss) ss.
Proof.
  intros codec p ss HC HO HS. destruct (clean_rep p HC) as (id & fl & cmd & R).
  eapply sessions_carry; eassumption.
Qed.
Print Assumptions C06_pool_no_payload_leak_partial.

(** Exact behaviour for every history: the payload of a frame is everything written since
    the last ending call that sent a frame. *)
Theorem C06_exact_payloads :
  forall codec w os, clean w -> Forall wop_ok os ->
  results_carry codec (snd (wrun codec w os)) (payloads_exact codec w [] os).
Proof.
  intros codec w os HC HO. destruct (clean_rep w HC) as (id & fl & cmd & R).
  eapply wrun_exact; eassumption.
Qed.
Print Assumptions C06_exact_payloads.

(** A failed compressed EndWrite leaks its payload into the next frame. *)
Theorem C06_no_payload_leak_refuted : ~ C06_statement.
Proof.
  intro H.
  specialize (H None fresh [OStart 1 5 CodecFlag; OBytes [1]; OEnd; OStart 1 5 0; OBytes [2]; OEnd]).
  cbn [payloads_since_end is_end app] in H.
  assert (E : snd (wrun None fresh [OStart 1 5 CodecFlag; OBytes [1]; OEnd; OStart 1 5 0; OBytes [2]; OEnd])
              = [EwNoCodec; EwSent (doc_frame 1 0 5 [1;2])]) by (vm_compute; reflexivity).
  rewrite E in H.
  assert (HC : results_carry None [EwNoCodec; EwSent (doc_frame 1 0 5 [1;2])] [[1]; [2]]).
  { apply H; [split; [reflexivity|repeat constructor]|repeat constructor]. }
  inversion HC as [|? ? ? ? _ HC2]; subst. inversion HC2 as [|? ? ? ? HC3 _]; subst.
  destruct HC3 as (id & fl & cmd & q & Eq & [Hq|(_ & c & Hc & _)]); [|discriminate].
  apply (f_equal (skipn 16)) in Eq. rewrite !doc_frame_payload in Eq. congruence.
Qed.
Print Assumptions C06_no_payload_leak_refuted.

(** Bytes written and abandoned by one borrower are sent in the next borrower's frame. *)
Theorem C06_pool_no_payload_leak_refuted : ~ C06_pool_statement.
Proof.
  intro H.
  specialize (H None fresh [[OStart 1 5 0; OBytes [1]]; [OStart 3 6 0; OBytes [2]; OEnd]]).
  assert (E : sessions None fresh [[OStart 1 5 0; OBytes [1]]; [OStart 3 6 0; OBytes [2]; OEnd]]
              = [[]; [EwSent (doc_frame 3 0 6 [1;2])]]) by (vm_compute; reflexivity).
  rewrite E in H. cbn [payloads_since_end is_end app] in H.
  assert (HF : Forall2 (fun rs os => results_carry None rs (payloads_since_end [] os))
     [[]; [EwSent (doc_frame 3 0 6 [1; 2])]] [[OStart 1 5 0; OBytes [1]]; [OStart 3 6 0; OBytes [2]; OEnd]]).
  { apply H; [split; [reflexivity|repeat constructor]|repeat constructor]. }
  inversion HF as [|? ? ? ? _ HC2]; subst. inversion HC2 as [|? ? ? ? HC3 _]; subst.
  cbn [payloads_since_end is_end app] in HC3. inversion HC3 as [|? ? ? ? HC4 _]; subst.
  destruct HC4 as (id & fl & cmd & q & Eq & [Hq|(_ & c & Hc & _)]); [|discriminate].
  apply (f_equal (skipn 16)) in Eq. rewrite !doc_frame_payload in Eq. congruence.
Qed.
Print Assumptions C06_pool_no_payload_leak_refuted.

(** Nothing else of a borrower reaches the next one: neither its pending Response nor its checkExist mark. *)
Theorem C06_pool_no_state_leak : forall codec p os,
  resp (newFrameWriter (fst (session codec p os))) = None /\ checkExist (newFrameWriter (fst (session codec p os))) = false.
Proof. intros codec p os. unfold session. destruct (wrun codec (newFrameWriter p) os) as [w rs]. split; reflexivity. Qed.
Print Assumptions C06_pool_no_state_leak.
Example C06_pool_state_case : resp (newFrameWriter (fst (session None (mkDfw (repeat 0 16) (Some 7) true) [OStart 1 5 CodecFlag; OBytes [1]; OEnd]))) = None.
Proof. vm_compute. reflexivity. Qed.

Example C06_example :
  let os := [OStart 1 5 0; OBytes [1]; OBytes [2]; OEnd; OSwStart 6; OBytes [3]; OSwEnd true; OSwReset 9] in
  Forall (fun r => is_sent r = true) (snd (wrun None fresh os)) /\
  payloads_since_end [] os = [[1;2]; [3]; []] /\ pending_after [] os = [].
Proof. vm_compute. repeat split; repeat constructor. Qed.

(** ** C07 *)
Definition wire_flags (wire : bytes) : N := nth 12 wire 0.

Definition C07_statement : Prop :=
  forall codec p id cmd fl payload wire, clean p -> fl < 256 ->
  snd (clientRequest codec p id cmd fl payload) = EwSent wire ->
  IsStream (wire_flags wire) = false.

(** The flag of the caller goes out unchanged: a streamed frame is sent. *)
Theorem C07_request_not_streamed_refuted : ~ C07_statement.
Proof.
  intro H.
  specialize (H None fresh 1 5 StreamFlag [] (doc_frame 1 StreamFlag 5 [])).
  assert (X : IsStream (wire_flags (doc_frame 1 StreamFlag 5 [])) = false).
  { apply H; [split; [reflexivity|repeat constructor]|reflexivity|vm_compute; reflexivity]. }
  vm_compute in X. discriminate.
Qed.
Print Assumptions C07_request_not_streamed_refuted.

(** Holds for callers that do not pass stream flags themselves (ToNonStream is the identity). *)
Theorem C07_request_not_streamed_partial :
  forall codec p id cmd fl payload wire, clean p -> fl < 256 -> IsStream fl = false ->
  snd (clientRequest codec p id cmd fl payload) = EwSent wire ->
  IsStream (wire_flags wire) = false.
Proof.
  intros codec p id cmd fl payload wire HC Hf HS HE.
  destruct (clean_rep p HC) as (id0 & fl0 & cmd0 & R).
  assert (R0 : rep (newFrameWriter p) id0 fl0 cmd0 []) by exact R.
  assert (HT : ToNonStream fl = fl).
  { apply N.eqb_eq. apply (flags_sweep (fun f => ToNonStream f =? f)); [vm_compute; reflexivity|assumption]. }
  unfold clientRequest, writeFirstFrame in HE. rewrite HT in HE.
  pose proof (rep_StartWrite _ _ _ _ _ id cmd fl R0 Hf) as R1.
  pose proof (rep_WriteBytes _ _ _ _ _ payload R1) as R2. cbn [app] in R2.
  pose proof (rep_EndWrite codec _ _ _ _ _ R2) as H.
  assert (W : forall f p', wire_flags (doc_frame id f cmd p') = f).
  { intros f p'. unfold wire_flags, doc_frame. cbn [be_enc app nth]. reflexivity. }
  assert (HS2 : IsStream (ToNonCodec fl) = false).
  { assert (X := flags_sweep (fun f => IsStream f || negb (IsStream (ToNonCodec f))) ltac:(vm_compute; reflexivity) fl Hf).
    cbv beta in X. rewrite HS in X. apply negb_true_iff. exact X. }
  unfold pack in H. destruct payload as [|b payload].
  - destruct H as (w' & E & _). rewrite E in HE. inversion HE. rewrite W. assumption.
  - destruct (IsCodec fl).
    + destruct codec as [c|]; [|rewrite H in HE; discriminate].
      destruct (Encode c (b :: payload)) as [e|]; [|rewrite H in HE; discriminate].
      destruct (Nat.ltb (length (b :: payload)) (length e)); destruct H as (w' & E & _);
        rewrite E in HE; inversion HE; rewrite W; assumption.
    + destruct H as (w' & E & _). rewrite E in HE. inversion HE. rewrite W. assumption.
Qed.
Print Assumptions C07_request_not_streamed_partial.

Example C07_example : snd (clientRequest None fresh 3 5 NBFlag [1]) = EwSent (doc_frame 3 NBFlag 5 [1]).
Proof. vm_compute. reflexivity. Qed.

(** ** C08 *)
Theorem C08_cmd_packing :
  (forall c o, o < 256 ->
     CmdWithOpaque c o mod 65536 = c mod 65536 /\
     Routing (CmdWithOpaque c o) = Routing c /\
     Opaque (CmdWithOpaque c o) = o /\ CmdWithOpaque c o <= MaxCmd) /\
  (forall c, Routing c = c mod 65536) /\
  (forall c1 c2, c1 <= MaxCmd -> c2 <= MaxCmd ->
     Routing c1 = Routing c2 -> Opaque c1 = Opaque c2 -> c1 = c2) /\
  (forall c, c <= MaxCmd -> CmdWithOpaque (Routing c) (Opaque c) = c).
Proof.
  assert (R : forall c, Routing c = c mod 65536) by (intro; apply land_ffff).
  assert (O : forall c, Opaque c = (c / 65536) mod 256).
  { intro c. unfold Opaque, u8. rewrite N.shiftr_div_pow2. reflexivity. }
  assert (W : forall c o, o < 256 -> CmdWithOpaque c o = c mod 65536 + o * 65536).
  { intros c o Ho. unfold CmdWithOpaque, u32. rewrite land_ffff, N.shiftl_mul_pow2. change (2^16) with 65536.
    rewrite (N.mod_small (o * 65536)) by lia. apply N.mod_small. lia. }
  unfold MaxCmd. split; [|split; [exact R|split]].
  - intros c o Ho. rewrite !R, O, W by assumption. lia.
  - intros c1 c2 H1 H2. rewrite !R, !O. lia.
  - intros c H. rewrite W by (rewrite O; apply N.mod_lt; discriminate). rewrite R, O. lia.
Qed.
Print Assumptions C08_cmd_packing.

Example C08_example : CmdWithOpaque 0x990102 0xab = 0xab0102 /\ Opaque 0xab0102 = 0xab.
Proof. split; reflexivity. Qed.
