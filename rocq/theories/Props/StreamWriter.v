(** C64: the frames written through the StreamWriter of a streamed request. *)
From Coq Require Import ZifyBool ZifyNat ZifyN.
From Verif Require Import Model.GoBase Model.Qrpc Model.FrameWriter Model.FirstFrame
  Spec.FrameSpec Spec.WriterSpec Spec.SwSpec Proofs.Bits Proofs.Writer Proofs.CodecP.
Open Scope N_scope.

(** Each frame is the one asked for, whatever frames of the stream were written before it. *)
Definition C64_statement : Prop :=
  forall codec p id cmd0 fl pay0 w wire ts, clean p -> fl < 256 ->
  streamRequest codec p id cmd0 fl pay0 = (w, EwSent wire) ->
  ends_last ts ->
  snd (wrun codec w (flat_map turn_ops ts)) = map (turn_asked codec id (N.setbit fl 0)) ts.

(** ** The flag byte, bit by bit *)
Lemma flag_forms : forall fl, fl < 256 ->
  ToStream fl = N.setbit fl 0 /\ ToEndStream fl = N.setbit fl 1 /\ ToCodec fl = N.setbit fl 5 /\
  ToNonCodec fl = N.clearbit fl 5 /\ IsCodec fl = N.testbit fl 5.
Proof.
  intros fl H.
  pose proof (flags_sweep (fun f => (ToStream f =? N.setbit f 0) && (ToEndStream f =? N.setbit f 1) &&
    (ToCodec f =? N.setbit f 5) && (ToNonCodec f =? N.clearbit f 5) && Bool.eqb (IsCodec f) (N.testbit f 5))%bool
    ltac:(vm_compute; reflexivity) fl H) as E.
  apply andb_prop in E as [E E5]. apply andb_prop in E as [E E4]. apply andb_prop in E as [E E3].
  apply andb_prop in E as [E1 E2]. apply Bool.eqb_prop in E5.
  apply N.eqb_eq in E1, E2, E3, E4. auto.
Qed.

Lemma setbit_lt : forall fl b, fl < 256 -> (b = 0 \/ b = 1 \/ b = 5) -> N.setbit fl b < 256.
Proof.
  intros fl b H Hb. apply N.ltb_lt.
  pose proof (flags_sweep (fun f => ((N.setbit f 0 <? 256) && (N.setbit f 1 <? 256) && (N.setbit f 5 <? 256))%bool)
    ltac:(vm_compute; reflexivity) fl H) as E.
  apply andb_prop in E as [E E3]. apply andb_prop in E as [E1 E2].
  destruct Hb as [->|[->| ->]]; assumption.
Qed.

Lemma setbit_idem : forall fl b, N.testbit fl b = true -> N.setbit fl b = fl.
Proof.
  intros fl b H. apply N.bits_inj. intro k. rewrite N.setbit_eqb.
  destruct (N.eqb_spec b k) as [->|]; [symmetry; exact H|reflexivity].
Qed.

(** the header of a writer whose id field was read back from it *)
Lemma rep_same_id : forall w id id' fl cmd pay, be_enc 8 id' = be_enc 8 id ->
  rep w id' fl cmd pay -> rep w id fl cmd pay.
Proof. intros w id id' fl cmd pay E (l4 & Hl & Hf & H). rewrite E in H. exists l4. auto. Qed.

(** ** One frame *)
Lemma turn_start : forall codec t w id fl cmd pre, rep w id fl cmd pre ->
  exists w1, wrun codec w (turn_ops t) =
    wrun codec w1 [match t_end t with
                   | EndPlain fin => OSwEnd fin | EndCompressed => OEndCompressed | EndReset r => OSwReset r end] /\
    rep w1 id fl (t_cmd t) (pre ++ t_payload t).
Proof.
  intros codec t w id fl cmd pre R. unfold turn_ops. cbn [wrun wstep].
  destruct (wrun_bytes codec (t_chunks t) (SwStartWrite w (t_cmd t)) id fl (t_cmd t) pre
              (rep_SetCmd _ _ _ _ _ _ R)) as (w1 & E & R1).
  rewrite wrun_app, E. exists w1. split; [|exact R1].
  destruct (wrun codec w1 _) as [w2 r2] eqn:E2. cbn [app]. symmetry. exact E2.
Qed.

Lemma end_plain : forall codec w1 id fl cmd pay (fin : bool), rep w1 id fl cmd pay ->
  match pack codec (if fin then N.setbit fl 1 else fl) pay with
  | PkNoCodec => exists w', wrun codec w1 [OSwEnd fin] = (w', [EwNoCodec]) /\ rep w' id (if fin then N.setbit fl 1 else fl) cmd pay
  | PkErr => exists w', wrun codec w1 [OSwEnd fin] = (w', [EwCodecError]) /\ rep w' id (if fin then N.setbit fl 1 else fl) cmd pay
  | PkOk fl' pay' => exists w', wrun codec w1 [OSwEnd fin] = (w', [EwSent (doc_frame id fl' cmd pay')]) /\ rep w' id fl' cmd []
  end.
Proof.
  intros codec w1 id fl cmd pay fin R.
  assert (Hf : fl < 256) by (destruct R as (? & ? & ? & ?); assumption).
  set (f := if fin then N.setbit fl 1 else fl).
  set (w2 := if fin then SetFlags w1 (ToEndStream (getFlags w1)) else w1).
  assert (R2 : rep w2 id f cmd pay).
  { unfold w2, f. destruct fin; [|exact R]. rewrite (rep_Flags _ _ _ _ _ R).
    destruct (flag_forms fl Hf) as (_ & -> & _).
    apply rep_SetFlags with (fl0 := fl); [exact R|apply setbit_lt; auto]. }
  pose proof (rep_EndWrite codec w2 id f cmd pay R2) as H.
  cbn [wrun wstep]. unfold SwEndWrite, StreamEndWrite. fold w2.
  destruct (pack codec f pay) as [| |fl' pay'].
  - rewrite H. exists w2. split; [reflexivity|exact R2].
  - rewrite H. exists w2. split; [reflexivity|exact R2].
  - destruct H as (w' & -> & R'). exists w'. split; [reflexivity|exact R'].
Qed.

Lemma end_compressed : forall codec w1 id fl cmd pay, rep w1 id fl cmd pay ->
  exists w', wrun codec w1 [OEndCompressed] = (w', [EwSent (doc_frame id (N.setbit fl 5) cmd pay)]) /\
             rep w' id (N.setbit fl 5) cmd [].
Proof.
  intros codec w1 id fl cmd pay R.
  assert (Hf : fl < 256) by (destruct R as (? & ? & ? & ?); assumption).
  cbn [wrun wstep]. unfold EndWriteCompressed. rewrite (rep_Flags _ _ _ _ _ R).
  destruct (flag_forms fl Hf) as (_ & _ & -> & _).
  destruct (rep_endWrite (SetFlags w1 (N.setbit fl 5)) id (N.setbit fl 5) cmd pay) as (w' & -> & R').
  { apply rep_SetFlags with (fl0 := fl); [exact R|apply setbit_lt; auto]. }
  exists w'. split; [reflexivity|exact R'].
Qed.

Lemma end_reset : forall codec w1 id fl cmd pay reason, rep w1 id fl cmd pay ->
  exists w', wrun codec w1 [OSwReset reason] = (w', [EwSent (doc_frame id 4 reason pay)]) /\
             rep w' id 4 reason [].
Proof.
  intros codec w1 id fl cmd pay reason R.
  pose proof (rep_RequestID _ _ _ _ _ R) as Eid.
  cbn [wrun wstep]. unfold SwResetFrame, ResetFrame.
  pose proof (rep_StartWrite w1 id fl cmd pay (getRequestID w1) reason StreamRstFlag R eq_refl) as R1.
  apply (rep_same_id _ id) in R1; [|exact Eid].
  pose proof (rep_EndWrite codec _ id StreamRstFlag reason pay R1) as H.
  change StreamRstFlag with 4 in *.
  assert (EP : pack codec 4 pay = PkOk 4 pay) by (destruct pay; reflexivity).
  rewrite EP in H. destruct H as (w' & -> & R'). exists w'. split; [reflexivity|exact R'].
Qed.

(** the header left by StreamRequest *)
Lemma streamRequest_rep : forall codec p id cmd0 fl pay0 w wire, clean p -> fl < 256 ->
  streamRequest codec p id cmd0 fl pay0 = (w, EwSent wire) ->
  exists fl' pay', pack codec (N.setbit fl 0) pay0 = PkOk fl' pay' /\
    wire = doc_frame id fl' cmd0 pay' /\ rep w id fl' cmd0 [].
Proof.
  intros codec p id cmd0 fl pay0 w wire HC Hf E.
  destruct (clean_rep p HC) as (id1 & fl1 & cmd1 & R).
  unfold streamRequest, writeFirstFrame in E.
  destruct (flag_forms fl Hf) as (Es & _). rewrite Es in E.
  assert (R0 : rep (newFrameWriter p) id1 fl1 cmd1 []) by exact R.
  pose proof (rep_StartWrite _ _ _ _ _ id cmd0 (N.setbit fl 0) R0 (setbit_lt fl 0 Hf (or_introl eq_refl))) as R1.
  pose proof (rep_WriteBytes _ _ _ _ _ pay0 R1) as R2. cbn [app] in R2.
  pose proof (rep_EndWrite codec _ _ _ _ _ R2) as H.
  destruct (pack codec (N.setbit fl 0) pay0) as [| |fl' pay'].
  - rewrite H in E. discriminate.
  - rewrite H in E. discriminate.
  - destruct H as (w' & H & R'). rewrite H in E. injection E as <- <-.
    exists fl', pay'. auto.
Qed.

(** [pack] when compression helps, and without the codec bit *)
Lemma pack_compresses : forall codec f pay, f < 256 -> N.testbit f 5 = true -> compresses codec pay ->
  exists c e, codec = Some c /\ Encode c pay = Some e /\ pay <> [] /\ (length e <= length pay)%nat /\ pack codec f pay = PkOk f e.
Proof.
  intros codec f pay Hf Hb (c & e & -> & He & Hn & Hl). exists c, e.
  split; [reflexivity|]. split; [exact He|]. split; [exact Hn|]. split; [exact Hl|].
  destruct (flag_forms f Hf) as (_ & _ & _ & _ & Ec).
  destruct pay as [|b pay]; [congruence|]. unfold pack. rewrite Ec, Hb, He.
  replace (Nat.ltb (length (b :: pay)) (length e)) with false; [reflexivity|].
  symmetry. apply Nat.ltb_ge. exact Hl.
Qed.

Lemma pack_plain : forall codec f pay, f < 256 -> N.testbit f 5 = false -> pack codec f pay = PkOk f pay.
Proof.
  intros codec f pay Hf Hb. destruct (flag_forms f Hf) as (_ & _ & _ & En & Ec).
  rewrite Hb in Ec. destruct pay; unfold pack.
  - rewrite ToNonCodec_id by assumption. reflexivity.
  - rewrite Ec. reflexivity.
Qed.

Lemma clearbit_id : forall f, N.testbit f 5 = false -> N.clearbit f 5 = f.
Proof.
  intros f H. apply N.bits_inj. intro k. rewrite N.clearbit_eqb.
  destruct (N.eqb_spec 5 k) as [<-|]; [rewrite H; reflexivity|apply andb_true_r].
Qed.

(** no frame asks for compression, or all do and it helps *)
Definition uniform (codec : option Codec) (fl : N) (t : turn) : Prop :=
  (N.testbit fl 5 = false /\ t_end t <> EndCompressed) \/
  (N.testbit fl 5 = true /\ (t_end t = EndCompressed \/ compresses codec (t_payload t))).

Lemma turns_uniform : forall codec id fl ts w cmd, fl < 256 -> rep w id fl cmd [] -> ends_last ts ->
  Forall (uniform codec fl) ts ->
  snd (wrun codec w (flat_map turn_ops ts)) = map (turn_asked codec id fl) ts.
Proof.
  intros codec id fl ts. induction ts as [|t ts IH]; intros w cmd Hf R HL HU; [reflexivity|].
  cbn [flat_map map]. rewrite wrun_app.
  destruct (turn_start codec t w id fl cmd [] R) as (w1 & -> & R1). cbn [app] in R1.
  pose proof (Forall_inv HU) as Hu. pose proof (Forall_inv_tail HU) as HU'.
  destruct HL as [HL0 HL].
  assert (G : exists w' cmd', wrun codec w1
      [match t_end t with EndPlain fin => OSwEnd fin | EndCompressed => OEndCompressed | EndReset r => OSwReset r end]
      = (w', [turn_asked codec id fl t]) /\ (ts = [] \/ rep w' id fl cmd' [])).
  { unfold uniform in Hu. unfold ends in HL0. unfold turn_asked. destruct (t_end t) as [fin| |reason] eqn:Ee.
    - pose proof (end_plain codec w1 id fl (t_cmd t) (t_payload t) fin R1) as H.
      set (f := if fin then N.setbit fl 1 else fl) in *.
      assert (Hf' : f < 256) by (unfold f; destruct fin; [apply setbit_lt; auto|exact Hf]).
      assert (Hb : N.testbit f 5 = N.testbit fl 5).
      { unfold f. destruct fin; [|reflexivity]. rewrite N.setbit_eqb. reflexivity. }
      destruct Hu as [[Hc _]|[Hc [D|Hcomp]]]; [| discriminate |].
      + rewrite Hc in Hb. rewrite (pack_plain codec f (t_payload t) Hf' Hb) in H.
        destruct H as (w' & -> & R'). exists w', (t_cmd t). split.
        * rewrite Hb, (clearbit_id f Hb). destruct (t_payload t); reflexivity.
        * destruct fin; [left; apply HL0; reflexivity|right; exact R'].
      + rewrite Hc in Hb.
        destruct (pack_compresses codec f (t_payload t) Hf' Hb Hcomp) as (c & e & Ec & He & Hn & Hl & EP).
        rewrite EP in H. destruct H as (w' & -> & R'). exists w', (t_cmd t). split.
        * rewrite Hb, Ec, He. destruct (t_payload t) as [|b0 pay] eqn:Ep; [congruence|].
          replace (Nat.leb (length e) (length (b0 :: pay))) with true; [reflexivity|].
          symmetry. apply Nat.leb_le. exact Hl.
        * destruct fin; [left; apply HL0; reflexivity|right; exact R'].
    - destruct (end_compressed codec w1 id fl (t_cmd t) (t_payload t) R1) as (w' & -> & R').
      exists w', (t_cmd t). split; [reflexivity|right].
      destruct Hu as [[_ D]|[Hc _]]; [congruence|]. rewrite (setbit_idem fl 5 Hc) in R'. exact R'.
    - destruct (end_reset codec w1 id fl (t_cmd t) (t_payload t) reason R1) as (w' & -> & R').
      exists w', 0. split; [reflexivity|left; apply HL0; reflexivity]. }
  destruct G as (w' & cmd' & -> & [->|R']); [reflexivity|].
  specialize (IH w' cmd' Hf R' HL HU').
  destruct (wrun codec w' (flat_map turn_ops ts)) as [w3 r3]. cbn [snd app] in *. rewrite IH. reflexivity.
Qed.

(** Holds for streams of which no frame, or every frame the opening one included, is compressed. *)
Theorem C64_frames_as_asked_partial :
  forall codec p id cmd0 fl pay0 w wire ts, clean p -> fl < 256 ->
  streamRequest codec p id cmd0 fl pay0 = (w, EwSent wire) ->
  ends_last ts ->
  (N.testbit fl 5 = true -> compresses codec pay0) ->
  Forall (uniform codec fl) ts ->
  snd (wrun codec w (flat_map turn_ops ts)) = map (turn_asked codec id (N.setbit fl 0)) ts.
Proof.
  intros codec p id cmd0 fl pay0 w wire ts HC Hf E HL H0 HU.
  destruct (streamRequest_rep codec p id cmd0 fl pay0 w wire HC Hf E) as (fl' & pay' & EP & -> & R).
  assert (Hs : N.setbit fl 0 < 256) by (apply setbit_lt; auto).
  assert (Hb : N.testbit (N.setbit fl 0) 5 = N.testbit fl 5) by (rewrite N.setbit_eqb; reflexivity).
  assert (fl' = N.setbit fl 0) as ->.
  { destruct (N.testbit fl 5) eqn:Hc.
    - destruct (pack_compresses codec _ pay0 Hs Hb (H0 eq_refl)) as (c & e & _ & _ & _ & _ & EP').
      rewrite EP' in EP. congruence.
    - rewrite (pack_plain codec _ pay0 Hs Hb) in EP. congruence. }
  apply turns_uniform with (cmd := cmd0); [exact Hs|exact R|exact HL|].
  eapply Forall_impl; [|exact HU]. intros t Hu. unfold uniform in *. rewrite Hb. exact Hu.
Qed.
Print Assumptions C64_frames_as_asked_partial.

(** The codec mark of EndWriteCompressed stays: without a codec no later non-empty frame can be sent. *)
Theorem C64_after_compressed :
  forall p id cmd0 fl pay0 w wire t ts, clean p -> fl < 256 ->
  streamRequest None p id cmd0 fl pay0 = (w, EwSent wire) ->
  t_end t = EndCompressed ->
  Forall (fun t' => t_payload t' <> [] /\ exists fin, t_end t' = EndPlain fin) ts ->
  exists sent, snd (wrun None w (flat_map turn_ops (t :: ts))) = EwSent sent :: map (fun _ => EwNoCodec) ts.
Proof.
  intros p id cmd0 fl pay0 w wire t ts HC Hf E Ht HT.
  destruct (streamRequest_rep None p id cmd0 fl pay0 w wire HC Hf E) as (fl' & pay' & _ & _ & R).
  cbn [flat_map]. rewrite wrun_app.
  destruct (turn_start None t w id fl' cmd0 [] R) as (w1 & -> & R1). rewrite Ht.
  destruct (end_compressed None w1 id fl' (t_cmd t) _ R1) as (w2 & -> & R2).
  assert (Hc : N.testbit (N.setbit fl' 5) 5 = true) by (rewrite N.setbit_eqb; reflexivity).
  revert Hc R2. generalize (N.setbit fl' 5) as f. generalize (t_cmd t) as cmd. generalize ([] : bytes) at 1 as pre.
  assert (L : forall ts w2 pre cmd f, Forall (fun t' => t_payload t' <> [] /\ exists fin, t_end t' = EndPlain fin) ts ->
    N.testbit f 5 = true -> rep w2 id f cmd pre ->
    snd (wrun None w2 (flat_map turn_ops ts)) = map (fun _ => EwNoCodec) ts).
  { clear. induction ts as [|t ts IH]; intros w2 pre cmd f HT Hc R; [reflexivity|].
    cbn [flat_map map]. rewrite wrun_app.
    destruct (turn_start None t w2 id f cmd pre R) as (w3 & -> & R3).
    pose proof (Forall_inv HT) as (Hn & fin & Ee). rewrite Ee.
    assert (Hf : f < 256) by (destruct R as (? & ? & ? & ?); assumption).
    pose proof (end_plain None w3 id f (t_cmd t) (pre ++ t_payload t) fin R3) as H.
    set (g := if fin then N.setbit f 1 else f) in *.
    assert (Hg : g < 256) by (unfold g; destruct fin; [apply setbit_lt; auto|exact Hf]).
    assert (Hb : N.testbit g 5 = true).
    { unfold g. destruct fin; [|exact Hc]. rewrite N.setbit_eqb. exact Hc. }
    assert (EP : pack None g (pre ++ t_payload t) = PkNoCodec).
    { destruct (flag_forms g Hg) as (_ & _ & _ & _ & Ec).
      destruct (pre ++ t_payload t) as [|b q] eqn:Eq.
      - apply app_eq_nil in Eq as [_ Eq]. congruence.
      - unfold pack. rewrite Ec, Hb. reflexivity. }
    rewrite EP in H. destruct H as (w4 & -> & R4).
    specialize (IH w4 _ _ g (Forall_inv_tail HT) Hb R4).
    destruct (wrun None w4 (flat_map turn_ops ts)) as [w5 r5]. cbn [snd app] in *. rewrite IH. reflexivity. }
  intros pre cmd f Hc R2.
  specialize (L ts w2 _ _ _ HT Hc R2).
  destruct (wrun None w2 (flat_map turn_ops ts)) as [w5 r5]. cbn [snd app] in *. rewrite L.
  eexists. reflexivity.
Qed.
Print Assumptions C64_after_compressed.

(** The codec mark of a stream is lost with its first empty frame: nothing is compressed afterwards. *)
Theorem C64_codec_lost :
  forall codec p id cmd0 fl w wire ts, clean p -> fl < 256 ->
  streamRequest codec p id cmd0 fl [] = (w, EwSent wire) ->
  ends_last ts -> Forall (fun t => t_end t <> EndCompressed) ts ->
  snd (wrun codec w (flat_map turn_ops ts)) =
  map (fun t => match t_end t with
                | EndReset reason => EwSent (doc_frame id 4 reason (t_payload t))
                | _ => let f := N.clearbit (N.setbit fl 0) 5 in
                       EwSent (doc_frame id (if ends t then N.setbit f 1 else f) (t_cmd t) (t_payload t))
                end) ts.
Proof.
  intros codec p id cmd0 fl w wire ts HC Hf E HL HT.
  destruct (streamRequest_rep codec p id cmd0 fl [] w wire HC Hf E) as (fl' & pay' & EP & -> & R).
  assert (Hs : N.setbit fl 0 < 256) by (apply setbit_lt; auto).
  destruct (flag_forms _ Hs) as (_ & _ & _ & En & _).
  cbn [pack] in EP. rewrite En in EP. injection EP as <- <-.
  set (f := N.clearbit (N.setbit fl 0) 5) in *.
  assert (Hb : N.testbit f 5 = false) by (unfold f; rewrite N.clearbit_eqb; cbn; apply andb_false_r).
  assert (Hf' : f < 256) by (destruct R as (? & ? & ? & ?); assumption).
  rewrite (turns_uniform codec id f ts w cmd0 Hf' R HL).
  - apply map_ext_in. intros t Ht. rewrite Forall_forall in HT. specialize (HT t Ht).
    unfold turn_asked, ends. destruct (t_end t) as [fin| |reason]; [|congruence|reflexivity].
    assert (Hb1 : N.testbit (if fin then N.setbit f 1 else f) 5 = false).
    { destruct fin; [|exact Hb]. rewrite N.setbit_eqb. exact Hb. }
    rewrite Hb1, (clearbit_id _ Hb1). destruct (t_payload t); reflexivity.
  - eapply Forall_impl; [|exact HT]. intros t Ht. left. auto.
Qed.
Print Assumptions C64_codec_lost.

(** After ResetFrame every later frame is another reset of the stream, payload included. *)
Theorem C64_after_reset :
  forall codec p id cmd0 fl pay0 w wire t reason ts, clean p -> fl < 256 ->
  streamRequest codec p id cmd0 fl pay0 = (w, EwSent wire) ->
  t_end t = EndReset reason ->
  Forall (fun t' => t_end t' = EndPlain false) ts ->
  snd (wrun codec w (flat_map turn_ops (t :: ts))) =
  EwSent (doc_frame id 4 reason (t_payload t)) ::
  map (fun t' => EwSent (doc_frame id 4 (t_cmd t') (t_payload t'))) ts.
Proof.
  intros codec p id cmd0 fl pay0 w wire t reason ts HC Hf E Ht HT.
  destruct (streamRequest_rep codec p id cmd0 fl pay0 w wire HC Hf E) as (fl' & pay' & _ & _ & R).
  cbn [flat_map]. rewrite wrun_app.
  destruct (turn_start codec t w id fl' cmd0 [] R) as (w1 & -> & R1). rewrite Ht.
  destruct (end_reset codec w1 id fl' (t_cmd t) _ reason R1) as (w2 & -> & R2).
  assert (HL : ends_last ts).
  { clear - HT. induction ts as [|t' ts IH]; [exact I|]. split; [|exact (IH (Forall_inv_tail HT))].
    unfold ends. rewrite (Forall_inv HT). discriminate. }
  pose proof (turns_uniform codec id 4 ts w2 reason eq_refl R2 HL) as H.
  rewrite H || (destruct (wrun codec w2 (flat_map turn_ops ts)) as [w3 r3] eqn:E3; cbn [snd app] in *; rewrite H).
  - cbn [app]. f_equal. apply map_ext_in. intros t' Ht'. rewrite Forall_forall in HT. specialize (HT t' Ht').
    unfold turn_asked. rewrite HT. destruct (t_payload t'); reflexivity.
  - eapply Forall_impl; [|exact HT]. intros t' Ht'. left. rewrite Ht'. split; [reflexivity|discriminate].
Qed.
Print Assumptions C64_after_reset.

Theorem C64_refuted : ~ C64_statement.
Proof.
  intro H.
  specialize (H None fresh 3 5 0 [1] (fst (streamRequest None fresh 3 5 0 [1])) (doc_frame 3 1 5 [1])
    [mkTurn 5 [[2]] EndCompressed; mkTurn 5 [[3]] (EndPlain false)]).
  assert (X : clean fresh) by (split; [reflexivity|repeat constructor]).
  specialize (H X eq_refl). assert (Y : streamRequest None fresh 3 5 0 [1] =
    (fst (streamRequest None fresh 3 5 0 [1]), EwSent (doc_frame 3 1 5 [1]))) by (vm_compute; reflexivity).
  specialize (H Y). cbn in H.
  assert (Z : [EwSent (doc_frame 3 33 5 [2]); EwNoCodec] = [EwSent (doc_frame 3 33 5 [2]); EwSent (doc_frame 3 1 5 [3])]).
  { transitivity (snd (wrun None (fst (streamRequest None fresh 3 5 0 [1]))
      (flat_map turn_ops [mkTurn 5 [[2]] EndCompressed; mkTurn 5 [[3]] (EndPlain false)]))).
    - vm_compute. reflexivity.
    - etransitivity; [apply H; repeat split; discriminate|vm_compute; reflexivity]. }
  discriminate Z.
Qed.
Print Assumptions C64_refuted.

(** a stream of three frames, compressed by a codec that drops the second half, and one that is not *)
Definition halver : Codec := mkCodec (fun b => Some (firstn (Nat.div2 (length b)) b)) (fun b => Some (b ++ b)).

Example C64_example :
  let ts := [mkTurn 5 [[2;3]; [4;4]] (EndPlain false); mkTurn 6 [[7;7]] EndCompressed; mkTurn 5 [[9]; [9]] (EndPlain true)] in
  ends_last ts /\ compresses (Some halver) [1;1] /\ Forall (uniform (Some halver) 32) ts /\
  map (turn_asked (Some halver) 3 (N.setbit 32 0)) ts =
    [EwSent (doc_frame 3 33 5 [2;3]); EwSent (doc_frame 3 33 6 [7;7]); EwSent (doc_frame 3 35 5 [9])].
Proof.
  cbv zeta. split; [repeat split; try discriminate; reflexivity|].
  assert (K : forall a b, a = [b; b] \/ a = [2;3;4;4] -> compresses (Some halver) a).
  { intros a b [->| ->]; exists halver; eexists; (split; [reflexivity|]); (split; [reflexivity|]);
      (split; [discriminate|]); cbn; repeat constructor. }
  split; [apply (K _ 1); auto|]. split.
  - constructor; [|constructor; [|constructor; [|constructor]]]; right; (split; [reflexivity|]).
    + right. apply (K _ 0). right. reflexivity.
    + left. reflexivity.
    + right. apply (K _ 9). left. reflexivity.
  - reflexivity.
Qed.

Example C64_plain_example :
  let ts := [mkTurn 5 [[2;3]; [4]] (EndPlain false); mkTurn 6 [] (EndPlain false); mkTurn 5 [[9]] (EndReset 7)] in
  ends_last ts /\ Forall (uniform None 8) ts /\
  map (turn_asked None 3 (N.setbit 8 0)) ts =
    [EwSent (doc_frame 3 9 5 [2;3;4]); EwSent (doc_frame 3 9 6 []); EwSent (doc_frame 3 4 7 [9])].
Proof.
  cbv zeta. split; [repeat split; try discriminate; reflexivity|]. split; [|reflexivity].
  constructor; [|constructor; [|constructor; [|constructor]]]; left; (split; [reflexivity|discriminate]).
Qed.

(** cases of the three other theorems: no codec and EndWriteCompressed; a codec and an empty opening frame; a reset *)
Example C64_compressed_case :
  let w := fst (streamRequest None fresh 3 5 0 []) in
  snd (wrun None w (flat_map turn_ops [mkTurn 5 [[2]] EndCompressed; mkTurn 5 [[3]] (EndPlain false); mkTurn 6 [[4]; [5]] (EndPlain true)]))
  = [EwSent (doc_frame 3 33 5 [2]); EwNoCodec; EwNoCodec].
Proof. vm_compute. reflexivity. Qed.
Example C64_codec_lost_case :
  let w := fst (streamRequest (Some halver) fresh 3 5 32 []) in
  snd (wrun (Some halver) w (flat_map turn_ops [mkTurn 5 [[2;2]] (EndPlain false); mkTurn 6 [[4;4]] (EndPlain true)]))
  = [EwSent (doc_frame 3 1 5 [2;2]); EwSent (doc_frame 3 3 6 [4;4])].
Proof. vm_compute. reflexivity. Qed.
Example C64_reset_case :
  let w := fst (streamRequest None fresh 3 5 0 [1]) in
  snd (wrun None w (flat_map turn_ops [mkTurn 5 [] (EndReset 7); mkTurn 6 [[4;4]] (EndPlain false)]))
  = [EwSent (doc_frame 3 4 7 []); EwSent (doc_frame 3 4 6 [4;4])].
Proof. vm_compute. reflexivity. Qed.
