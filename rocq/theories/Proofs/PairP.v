(** Lemmas on the pair of endpoints (Model/Pair.v). *)
From Coq Require Import ZifyBool ZifyNat ZifyN.
From Verif Require Import Model.GoBase Model.Machine Model.Qrpc Model.FrameWriter Model.Reader Model.FrameReader Model.FirstFrame Model.Stream Model.Pair
  Spec.FrameSpec Spec.WriterSpec Spec.StreamSpec Proofs.Bits Proofs.Writer Proofs.ReaderP Proofs.FrameReaderP Proofs.CodecP
  Proofs.StreamP Proofs.StreamI Proofs.StreamQ Proofs.StreamR.
Open Scope N_scope.
Arguments N.mul : simpl never.
Arguments N.pow : simpl never.

Lemma put_eq : forall A (f : bool -> A) c v, put f c v c = v.
Proof. intros. unfold put. rewrite Bool.eqb_reflx. reflexivity. Qed.
Lemma put_neq : forall A (f : bool -> A) c d v, d <> c -> put f c v d = f d.
Proof. intros. unfold put. destruct (Bool.eqb d c) eqn:E; [apply Bool.eqb_prop in E; contradiction|reflexivity]. Qed.

(** ** bytes *)
Lemma encode_doc : forall id cmd fl payload, fl < 256 -> IsCodec fl = false -> encode id cmd fl payload = doc_frame id fl cmd payload.
Proof.
  intros id cmd fl payload HF HC. unfold encode, writeFirstFrame.
  assert (CF : clean fresh) by (split; [reflexivity|]; repeat constructor).
  pose proof (wrun_frame None (newFrameWriter fresh) id cmd fl [payload] CF HF) as H. cbn [concat] in H. rewrite app_nil_r in H.
  assert (HP : pack None fl payload = PkOk fl payload).
  { unfold pack. rewrite HC. destruct payload; [rewrite ToNonCodec_id by assumption|]; reflexivity. }
  rewrite HP in H. destruct H as (w' & E & _). cbn in E.
  destruct (EndWrite None (WriteBytes (StartWrite (newFrameWriter fresh) id cmd fl) payload)) as [w2 r]. cbn in *. inversion E. reflexivity.
Qed.

(** a frame as a stream element of Spec/StreamSpec *)
Definition elem (f : Frame) : N * N * N * bytes * bytes := (fRequestID f, fFlags f, fCmd f, fPayload f, fPayload f).
Definition fitsF (mfs : Z) (f : Frame) : Prop := fits mfs (fRequestID f) (fFlags f) (fPayload f) = true /\ fCmd f < 2 ^ 24.
Lemma fitsF_wf : forall mfs f, fitsF mfs f -> wf_frame None mfs (elem f).
Proof.
  intros mfs [id fl cmd pay] [H Hc]. cbn in *. unfold fits in H. rewrite !andb_true_iff, !N.ltb_lt, !negb_true_iff in H. destruct H as [[[[H1 H2] H3] H4] H5].
  repeat split; auto. destruct pay; [reflexivity|]. rewrite H3. reflexivity.
Qed.
Lemma frame_elem : forall f, frame_of (elem f) = f.
Proof. intros [? ? ? ?]. reflexivity. Qed.

(** readFrame on some of the bytes of well-formed frames: the first one, or nothing *)
Lemma read_some : forall mfs r b fs, Forall (fitsF mfs) fs -> pend r ++ b = concat (map (fun f => wire_of (elem f)) fs) ->
  match readFrame None mfs r false with
  | (r', inl f) => exists fs', fs = f :: fs' /\ pend r' ++ b = concat (map (fun f => wire_of (elem f)) fs')
  | (_, inr _) => match fs with [] => True | f :: _ => (length (pend r) < length (wire_of (elem f)))%nat end
  end.
Proof.
  intros mfs r b fs HF HP. destruct fs as [|f fs].
  - cbn in HP. apply app_eq_nil in HP. destruct HP as [HP _].
    destruct (readFrames_spec None mfs false [] r [] 1 (Forall_nil _) HP ltac:(cbn; lia) (or_introl eq_refl)) as (e & E).
    cbn [readFrames] in E. destruct (readFrame None mfs r false) as [r' [g|e']]; [|exact I]. inversion E.
  - pose proof (fitsF_wf _ _ (Forall_inv HF)) as W. cbn [map concat] in HP.
    destruct (Nat.lt_ge_cases (length (pend r)) (length (wire_of (elem f)))) as [L|L].
    + assert (P : pend r = firstn (length (pend r)) (wire_of (elem f))).
      { apply (f_equal (firstn (length (pend r)))) in HP. rewrite firstn_app, Nat.sub_diag, firstn_all in HP. cbn [firstn] in HP. rewrite app_nil_r in HP.
        rewrite HP at 1. rewrite firstn_app. replace (_ - _)%nat with 0%nat by lia. cbn [firstn]. rewrite app_nil_r. reflexivity. }
      destruct (firstn_proper_readFrame None mfs r false (elem f) _ W L P) as (r' & e & E). rewrite E. assumption.
    + assert (P : exists t, pend r = wire_of (elem f) ++ t /\ t ++ b = concat (map (fun f => wire_of (elem f)) fs)).
      { exists (skipn (length (wire_of (elem f))) (pend r)). split.
        - rewrite <- (firstn_skipn (length (wire_of (elem f))) (pend r)) at 1. f_equal.
          apply (f_equal (firstn (length (wire_of (elem f))))) in HP. rewrite !firstn_app in HP.
          rewrite Nat.sub_diag, firstn_all in HP. replace (_ - _)%nat with 0%nat in HP by lia. cbn [firstn] in HP. rewrite !app_nil_r in HP. assumption.
        - apply (f_equal (skipn (length (wire_of (elem f))))) in HP. rewrite !skipn_app in HP.
          rewrite Nat.sub_diag, skipn_all in HP. replace (_ - _)%nat with 0%nat in HP by lia. cbn [skipn app] in HP. assumption. }
      destruct P as (t & P & PT). destruct W as (Hi & Hf & Hc & HL & HT & HD). 
      destruct f as [id fl cmd pay]. cbn [elem fRequestID fFlags fCmd fPayload wire_of] in *.
      destruct (readFrame_doc None mfs r false id fl cmd pay t Hi Hf HL HT P) as (r' & P' & _ & E). rewrite E.
      rewrite N.mod_small by assumption. destruct pay as [|x pay].
      * exists fs. split; [reflexivity|]. rewrite P'. assumption.
      * assert (HC : IsCodec fl = false). { destruct (IsCodec fl); [|reflexivity]. destruct HD as (c & X & _). discriminate. }
        rewrite HC. exists fs. split; [reflexivity|]. rewrite P'. assumption.
Qed.

(** ** the write in progress *)
Definition wid (st : sst) : option (N * FrameFlag) :=
  match wpc st with
  | WIdle | WExit => None
  | WLook id fl _ => Some (id, fl)
  | WR1 s fl | WR2 s fl _ | WN1 s fl | WN2 s fl | WN3 s fl | WAd1 s fl _ | WAd2 s fl _ | WAd3 s fl _ | WAd4 s fl _ => Some (sid (heap st s), fl)
  end.

Section W.
  Variable c : bool.
  Lemma sid_stable : forall st l st', SInv st -> sstep c st l = Some st' -> forall s, s < next st -> sid (heap st' s) = sid (heap st s).
  Proof. intros st l st' I E s Hs. destruct (sstep_key c st l st' I E) as [_ K]. specialize (K s Hs). unfold skey in K. congruence. Qed.

  Lemma log_step : forall st l st', sstep c st l = Some st' ->
    wlog st' = wlog st \/ exists id fl r, wlog st' = wlog st ++ [(id, fl, r)] /\ wid st = Some (id, fl).
  Proof.
    intros st l st' E. allcases E; cbn; auto; unfold wid; rewrite ?EW; right; do 3 eexists; (split; [reflexivity|]); rewrite ?upd_eq; reflexivity.
  Qed.

  Lemma wid_step : forall st l st', SInv st -> sstep c st l = Some st' -> (forall id fl ce, l <> LWrite id fl ce) -> l <> LWriteRst ->
    wid st' = wid st \/ wid st' = None.
  Proof.
    intros st l st' I E N1 N2. pose proof (sid_stable st l st' I E) as K. pose proof (i_w st I) as WV. unfold wvalid in WV.
    pose proof (i_t1 st I) as T1. clear I.
    unfold wid. allcases E; try (exfalso; eapply N1; reflexivity); try congruence; cbn; auto; rewrite ?EW; auto; left.
    all: try (destruct (wpc _) eqn:EW'; try reflexivity; f_equal; f_equal; apply K; apply WV).
    all: try (f_equal; f_equal; apply K; apply WV).
    all: try (match goal with X : tbl _ _ _ = Some _ |- _ => apply T1 in X; destruct X as (_ & X & _); unfold skey in X; congruence end).
    all: try (rewrite upd_eq; reflexivity).
  Qed.
  Lemma wid_write : forall st id fl ce st', sstep c st (LWrite id fl ce) = Some st' -> wid st' = Some (id, fl).
  Proof. intros st id fl ce st' E. unfold sstep in E. steps E. reflexivity. Qed.
  Lemma wid_rst : forall st st', SInv st -> sstep c st LWriteRst = Some st' -> exists s, s < next st /\ wid st' = Some (sid (heap st s), StreamRstFlag).
  Proof.
    intros st st' I E. pose proof (i_q st I) as Q. unfold sstep in E. steps E. exists n. split; [|reflexivity].
    apply Q. left. reflexivity.
  Qed.

  Lemma new_sid : forall st l st', SInv st -> sstep c st l = Some st' -> forall z, z < next st' ->
    (z < next st /\ sid (heap st' z) = sid (heap st z)) \/
    (exists f, rpc st = RGet f /\ sid (heap st' z) = fRequestID f) \/
    (exists fl, wid st = Some (sid (heap st' z), fl)).
  Proof.
    intros st l st' I E z Hz. pose proof (sid_stable st l st' I E z) as K.
    destruct (N.lt_ge_cases z (next st)) as [L|L]; [left; auto|right]. clear K I.
    unfold wid. allcases E; cbn in Hz |- *; try lia; replace z with (next st) by lia; rewrite ?upd_eq; cbn; eauto.
  Qed.
End W.

(** ** the invariant of the pair *)
Definition sentLog (l : list (N * FrameFlag * wres)) : list (N * FrameFlag) :=
  flat_map (fun e => match e with (id, fl, WSent _) => [(id, fl)] | _ => [] end) l.
Definition wires (fs : list Frame) : bytes := concat (map (fun f => wire_of (elem f)) fs).

Record PairInv (lim : bool -> Z) (p : pst) : Prop := {
  q_reach : forall c, reachable (sstep c) sinit (ep p c);
  q_sid : forall c s, s < next (ep p c) -> sid (heap (ep p c) s) < 2 ^ 64;
  q_cur : forall c id fl, wid (ep p c) = Some (id, fl) -> fits (lim (negb c)) id fl (snd (cur p c)) = true;
  q_fit : forall c, Forall (fitsF (lim (negb c))) (sent p c);
  q_log : forall c, map (fun f => (fRequestID f, fFlags f)) (sent p c) = sentLog (wlog (ep p c));
  q_wire : forall c, exists rest, sent p c = inlog (ep p (negb c)) ++ rest /\ pend (rx p (negb c)) ++ flight p c = wires rest;
}.

Lemma inlog_step : forall c st l st', sstep c st l = Some st' -> (forall f, l <> LFrame f) -> inlog st' = inlog st.
Proof. intros c st l st' E N1. allcases E; try (exfalso; eapply N1; reflexivity); reflexivity. Qed.
Lemma read_step : forall c st f st', sstep c st (LFrame f) = Some st' -> inlog st' = inlog st ++ [f] /\ wlog st' = wlog st.
Proof. intros c st f st' E. unfold sstep in E. steps E; auto. Qed.
Lemma write_step : forall c st l st', sstep c st l = Some st' -> (exists id fl ce, l = LWrite id fl ce) \/ l = LWriteRst -> wlog st' = wlog st.
Proof. intros c st l st' E [(id & fl & ce & ->)| ->]; unfold sstep in E; steps E; reflexivity. Qed.

Lemma pinv_init : forall lim, PairInv lim pinit.
Proof.
  intros lim. constructor; cbn; intros; try discriminate; try lia; auto.
  - exists []. reflexivity.
  - exists []. auto.
Qed.

(** every stream's id stays a Go value *)
Lemma sid_step : forall lim p c l st', PairInv lim p -> sstep c (ep p c) l = Some st' -> forall s, s < next st' -> sid (heap st' s) < 2 ^ 64.
Proof.
  intros lim p c l st' I E s Hs. pose proof (reach_inv c _ (q_reach _ _ I c)) as SI.
  destruct (new_sid c _ l st' SI E s Hs) as [[H1 H2]|[(f & H1 & H2)|(fl & H1)]].
  - rewrite H2. apply (q_sid _ _ I c). assumption.
  - rewrite H2. pose proof (i_r _ SI) as RV. unfold rvalid in RV. rewrite H1 in RV. destruct RV as (a & RV & _).
    destruct (q_wire _ _ I (negb c)) as (rest & A & _). rewrite negb_involutive in A. rewrite RV in A.
    pose proof (q_fit _ _ I (negb c)) as F. rewrite A in F. apply Forall_app in F. destruct F as [F _]. apply Forall_app in F. destruct F as [_ F].
    apply Forall_inv in F. destruct F as [F _]. unfold fits in F. rewrite !andb_true_iff, !N.ltb_lt in F. tauto.
  - apply (q_cur _ _ I c) in H1. unfold fits in H1. rewrite !andb_true_iff, !N.ltb_lt in H1. tauto.
Qed.

Ltac side c d := destruct (Bool.bool_dec d c) as [->|?]; [rewrite ?put_eq|rewrite ?put_neq by assumption].

(** a step of one side that reads no frame and takes no write request *)
Lemma advance_inv : forall lim p c l st', PairInv lim p -> sstep c (ep p c) l = Some st' ->
  (forall id fl ce, l <> LWrite id fl ce) -> l <> LWriteRst -> (forall f, l <> LFrame f) -> PairInv lim (advance c st' p).
Proof.
  intros lim p c l st' I E N1 N2 N3. pose proof (reach_inv c _ (q_reach _ _ I c)) as SI.
  pose proof (reachable_step _ _ _ _ _ (q_reach _ _ I c) E) as R'.
  pose proof (sid_step lim p c l st' I E) as SD. pose proof (inlog_step c _ l st' E N3) as IL.
  assert (CU : forall id fl, wid st' = Some (id, fl) -> fits (lim (negb c)) id fl (snd (cur p c)) = true).
  { intros id fl H. destruct (wid_step c _ l st' SI E N1 N2) as [W|W]; [|congruence]. rewrite W in H. apply (q_cur _ _ I c). assumption. }
  assert (EPI : forall d, inlog (put (ep p) c st' d) = inlog (ep p d)) by (intro d; side c d; auto).
  unfold advance, accepted. destruct (log_step c _ l st' E) as [L|(id & fl & r & L & W)].
  - rewrite L, skipn_all2 by lia.
    constructor; cbn [ep cur sent flight rx].
    + intro d. side c d; [assumption|apply (q_reach _ _ I)].
    + intros d. side c d; [assumption|apply (q_sid _ _ I)].
    + intros d. side c d; [assumption|apply (q_cur _ _ I)].
    + apply (q_fit _ _ I).
    + intros d. rewrite (q_log _ _ I d). side c d; [rewrite L; reflexivity|reflexivity].
    + intros d. rewrite EPI. apply (q_wire _ _ I).
  - rewrite L, skipn_app, skipn_all2, Nat.sub_diag by lia. cbn [skipn app].
    assert (LG : sentLog (wlog st') = sentLog (wlog (ep p c)) ++ match r with WSent _ => [(id, fl)] | _ => [] end).
    { rewrite L. unfold sentLog. rewrite flat_map_app. cbn. rewrite app_nil_r. destruct r; reflexivity. }
    destruct r.
    2,3,4,5: (constructor; cbn [ep cur sent flight rx];
      [ intro d; side c d; [assumption|apply (q_reach _ _ I)]
      | intros d; side c d; [assumption|apply (q_sid _ _ I)]
      | intros d; side c d; [assumption|apply (q_cur _ _ I)]
      | apply (q_fit _ _ I)
      | intros d; rewrite (q_log _ _ I d); side c d; [rewrite LG, app_nil_r; reflexivity|reflexivity]
      | intros d; rewrite EPI; apply (q_wire _ _ I) ]).
    pose proof (q_cur _ _ I c id fl W) as FT. destruct (cur p c) as [cmd pay] eqn:EC. cbn [snd] in FT.
    assert (FF : fitsF (lim (negb c)) (mkFrame id fl (N.land cmd 0xffffff) pay)).
    { split; [exact FT|]. cbn. change 0xffffff with (N.ones 24). rewrite N.land_ones. apply N.mod_lt. discriminate. }
    assert (EN : encode id cmd fl pay = wire_of (elem (mkFrame id fl (N.land cmd 0xffffff) pay))).
    { unfold fits in FT. rewrite !andb_true_iff, !N.ltb_lt, negb_true_iff in FT. rewrite encode_doc by tauto. cbn [elem wire_of fRequestID fFlags fCmd fPayload]. unfold doc_frame.
      change 0xffffff with (N.ones 24). rewrite N.land_ones. change (2 ^ 24) with (256 ^ N.of_nat 3). rewrite be_enc_mod. reflexivity. }
    constructor; cbn [ep cur sent flight rx].
    + intro d. side c d; [assumption|apply (q_reach _ _ I)].
    + intros d. side c d; [assumption|apply (q_sid _ _ I)].
    + intros d. side c d; [rewrite EC; assumption|apply (q_cur _ _ I)].
    + intros d. side c d; [apply Forall_app; split; [apply (q_fit _ _ I)|constructor; auto]|apply (q_fit _ _ I)].
    + intros d. side c d; [rewrite map_app, (q_log _ _ I c), LG; reflexivity|apply (q_log _ _ I)].
    + intros d. rewrite EPI. side c d; [|apply (q_wire _ _ I)]. destruct (q_wire _ _ I c) as (rest & A & B).
      exists (rest ++ [mkFrame id fl (N.land cmd 0xffffff) pay]). rewrite A, <- app_assoc. split; [reflexivity|].
      rewrite app_assoc, B, EN. unfold wires. rewrite map_app, concat_app. cbn [map concat]. rewrite app_nil_r. reflexivity.
Qed.

Lemma start_inv : forall lim p c l st' d, PairInv lim p -> sstep c (ep p c) l = Some st' -> (exists id fl ce, l = LWrite id fl ce) \/ l = LWriteRst ->
  (forall id fl, wid st' = Some (id, fl) -> fits (lim (negb c)) id fl (snd d) = true) ->
  PairInv lim (mkPst (put (ep p) c st') (put (cur p) c d) (sent p) (flight p) (rx p)).
Proof.
  intros lim p c l st' d I E HL HW. pose proof (reachable_step _ _ _ _ _ (q_reach _ _ I c) E) as R'.
  pose proof (sid_step lim p c l st' I E) as SD.
  assert (IL : inlog st' = inlog (ep p c)) by (apply (inlog_step c _ l st' E); intros f ->; destruct HL as [(? & ? & ? & X)|X]; discriminate).
  pose proof (write_step c _ l st' E HL) as WL.
  constructor; cbn [ep cur sent flight rx].
  - intro b. side c b; [assumption|apply (q_reach _ _ I)].
  - intros b. side c b; [assumption|apply (q_sid _ _ I)].
  - intros b. side c b; [assumption|apply (q_cur _ _ I)].
  - apply (q_fit _ _ I).
  - intros b. rewrite (q_log _ _ I b). side c b; [rewrite WL; reflexivity|reflexivity].
  - intros b. destruct (q_wire _ _ I b) as (rest & A & B). exists rest. split; [|assumption]. rewrite A. f_equal.
    destruct (Bool.bool_dec (negb b) c) as [<-|H]; [rewrite put_eq; auto|rewrite put_neq by assumption; reflexivity].
Qed.

Lemma pend_arrive : forall r b, pend (mkRdr (rbuf r) (mkNet (chunks (conn r) ++ [b]) (final (conn r))) (timeout r)) = pend r ++ b.
Proof. intros. unfold pend. cbn. rewrite concat_app. cbn. rewrite app_nil_r, app_assoc. reflexivity. Qed.

Lemma pinv_step : forall lim, (forall c, tooLarge (lim c) 12 = false) ->
  forall p l p', PairInv lim p -> pstep lim p l = Some p' -> PairInv lim p'.
Proof.
  intros lim HT p l p' I E. destruct l as [c l|c id cmd fl ce payload|c n|c].
  - assert (A : forall st', sstep c (ep p c) l = Some st' -> (forall id fl ce, l <> LWrite id fl ce) -> l <> LWriteRst -> (forall f, l <> LFrame f) ->
      PairInv lim (advance c st' p)) by (intros; eapply advance_inv; eassumption).
    destruct (sstep c (ep p c) l) as [st'|] eqn:ES; [|exfalso; unfold pstep in E; destruct l; try discriminate E; rewrite ES in E; discriminate E].
    assert (RS : l = LWriteRst -> PairInv lim p').
    { intros ->. unfold pstep in E. rewrite ES in E. injection E as <-. eapply start_inv; [eassumption|eassumption|auto|].
      destruct (wid_rst c _ _ (reach_inv c _ (q_reach _ _ I c)) ES) as (s & Hs & W). intros id fl H. rewrite W in H. inversion H; subst.
      pose proof (q_sid _ _ I c s Hs) as Q. unfold fits. rewrite !andb_true_iff, !N.ltb_lt, !negb_true_iff. cbn [snd length]. rewrite N.add_0_r.
      repeat split; auto. }
    unfold pstep in E.
    destruct l; try discriminate E; try (apply RS; reflexivity); rewrite ES in E; injection E as <-; apply A; auto; intros; discriminate.
  - unfold pstep in E. destruct (fits (lim (negb c)) id fl payload) eqn:EF; [|discriminate].
    destruct (sstep c (ep p c) (LWrite id fl ce)) as [st'|] eqn:ES; [|discriminate]. injection E as <-.
    eapply start_inv; [eassumption|eassumption|eauto|]. intros i g H. rewrite (wid_write c _ _ _ _ _ ES) in H. inversion H; subst. exact EF.
  - unfold pstep in E. injection E as <-. destruct I as [R S C F L W]. constructor; cbn [ep cur sent flight rx]; auto.
    intros d. destruct (W d) as (rest & A & B). exists rest. split; [assumption|].
    destruct (Bool.bool_dec d (negb c)) as [->|H].
    + rewrite negb_involutive, !put_eq, pend_arrive, <- app_assoc, firstn_skipn. rewrite negb_involutive in B. assumption.
    + rewrite (put_neq _ (flight p)) by assumption. rewrite put_neq; [assumption|]. intro X. apply H. rewrite <- X, negb_involutive. reflexivity.
  - unfold pstep in E. destruct (q_wire _ _ I (negb c)) as (rest & A & B). rewrite negb_involutive in A, B.
    assert (FR : Forall (fitsF (lim c)) rest).
    { pose proof (q_fit _ _ I (negb c)) as F. rewrite negb_involutive, A in F. apply Forall_app in F. apply F. }
    pose proof (read_some (lim c) (rx p c) (flight p (negb c)) rest FR B) as RD.
    destruct (readFrame None (lim c) (rx p c) false) as [r' [f|e]]; [|discriminate].
    destruct RD as (fs' & -> & B'). destruct (sstep c (ep p c) (LFrame f)) as [st'|] eqn:ES; [|discriminate]. injection E as <-.
    pose proof (reachable_step _ _ _ _ _ (q_reach _ _ I c) ES) as R'. pose proof (sid_step lim p c _ st' I ES) as SD.
    destruct (read_step c _ _ _ ES) as [IL WL]. pose proof (reach_inv c _ (q_reach _ _ I c)) as SI.
    constructor; cbn [ep cur sent flight rx].
    + intro d. side c d; [assumption|apply (q_reach _ _ I)].
    + intros d. side c d; [assumption|apply (q_sid _ _ I)].
    + intros d. side c d; [|apply (q_cur _ _ I)]. intros id fl H.
      destruct (wid_step c _ _ _ SI ES) as [W|W]; try (intros; discriminate); [|congruence]. rewrite W in H. apply (q_cur _ _ I c). assumption.
    + apply (q_fit _ _ I).
    + intros d. rewrite (q_log _ _ I d). side c d; [rewrite WL; reflexivity|reflexivity].
    + intros d. destruct (Bool.bool_dec (negb d) c) as [X|X].
      * assert (d = negb c) by (rewrite <- X, negb_involutive; reflexivity). subst d. clear X. rewrite negb_involutive, !put_eq.
        exists fs'. rewrite IL, <- app_assoc. split; [exact A|exact B'].
      * rewrite !put_neq by assumption. apply (q_wire _ _ I).
Qed.

Lemma reach_pair : forall lim, (forall c, tooLarge (lim c) 12 = false) -> forall p, reachable (pstep lim) pinit p -> PairInv lim p.
Proof. intros lim HT p R. eapply reachable_inv; [apply pinv_init|apply pinv_step; assumption|exact R]. Qed.
