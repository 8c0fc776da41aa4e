(** Third group of lemmas on the stream machine: order of outgoing frames (C22), resets (C21, C29),
    reader progress (C48). *)
From Coq Require Import ZifyBool ZifyNat ZifyN.
From Verif Require Import Model.GoBase Model.Machine Model.Qrpc Model.FrameReader Model.Stream Proofs.StreamP Proofs.StreamI Proofs.StreamQ.
Open Scope N_scope.

Lemma reach_ex : forall isClient ls (P : sst -> Prop),
  match run (sstep isClient) sinit ls with Some st => P st | None => False end ->
  exists st, reachable (sstep isClient) sinit st /\ P st.
Proof.
  intros c ls P H. destruct (run (sstep c) sinit ls) as [st|] eqn:E; [|contradiction]. exists st. split; [exists ls; assumption|assumption].
Qed.

Section R.
  Variable isClient : bool.

  (** *** order of outgoing frames *)
  Definition wcur (p : wpc_t) : option N :=
    match p with
    | WR1 s _ | WR2 s _ _ | WN1 s _ | WN2 s _ | WN3 s _ | WAd1 s _ _ | WAd2 s _ _ | WAd3 s _ _ | WAd4 s _ _ => Some s
    | _ => None
    end.
  Fixpoint sentStreams (l : list (N * FrameFlag * wres)) : list N :=
    match l with
    | [] => []
    | (_, _, WSent (Some s)) :: l => s :: sentStreams l
    | _ :: l => sentStreams l
    end.
  Lemma sentStreams_app : forall a b, sentStreams (a ++ b) = sentStreams a ++ sentStreams b.
  Proof. induction a as [|[[id fl] r] a IH]; intro b; [reflexivity|]. cbn. destruct r as [[s|]| | | |]; cbn; rewrite IH; reflexivity. Qed.
  Lemma in_sent : forall l s, In s (sentStreams l) <-> exists id fl, In (id, fl, WSent (Some s)) l.
  Proof.
    induction l as [|[[id fl] r] l IH]; intro s; cbn.
    - split; [contradiction|intros (? & ? & []) ].
    - destruct r as [[s'|]| | | |]; cbn; rewrite ?IH; split; intro H; try (destruct H as (i & f & H); exists i, f; auto; fail);
        try (destruct H as (i & f & [H|H]); [discriminate|]; exists i, f; assumption).
      + destruct H as [->|(i & f & H)]; [exists id, fl; auto|exists i, f; auto].
      + destruct H as (i & f & [H|H]); [inversion H; auto|right; exists i, f; assumption].
  Qed.

  Record OInv (st : sst) : Prop := {
    o_old : forall s1 s2, s1 < s2 -> s2 < next st -> skey (heap st s1) = skey (heap st s2) -> notified (heap st s1) <> 0%nat;
    o_cur : forall s s1, wcur (wpc st) = Some s -> In s1 (sentStreams (wlog st)) -> skey (heap st s1) = skey (heap st s) -> s1 <= s;
    o_sort : forall a s1 b s2, sentStreams (wlog st) = a ++ s1 :: b -> In s2 b -> skey (heap st s1) = skey (heap st s2) -> s1 <= s2;
    o_lr : forall s, s < next st -> lateRst (heap st s) = true -> rstd (heap st s) = true;
  }.

  Lemma wlog_valid : forall st s, SInv st -> In s (sentStreams (wlog st)) -> s < next st.
  Proof. intros st s I H. apply in_sent in H. destruct H as (id & fl & H). apply (i_wl2 st I _ _ _ H). Qed.
  Lemma wcur_valid : forall st s, SInv st -> wcur (wpc st) = Some s -> s < next st.
  Proof. intros st s I H. pose proof (i_w st I) as W. unfold wvalid in W. destruct (wpc st); inversion H; subst; apply W. Qed.

  (** how a step changes the writer's position and the log *)
  Lemma sstep_wcur : forall st l st', SInv st -> sstep isClient st l = Some st' ->
    (sentStreams (wlog st') = sentStreams (wlog st) \/
       exists s, wcur (wpc st) = Some s /\ sentStreams (wlog st') = sentStreams (wlog st) ++ [s] /\ wcur (wpc st') = None) /\
    (wcur (wpc st') = wcur (wpc st) \/ wcur (wpc st') = None \/
       exists s, wcur (wpc st') = Some s /\ wpc st' <> WIdle /\ (next st <= s \/ notified (heap st s) = 0%nat) /\ sentStreams (wlog st') = sentStreams (wlog st)).
  Proof.
    intros st l st' I E. pose proof (i_t1 st I) as T.
    assert (T' : forall p id s, tbl st p id = Some s -> notified (heap st s) = 0%nat) by (intros p id s H; apply (T p id s H)).
    allcases E; cbn; rewrite ?sentStreams_app; cbn; rewrite ?app_nil_r, ?upd_eq; cbn; (split; [auto|auto]).
    all: try (right; eexists; split; [rewrite ?EW; reflexivity|split; reflexivity]).
    all: try (rewrite EW; cbn; auto; fail).
    all: try (right; right; eexists; split; [reflexivity|split; [discriminate|split; [|reflexivity]]]).
    all: try (left; lia).
    all: right; eapply T'; eassumption.
  Qed.

  Lemma oinv_step : forall st l st', SInv st -> OInv st -> sstep isClient st l = Some st' -> OInv st'.
  Proof.
    intros st l st' I [O1 O2 O3 O4] E. destruct (sstep_key isClient st l st' I E) as [Hn HK].
    destruct (sstep_wcur st l st' I E) as [HL HC].
    assert (KW : forall s, In s (sentStreams (wlog st)) -> skey (heap st' s) = skey (heap st s)).
    { intros s Hs. apply HK. apply wlog_valid; assumption. }
    assert (N1 : forall s1 s2, s1 < s2 -> s2 < next st' -> skey (heap st' s1) = skey (heap st' s2) -> notified (heap st' s1) <> 0%nat).
    { intros s1 s2 L1 L2 K. destruct (sstep_tbl isClient st l st' I E) as [(A & B & C)|[(p0 & id0 & A & B & C & D)|(s0 & H1 & H2 & H3 & H4 & H5 & H6 & H7)]].
      - rewrite !HK in K by lia. destruct (C s1) as [_ ->]. apply (O1 s1 s2); auto. lia.
      - destruct (N.eq_dec s2 (next st)) as [->|Hne].
        + rewrite D in *. rewrite upd_eq in K. rewrite upd_neq in * by lia. intro X. pose proof (i_t2 st I s1 L1 X) as T.
          unfold skey in K. cbn in K. inversion K as [[K1 K2]]. rewrite K1, K2 in T. congruence.
        + rewrite !HK in K by lia. rewrite D, upd_neq by lia. apply (O1 s1 s2); auto. lia.
      - rewrite !HK in K by lia. destruct (N.eq_dec s1 s0) as [->|Hne]; [rewrite H5; discriminate|]. rewrite H7 by assumption.
        apply (O1 s1 s2); auto. lia. }
    constructor.
    - exact N1.
    - intros s s1 HS HI K. pose proof (sstep_inv isClient st l st' I E) as I'.
      assert (V1 := wlog_valid st' s1 I' HI). assert (V2 := wcur_valid st' s I' HS).
      destruct HC as [HC|[HC|(s' & C1 & C2 & C3 & C4)]].
      + rewrite HC in HS. destruct HL as [HL|(s2 & L1 & L2 & L3)]; [|congruence]. rewrite HL in HI.
        apply (O2 s s1 HS HI). rewrite <- KW by assumption. rewrite K. apply HK. apply wcur_valid; assumption.
      + congruence.
      + rewrite C1 in HS. inversion HS; subst s'. rewrite C4 in HI. pose proof (wlog_valid st s1 I HI) as V3.
        destruct C3 as [C3|C3]; [lia|]. destruct (N.le_gt_cases s1 s) as [X|X]; [assumption|exfalso].
        apply (O1 s s1 X V3); [|assumption]. rewrite HK in K by assumption. rewrite HK in K by lia. congruence.
    - intros a s1 b s2 HE HI K. destruct HL as [HL|(s & L1 & L2 & L3)].
      + rewrite HL in HE. assert (I1 : In s1 (sentStreams (wlog st))) by (rewrite HE; apply in_or_app; right; left; reflexivity).
        assert (I2 : In s2 (sentStreams (wlog st))) by (rewrite HE; apply in_or_app; right; right; assumption).
        rewrite !KW in K by assumption. eapply O3; eassumption.
      + rewrite L2 in HE. destruct (exists_last (l := s1 :: b)) as (m & z & Hm); [discriminate|].
        assert (E' := HE). rewrite Hm, app_assoc in E'. apply app_inj_tail in E'. destruct E' as [E1 E2]. subst z.
        destruct m as [|z m]; [cbn in Hm; inversion Hm; subst; contradiction|]. cbn in Hm. inversion Hm; subst z b.
        assert (I1 : In s1 (sentStreams (wlog st))) by (rewrite E1; apply in_or_app; right; left; reflexivity).
        apply in_app_or in HI. destruct HI as [HI|[<-|[]]].
        * assert (I2 : In s2 (sentStreams (wlog st))) by (rewrite E1; apply in_or_app; right; right; assumption).
          rewrite !KW in K by assumption. eapply O3; eassumption.
        * rewrite KW in K by assumption. rewrite HK in K by (apply wcur_valid; assumption). eapply O2; eassumption.
    - clear N1 KW HC HL HK Hn I O1 O2 O3.
      allcases E; intros z Hz; cbn in Hz; upd_tac z; auto; try (intro; discriminate); apply O4; lia.
  Qed.

  Lemma reach_o : forall st, reachable (sstep isClient) sinit st -> OInv st.
  Proof.
    intros st H. assert (SInv st /\ OInv st) as [_ X]; [|exact X].
    eapply (reachable_inv (sstep isClient) (fun st => SInv st /\ OInv st) sinit); [| |exact H].
    - split; [apply sinit_inv|]. constructor; cbn; try (intros; lia); try (intros; discriminate).
      intros a s1 b s2 X. destruct a; discriminate.
    - intros st0 l st' [A B] E. split; [eapply sstep_inv; eassumption|eapply oinv_step; eassumption].
  Qed.

  (** *** resets *)
  Lemma c_notified : forall rv wv rel, forall x, Nat.eqb (notified x) 0 = false -> sokx x rel rv wv ->
    cancelled x && (chClosed x || match rv with TRbp2 | TCl3 => true | _ => false end) = true.
  Proof.
    intros rv wv rel [si pu ca cs cp fc bd cc fch n go ou lr rs he] H K. unfold sokx in K. cbn -[sokb hasDone] in *.
    generalize dependent (hasDone ou). intros od K. destruct (sokb_n _ _ _ _ _ _ _ _ _ _ _ _ _ _ _ K) as [-> | ->]; [discriminate H|].
    clear H. revert K. apply implb_use. bforce.
  Qed.
  Lemma c_rstd : forall rv wv rel, forall x, rstd x = true -> sokx x rel rv wv ->
    match rv with TRbp2 | TRbp3 => true | _ => false end || (cancelled x && chClosed x) = true.
  Proof. intros rv wv rel. brute_c. Qed.

  Definition rstPhase (st : sst) (f : Frame) (s : N) : Prop :=
    rpc st = RRst f \/ rpc st = RRbp1 s \/ rpc st = RRbp2 s \/ rpc st = RRbp3 s \/ (cancelled (heap st s) = true /\ chClosed (heap st s) = true).

  Lemma rst_step : forall st l st' g z, SInv st -> z < next st -> skey (heap st z) = keyOf g -> rstPhase st g z ->
    sstep isClient st l = Some st' -> rstPhase st' g z.
  Proof.
    intros st l st' g z I Hs HK H E. pose proof (i_ok st I z Hs) as OK. unfold sok in OK. unfold rstPhase in *.
    assert (Hmono : cancelled (heap st z) = true -> chClosed (heap st z) = true -> cancelled (heap st' z) = true /\ chClosed (heap st' z) = true).
    { intros C1 C2. clear -E C1 C2 Hs. allcases E; upd_tac z; auto; try lia. }
    destruct H as [H|[H|[H|[H|[H1 H2]]]]].
    5: { right; right; right; right. auto. }
    - destruct (notified (heap st z)) eqn:EN.
      + pose proof (i_t2 st I z Hs EN) as T. unfold skey, keyOf in HK. inversion HK as [[K1 K2]]. rewrite K1, K2 in T.
        clear Hmono. allcases E; try congruence; cbn; try rewrite H; auto; rewrite ?ER in H; injection H as ->.
        rewrite T in Heqo. injection Heqo as <-. auto.
      + apply c_notified in OK; [|rewrite EN; reflexivity]. rewrite H in OK. cbn in OK. rewrite orb_false_r in OK.
        apply andb_true_iff in OK. destruct OK. right; right; right; right. auto.
    - clear Hmono OK. allcases E; try congruence; cbn; try rewrite H; auto; rewrite ?ER in H; injection H as ->; auto.
    - clear Hmono OK. allcases E; try congruence; cbn; try rewrite H; auto; rewrite ?ER in H; try (injection H as ->); auto. 
    - rewrite H in OK. cbn in OK. rewrite at_eq in OK.
      assert (X : forall wv rel, forall x, sokx x rel TRbp3 wv -> chClosed x = true) by (intros wv rel; brute_c). apply X in OK.
      clear Hmono X. allcases E; try congruence; cbn; try rewrite H; auto; rewrite ?ER in H; injection H as ->.
      rewrite upd_eq. cbn. tauto.
  Qed.

  Lemma rst_run : forall ls st st' f s, SInv st -> s < next st -> skey (heap st s) = keyOf f -> rstPhase st f s ->
    run (sstep isClient) st ls = Some st' -> rstPhase st' f s.
  Proof.
    induction ls as [|l ls IH]; intros st st' f s I Hs HK H E; cbn in E; [inversion E; subst; assumption|].
    destruct (sstep isClient st l) as [st1|] eqn:E1; [|discriminate]. destruct (sstep_key isClient st l st1 I E1) as [Hn HKK].
    eapply (IH st1); [eapply sstep_inv; eassumption|lia|rewrite HKK by assumption; assumption|eapply rst_step; eassumption|exact E].
  Qed.

  (** *** the reset queued when a handler returns *)
  Definition hasRst (l : list FrameFlag) : bool := existsb IsRst l.
  Definition rstGoing (st : sst) (z : N) : Prop :=
    (closedSelf (heap st z) = false /\
       (In z (rstq st) \/ (exists ce, wpc st = WLook (sid (heap st z)) StreamRstFlag ce) \/ (exists fl, wpc st = WR1 z fl))) \/
    hasRst (out (heap st z)) = true \/
    (exists fl, IsRst fl = true /\ (wpc st = WR2 z fl false \/ wpc st = WAd1 z fl true \/ wpc st = WAd2 z fl true \/ wpc st = WAd3 z fl true \/ wpc st = WAd4 z fl true)).
  Definition noOrd (st : sst) (z : N) : Prop :=
    (forall fl ce, wpc st = WLook (sid (heap st z)) fl ce -> IsRst fl = true) /\
    match wtagOf (wpc st) z with TN1 | TN2 | TN3 => False | _ => True end.

  Lemma hasRst_app : forall l fl, hasRst (l ++ [fl]) = hasRst l || IsRst fl.
  Proof. intros. unfold hasRst. rewrite existsb_app. cbn. rewrite orb_false_r. reflexivity. Qed.

  Lemma noOrd_step : forall st l st' z, SInv st -> z < next st -> noOrd st z ->
    (forall fl ce, l <> LWrite (sid (heap st z)) fl ce) -> sstep isClient st l = Some st' -> noOrd st' z.
  Proof.
    intros st l st' z I Hz [A B] NL E. destruct (sstep_key isClient st l st' I E) as [_ HK]. specialize (HK z Hz).
    assert (SI : sid (heap st' z) = sid (heap st z)) by (unfold skey in HK; congruence).
    pose proof (i_t1 st I) as T. pose proof (i_w st I) as WV. unfold wvalid in WV. split.
    - rewrite SI. clear SI HK I T WV B. intros fl1 ce1 X. allcases E; cbn in X; try discriminate X; try (eapply A; eassumption); try congruence.
      + injection X as -> -> <-. elim (NL fl1 ce). reflexivity.
      + injection X as _ <- _. reflexivity.
    - clear SI HK. allcases E; cbn in *; try exact Logic.I; try rewrite EW in *; try exact B; rewrite ?ER in *; auto.
      all: match goal with |- context [N.eqb ?a ?b] => destruct (N.eqb_spec a b) as [HE|] end; [|exact Logic.I]; try exact Logic.I;
        try (rewrite HE, at_eq in B; contradiction); try lia.
      + destruct (T _ _ _ Heqo) as (_ & K & _). rewrite HE in K. specialize (A fl true). unfold skey in K. assert (sid (heap st z) = id) by congruence. rewrite A in Heqb; [discriminate|congruence].
      + destruct (T _ _ _ Heqo) as (_ & K & _). rewrite HE in K. specialize (A fl false). unfold skey in K. assert (sid (heap st z) = id) by congruence. rewrite A in Heqb; [discriminate|congruence].
  Qed.

  Lemma rstGoing_step : forall st l st' z, SInv st -> z < next st -> spush (heap st z) = false -> noOrd st z -> rstGoing st z ->
    sstep isClient st l = Some st' -> rstGoing st' z.
  Proof.
    intros st l st' z I Hz SP NO RG E. destruct (sstep_key isClient st l st' I E) as [_ HK]. specialize (HK z Hz).
    assert (SI : sid (heap st' z) = sid (heap st z)) by (unfold skey in HK; congruence).
    pose proof (i_t2 st I z Hz) as T. pose proof (i_w st I) as WV. unfold wvalid in WV. pose proof (i_r st I) as RV. unfold rvalid in RV.
    pose proof (i_ok st I z Hz) as OK. unfold sok in OK. rewrite SP in T.
    assert (OUT : hasRst (out (heap st z)) = true -> hasRst (out (heap st' z)) = true).
    { clear -E Hz. intro H. allcases E; upd_tac z; auto; rewrite ?hasRst_app, ?H; try reflexivity; lia. }
    destruct RG as [[CS RG]|[RG|(fl' & RF & RG)]]; [|right; left; auto|].
    - (* not taken yet *)
      assert (PRE : wpc st = WR1 z StreamRstFlag -> True) by auto.
      destruct RG as [RG|[[ce' RG]|[fl' RG]]].
      + (* in the queue *)
        assert (GG : In z (rstq st') \/ exists ce, wpc st' = WLook (sid (heap st z)) StreamRstFlag ce).
        { clear -E RG. allcases E; cbn; auto.
          - destruct RG as [->|RG]; [right; eexists; reflexivity|left; assumption].
          - left. apply in_or_app. auto. }
        destruct (closedSelf (heap st' z)) eqn:CS'.
        * (* some reset in the middle, by another queue entry *)
          right. assert (wpc st = WR1 z (match wpc st with WR1 _ fl => fl | _ => 0 end) /\ l = LWStep \/ rpc st = RExit /\ False \/ (exists fl, wpc st = WN2 z fl)) as [[X ->]|[[_ []]|[fl X]]].
          { clear -E CS CS' Hz RV SP. allcases E; revert CS'; upd_tac z; intro; try congruence; try lia.
            all: try (destruct RV as (_ & RK & _); unfold keyOf, skey in RK; congruence).
            - left. auto.
            - right; right. eexists; reflexivity. }
          -- rewrite X in WV. destruct WV as [_ WV]. right. eexists. split; [exact WV|]. left. unfold sstep in E. destruct (panicked st); [discriminate|]. unfold wstep in E. rewrite X in E.
             injection E as <-. cbn. rewrite CS. reflexivity.
          -- destruct NO as [_ NO]. rewrite X in NO. cbn in NO. rewrite at_eq in NO. contradiction.
        * left. split; [assumption|]. rewrite SI. tauto.
      + (* being looked up *)
        assert (Hrel : isRel st = false) by (apply isRel_false_w; rewrite RG; discriminate). rewrite Hrel in OK.
        apply c_nf in OK; [|assumption]. apply Nat.eqb_eq in OK. specialize (T OK).
        left. rewrite SI. clear OUT HK SI. 
        assert (CS' : closedSelf (heap st' z) = false).
        { clear -E CS RG Hz RV SP. allcases E; try congruence; upd_tac z; auto; try congruence; try lia.
          all: try (destruct RV as (_ & RK & _); unfold keyOf, skey in RK; congruence). }
        split; [exact CS'|]. clear CS'.
        allcases E; cbn; try rewrite RG; eauto; try congruence; injection RG as RG1 RG2 RG3; subst id fl; try discriminate.
        all: try (change (IsPush StreamRstFlag) with false in *; congruence).
        change (IsPush StreamRstFlag) with false in Heqo.
        right; right. eexists. replace n with z by congruence. reflexivity.
      + (* about to swap closedSelf *)
        destruct (closedSelf (heap st' z)) eqn:CS'.
        * right; right. rewrite RG in WV. exists fl'. split; [apply WV|]. left.
          clear -E CS CS' RG Hz RV SP. allcases E; try congruence; revert CS'; upd_tac z; intro; try congruence; try lia.
          all: try (destruct RV as (_ & RK & _); unfold keyOf, skey in RK; congruence).
        * left. split; [assumption|]. right; right. exists fl'.
          clear -E CS' RG. allcases E; cbn; try rewrite RG; auto; try congruence. injection RG as -> ->.
          revert CS'. cbn. rewrite upd_eq. discriminate.
    - (* closedSelf was swapped by a reset *)
      assert (G : hasRst (out (heap st' z)) = true \/ (wpc st' = WR2 z fl' false \/ wpc st' = WAd1 z fl' true \/ wpc st' = WAd2 z fl' true \/ wpc st' = WAd3 z fl' true \/ wpc st' = WAd4 z fl' true)).
      { clear -E RG RF. allcases E; cbn; auto; destruct RG as [RG|[RG|[RG|[RG|RG]]]]; try discriminate RG; try congruence;
          injection RG; intros; subst; try congruence; cbn; auto 6; left; rewrite !upd_eq; cbn; rewrite hasRst_app, RF; apply orb_true_r. }
      right. destruct G as [G|G]; [left; assumption|right; exists fl'; auto].
  Qed.

  Lemma rstGoing_run : forall ls st st' z, SInv st -> z < next st -> spush (heap st z) = false -> noOrd st z -> rstGoing st z ->
    (forall fl ce, ~ In (LWrite (sid (heap st z)) fl ce) ls) -> run (sstep isClient) st ls = Some st' -> rstGoing st' z.
  Proof.
    induction ls as [|l ls IH]; intros st st' z I Hz SP NO RG NL E; cbn in E; [inversion E; subst; assumption|].
    destruct (sstep isClient st l) as [st1|] eqn:E1; [|discriminate]. destruct (sstep_key isClient st l st1 I E1) as [Hn HK].
    specialize (HK z Hz). unfold skey in HK. assert (K1 : sid (heap st1 z) = sid (heap st z)) by congruence. assert (K2 : spush (heap st1 z) = spush (heap st z)) by congruence.
    eapply (IH st1); [eapply sstep_inv; eassumption|lia|congruence| | | |exact E].
    - eapply noOrd_step; try eassumption. intros fl ce ->. eapply NL. left. reflexivity.
    - eapply rstGoing_step; eassumption.
    - intros fl ce X. rewrite K1 in X. eapply NL. right. exact X.
  Qed.
End R.
