(** Second invariant of the stream machine: what handlers obtain (C20), what blocks the reader (C48). *)
From Coq Require Import ZifyBool ZifyNat ZifyN.
From Verif Require Import Model.GoBase Model.Machine Model.Qrpc Model.FrameReader Model.Stream Proofs.StreamP Proofs.StreamI.
Open Scope N_scope.

Definition keqb (a b : bool * N) : bool := Bool.eqb (fst a) (fst b) && N.eqb (snd a) (snd b).
Lemma keqb_eq : forall a b, keqb a b = true <-> a = b.
Proof.
  intros [p i] [q j]. unfold keqb. cbn. rewrite andb_true_iff, N.eqb_eq, eqb_true_iff. split; [intros [-> ->]; reflexivity|intro H; inversion H; auto].
Qed.
Lemma keqb_refl : forall a, keqb a a = true.
Proof. intro. apply keqb_eq. reflexivity. Qed.
Lemma keqb_neq : forall a b, a <> b -> keqb a b = false.
Proof. intros a b H. destruct (keqb a b) eqn:E; [apply keqb_eq in E; contradiction|reflexivity]. Qed.

(** ordinary frames of stream key k, in order of arrival *)
Definition Kof (k : bool * N) (l : list Frame) : list Frame := filter (fun f => keqb (keyOf f) k && negb (isRstF f)) l.
Arguments Kof : simpl never.
(** the peer sends nothing more on k, or only resets, after a frame that ends it *)
Definition wfkey (k : bool * N) (l : list Frame) : Prop :=
  forall a f b, l = a ++ f :: b -> keyOf f = k -> IsDone (fFlags f) = true -> Forall (fun g => keyOf g <> k \/ isRstF g = true) b.
Definition seenEnd (k : bool * N) (l : list Frame) : Prop := exists f, In f l /\ keyOf f = k /\ IsDone (fFlags f) = true.

(** the frame being processed has not had its effect yet *)
Definition early (p : rpc_t) : bool :=
  match p with
  | RRst _ | RRbp1 _ | RGet _ | RBind _ _ | RCl1 _ _ _ | RCl2 _ _ | RAddIn _ _ | RSend _ _ | RWait _ _ => true
  | _ => false
  end.
Definition plog (st : sst) : list Frame := if early (rpc st) then removelast (inlog st) else inlog st.

Record PInv (st : sst) : Prop := {
  p_end : forall s, s < next st -> closedPeer (heap st s) = true -> isRel st = true \/ seenEnd (skey (heap st s)) (plog st);
  p_cl2 : forall s k, rpc st = RCl2 s k -> exists a f, inlog st = a ++ [f] /\ keyOf f = skey (heap st s) /\ IsDone (fFlags f) = true;
  p_bound : forall s, s < next st -> binded (heap st s) = true -> exists f, In f (inlog st) /\ isRstF f = false /\ keyOf f = skey (heap st s);
  p_got : forall s, s < next st -> (binded (heap st s) = false <-> got (heap st s) = []);
}.

Lemma plog_sub : forall st f, In f (plog st) -> In f (inlog st).
Proof.
  intros st f H. unfold plog in H. destruct (early (rpc st)); [|assumption].
  destruct (inlog st) as [|x l] eqn:E using rev_ind; [contradiction|]. rewrite removelast_last in H. apply in_or_app. auto.
Qed.
Lemma seenEnd_incl : forall k l l', seenEnd k l -> incl l l' -> seenEnd k l'.
Proof. intros k l l' (f & A & B) H. exists f. split; [apply H; assumption|assumption]. Qed.

Ltac upd_tac z :=
  cbn; repeat (match goal with |- context [upd _ ?y _ z] => destruct (N.eq_dec z y); [subst z; rewrite ?upd_eq|rewrite ?upd_neq by assumption] end; cbn; rewrite ?upd_eq; cbn).
Ltac allcases E :=
  unfold sstep in E; destruct (panicked _) eqn:EPan; [discriminate E|];
  match type of E with context [match ?l with LFrame _ => _ | _ => _ end] =>
    destruct l as [f| | | | |id fl ce| | | | |s0| |s0] end;
  [ destruct (rpc _) eqn:ER; try discriminate E; steps E
  | unfold rstep, createOrGet in E; destruct (rpc _) eqn:ER; try discriminate E; steps E
  | destruct (rpc _) eqn:ER; try discriminate E; steps E
  | destruct (rpc _) eqn:ER; try discriminate E; steps E
  | destruct (rpc _) eqn:ER; try discriminate E; steps E
  | destruct (wpc _) eqn:EW; try discriminate E; steps E
  | destruct (wpc _) eqn:EW; try discriminate E; steps E
  | unfold wstep, createOrGet, wfin in E; destruct (wpc _) eqn:EW; try discriminate E; steps E
  | destruct (wpc _) eqn:EW; try discriminate E; steps E
  | destruct (wpc _) eqn:EW; try discriminate E; steps E
  | match type of E with (if ?c then _ else _) = _ => destruct c eqn:EC; try discriminate E end; steps E
  | steps E
  | destruct (rpc _) eqn:ER; try discriminate E; destruct (wpc _) eqn:EW; try discriminate E; unfold relStream in E; steps E ].

Section PresQ.
  Variable isClient : bool.

  Lemma removelast_incl : forall A (l : list A), incl (removelast l) l.
  Proof.
    intros A l. destruct l as [|x l] using rev_ind; [apply incl_refl|]. rewrite removelast_last. apply incl_appl, incl_refl.
  Qed.

  Lemma sstep_plog : forall st l st', sstep isClient st l = Some st' -> incl (plog st) (plog st').
  Proof.
    intros st l st' E. allcases E; unfold plog; cbn; rewrite ?ER; cbn; try apply incl_refl; try apply removelast_incl;
      rewrite ?removelast_last; try apply incl_refl.
  Qed.
  Lemma sstep_log : forall st l st', sstep isClient st l = Some st' ->
    inlog st' = inlog st \/ exists f, l = LFrame f /\ rpc st = RIdle /\ inlog st' = inlog st ++ [f] /\ rpc st' = (if isRstF f then RRst f else RGet f).
  Proof. intros st l st' E. unfold isRstF. allcases E; cbn; auto; right; eexists; rewrite ?Heqb; auto. Qed.
  Lemma sstep_rel : forall st l st', sstep isClient st l = Some st' -> isRel st = true -> isRel st' = true.
  Proof.
    intros st l st' E H. apply isRel_true in H. destruct H as [H1 H2].
    allcases E; try congruence; unfold isRel; cbn; rewrite ?ER, ?EW, ?H1, ?H2; reflexivity.
  Qed.

  Lemma sstep_closedPeer : forall st l st', sstep isClient st l = Some st' ->
    forall s, s < next st' -> closedPeer (heap st' s) = true ->
      (s < next st /\ closedPeer (heap st s) = true) \/ rpc st = RRbp1 s \/ (exists k, rpc st = RCl2 s k) \/ isRel st' = true.
  Proof.
    intros st l st' E. allcases E; intros z Hz; cbn in Hz; upd_tac z; auto; intro; try discriminate.
    all: try (left; split; [lia|assumption]).
    all: try (right; right; left; eexists; reflexivity).
    all: right; right; right; unfold isRel; cbn; rewrite ER, EW; reflexivity.
  Qed.

  Lemma rvalid_early : forall st, rvalid st -> early (rpc st) = true -> exists a f, inlog st = a ++ [f] /\ plog st = a.
  Proof.
    intros st RV HE. unfold plog. rewrite HE. unfold rvalid in RV.
    destruct (rpc st); try discriminate HE; firstorder; do 2 eexists; split; try eassumption;
      match goal with H : inlog st = _ |- _ => rewrite H end; apply removelast_last.
  Qed.

  Lemma pinv_end : forall st l st', SInv st -> PInv st -> sstep isClient st l = Some st' ->
    forall s, s < next st' -> closedPeer (heap st' s) = true -> isRel st' = true \/ seenEnd (skey (heap st' s)) (plog st').
  Proof.
    intros st l st' I P E s Hs HC. destruct (sstep_key isClient st l st' I E) as [_ HK]. pose proof (i_r st I) as RV.
    destruct (sstep_closedPeer st l st' E s Hs HC) as [[H1 H2]|[H|[[k H]|H]]]; [| | |auto].
    - destruct (p_end st P s H1 H2) as [H|H]; [left; eapply sstep_rel; eassumption|].
      right. rewrite HK by assumption. eapply seenEnd_incl; [exact H|]. eapply sstep_plog; eassumption.
    - unfold rvalid in RV. rewrite H in RV. destruct RV as (H1 & a & f & R1 & R2 & R3). right. rewrite HK by assumption.
      destruct (early (rpc st')) eqn:EE.
      { (* the reader did not move: closedPeer was set already *)
        assert (closedPeer (heap st s) = true).
        { clear -E HC EE H. allcases E; try (rewrite H in *); try congruence; try (cbn in EE; congruence); try discriminate; revert HC; upd_tac s; auto; try congruence.
          all: try discriminate. all: injection H as <-; cbn in EE; discriminate. }
        destruct (p_end st P s H1 H0) as [X|X]; [apply isRel_true in X; destruct X; congruence|].
        eapply seenEnd_incl; [exact X|]. eapply sstep_plog; eassumption. }
      exists f. unfold plog. rewrite EE. split; [|split; [assumption|apply rst_done; assumption]].
      destruct (sstep_log st l st' E) as [X|(f' & -> & X & _)]; [|congruence]. rewrite X, R1. apply in_or_app. right. left. reflexivity.
    - destruct (p_cl2 st P s k H) as (a & f & R1 & R2 & R3). right.
      unfold rvalid in RV. rewrite H in RV. destruct RV as (H1 & _). rewrite HK by assumption.
      destruct (early (rpc st')) eqn:EE.
      { assert (closedPeer (heap st s) = true).
        { clear -E HC EE H. allcases E; try (rewrite H in *); try congruence; try (cbn in EE; congruence); try discriminate; revert HC; upd_tac s; auto; try congruence.
          all: try discriminate. all: injection H as <-; cbn in EE; discriminate. }
        destruct (p_end st P s H1 H0) as [X|X]; [apply isRel_true in X; destruct X; congruence|].
        eapply seenEnd_incl; [exact X|]. eapply sstep_plog; eassumption. }
      exists f. unfold plog. rewrite EE. split; [|split; assumption].
      destruct (sstep_log st l st' E) as [X|(f' & -> & X & _)]; [|congruence]. rewrite X, R1. apply in_or_app. right. left. reflexivity.
  Qed.

  Lemma pinv_step : forall st l st', SInv st -> PInv st -> sstep isClient st l = Some st' -> PInv st'.
  Proof.
    intros st l st' I P E. destruct (sstep_key isClient st l st' I E) as [Hn HK]. pose proof (i_r st I) as RV. constructor.
    - eapply pinv_end; eassumption.
    - intros s k H. assert (G : (rpc st = RCl2 s k \/ exists f, rpc st = RCl1 f s k /\ IsDone (fFlags f) = true) /\ inlog st' = inlog st).
      { clear HK RV. allcases E; cbn in H; try congruence; split; auto.
        all: unfold rend in H; try discriminate H; inversion H; subst; right; eexists; (split; [reflexivity|assumption]). }
      destruct G as [[G|(f & G & HD)] GL]; rewrite GL.
      + unfold rvalid in RV. rewrite G in RV. destruct RV as (H1 & _). rewrite HK by assumption. eapply p_cl2; eassumption.
      + unfold rvalid in RV. rewrite G in RV. destruct RV as (H1 & H2 & a & H3 & _). rewrite HK by assumption. exists a, f. auto.
    - intros s Hs HB.
      assert (G : (s < next st /\ binded (heap st s) = true) \/ exists f, rpc st = RBind f s).
      { clear -E Hs HB. allcases E; cbn in Hs; revert HB; upd_tac s; auto; intro; try discriminate;
          try (left; split; [lia|assumption]); right; eexists; reflexivity. }
      assert (HL : incl (inlog st) (inlog st')).
      { destruct (sstep_log st l st' E) as [->|(f & _ & _ & -> & _)]; [apply incl_refl|apply incl_appl, incl_refl]. }
      destruct G as [[G1 G2]|[f G]].
      + destruct (p_bound st P s G1 G2) as (f & A & B & C). exists f. rewrite HK by assumption. auto.
      + unfold rvalid in RV. rewrite G in RV. destruct RV as (H1 & H2 & a & H3 & H4). exists f. rewrite HK by assumption. split; [|auto].
        apply HL. rewrite H3. apply in_or_app. right. left. reflexivity.
    - pose proof (p_got st P) as PG. pose proof (i_ok st I) as OK. unfold rvalid in RV.
      allcases E; intros z Hz; cbn in Hz; upd_tac z; auto.
      all: try (apply PG; lia).
      + tauto.
      + split; intro; discriminate.
      + specialize (OK s ltac:(tauto)). unfold sok in OK. rewrite ER in OK. cbn in OK. rewrite at_eq in OK.
        assert (X : forall rel wv, forall x, sokx x rel TSend wv -> binded x = true) by (intros rel wv; brute_c).
        apply X in OK. rewrite OK. split; intro H; [discriminate|]. apply app_eq_nil in H. destruct H; discriminate.
      + tauto.
  Qed.
End PresQ.

(** frame read but not handed over yet *)
Definition pendOf (st : sst) (s : N) : list Frame :=
  match rpc st with
  | RGet f => if keqb (keyOf f) (skey (heap st s)) then [f] else []
  | RBind f s' | RAddIn f s' | RSend f s' | RWait f s' => if N.eqb s' s then [f] else []
  | _ => []
  end.

Record Q (k : bool * N) (st : sst) : Prop := {
  q_got : forall s, s < next st -> binded (heap st s) = true -> skey (heap st s) = k -> Kof k (inlog st) = got (heap st s) ++ pendOf st s;
  q_uniq : forall s1 s2, s1 < next st -> s2 < next st -> binded (heap st s1) = true -> binded (heap st s2) = true ->
      skey (heap st s1) = k -> skey (heap st s2) = k -> s1 = s2;
  q_cov : Kof k (inlog st) = [] \/
          (exists s, s < next st /\ binded (heap st s) = true /\ skey (heap st s) = k) \/
          (exists f, rpc st = RGet f /\ keyOf f = k /\ Kof k (inlog st) = [f]) \/
          (exists f s, rpc st = RBind f s /\ skey (heap st s) = k /\ binded (heap st s) = false /\ Kof k (inlog st) = [f]);
}.
Definition QInv (st : sst) : Prop := forall k, wfkey k (inlog st) -> Q k st.

Lemma wfkey_prefix : forall k a b, wfkey k (a ++ b) -> wfkey k a.
Proof.
  intros k a b H x f y E K D. subst a. specialize (H x f (y ++ b)). rewrite <- app_assoc in H. specialize (H eq_refl K D).
  apply Forall_app in H. apply H.
Qed.
Lemma wfkey_last : forall k a f, wfkey k (a ++ [f]) -> keyOf f = k -> isRstF f = false -> ~ seenEnd k a.
Proof.
  intros k a f H K NR (g & G1 & G2 & G3). apply in_split in G1. destruct G1 as (x & y & ->).
  specialize (H x g (y ++ [f])). rewrite <- app_assoc in H. specialize (H eq_refl G2 G3). apply Forall_app in H. destruct H as [_ H].
  inversion H as [|? ? [X|X] _]; subst; congruence.
Qed.
Lemma Kof_app : forall k a b, Kof k (a ++ b) = Kof k a ++ Kof k b.
Proof. intros. unfold Kof. apply filter_app. Qed.

Definition curFrame (p : rpc_t) : option Frame :=
  match p with
  | RGet f | RBind f _ | RAddIn f _ | RSend f _ | RWait f _ => Some f
  | _ => None
  end.

Section PresQ2.
  Variable isClient : bool.

  Lemma c_ncp : forall rv wv, forall x, closedPeer x = false -> sokx x false rv wv -> Nat.eqb (notified x) 0 && negb (fullCh x) && negb (cancelled x) = true.
  Proof. intros rv wv. brute_c. Qed.

  (** while an ordinary frame of a conforming key is being processed, the key's streams are open *)
  Lemma open_now : forall st f k s, SInv st -> PInv st -> wfkey k (inlog st) -> curFrame (rpc st) = Some f -> keyOf f = k ->
    s < next st -> skey (heap st s) = k ->
    closedPeer (heap st s) = false /\ fullCh (heap st s) = false /\ cancelled (heap st s) = false /\ tbl st (fst k) (snd k) = Some s.
  Proof.
    intros st f k s I P W HC HF Hs HK. pose proof (i_r st I) as RV.
    assert (HE : early (rpc st) = true) by (destruct (rpc st); try discriminate HC; reflexivity).
    assert (HL : exists a, inlog st = a ++ [f] /\ isRstF f = false).
    { unfold rvalid in RV. destruct (rpc st); inversion HC; subst; firstorder; eexists; split; eassumption. }
    destruct HL as (a & HL & NR).
    assert (HP : plog st = a) by (unfold plog; rewrite HE, HL; apply removelast_last).
    assert (CP : closedPeer (heap st s) = false).
    { destruct (closedPeer (heap st s)) eqn:EC; [exfalso|reflexivity].
      destruct (p_end st P s Hs EC) as [X|X].
      - apply isRel_true in X. destruct X as [X _]. rewrite X in HC. discriminate.
      - rewrite HP, HK in X. rewrite HL in W. eapply wfkey_last; eassumption. }
    pose proof (i_ok st I s Hs) as OK. unfold sok in OK. rewrite isRel_false_r in OK by (intro X; rewrite X in HC; discriminate).
    apply c_ncp in OK; [|assumption]. rewrite !andb_true_iff, !negb_true_iff, Nat.eqb_eq in OK. destruct OK as [[O1 O2] O3].
    repeat split; auto. pose proof (i_t2 st I s Hs O1) as T. rewrite <- HK. exact T.
  Qed.

  Lemma Qframe : forall k st st', Q k st -> inlog st' = inlog st -> next st <= next st' ->
    (forall s, s < next st -> skey (heap st' s) = skey (heap st s) /\ binded (heap st' s) = binded (heap st s) /\ got (heap st' s) = got (heap st s)) ->
    (forall s, next st <= s -> s < next st' -> binded (heap st' s) = false) ->
    (forall s, s < next st -> skey (heap st s) = k -> binded (heap st s) = true -> pendOf st' s = pendOf st s) ->
    (forall f, rpc st = RGet f -> keyOf f = k -> rpc st' = RGet f) ->
    (forall f s, rpc st = RBind f s -> skey (heap st s) = k -> binded (heap st s) = false -> s < next st /\ rpc st' = RBind f s) ->
    Q k st'.
  Proof.
    intros k st st' [G U C] HL Hn HS HB HP H1 H2.
    assert (old : forall s, s < next st' -> binded (heap st' s) = true -> s < next st).
    { intros s Hs X. destruct (N.lt_ge_cases s (next st)) as [Y|Y]; [assumption|]. rewrite (HB s Y Hs) in X. discriminate. }
    constructor.
    - intros s Hs B K. pose proof (old s Hs B) as Ho. destruct (HS s Ho) as (S1 & S2 & S3). rewrite S1 in K. rewrite S2 in B.
      rewrite HL, S3, HP by assumption. auto.
    - intros s1 s2 L1 L2 B1 B2 K1 K2. pose proof (old s1 L1 B1). pose proof (old s2 L2 B2).
      destruct (HS s1 ltac:(assumption)) as (? & ? & ?). destruct (HS s2 ltac:(assumption)) as (? & ? & ?). apply U; congruence.
    - rewrite HL. destruct C as [C|[(s & A & B & D)|[(f & A & B & D)|(f & s & A & B & D & F)]]].
      + auto.
      + right; left. exists s. destruct (HS s A) as (X & Y & Z). rewrite X, Y. repeat split; auto. lia.
      + right; right; left. exists f. auto.
      + right; right; right. exists f, s. destruct (H2 f s A B D) as [X Y]. destruct (HS s X) as (X1 & Y1 & Z1). rewrite X1, Y1. auto.
  Qed.

  Lemma pend_rpc : forall st st', rpc st' = rpc st -> (forall s, s < next st -> skey (heap st' s) = skey (heap st s)) ->
    forall s, s < next st -> pendOf st' s = pendOf st s.
  Proof. intros st st' H HK s Hs. unfold pendOf. rewrite H. destruct (rpc st); try reflexivity. rewrite HK by assumption. reflexivity. Qed.

  Definition isReaderLabel (l : slabel) : bool := match l with LFrame _ | LRStep | LDeliver | LCtx | LRExit => true | _ => false end.
  Lemma other_rpc : forall st l st', sstep isClient st l = Some st' -> isReaderLabel l = false -> rpc st' = rpc st.
  Proof. intros st l st' E H. allcases E; try discriminate H; try reflexivity; cbn; rewrite ER; reflexivity. Qed.

  Lemma qinv_step : forall st l st', SInv st -> PInv st -> QInv st -> sstep isClient st l = Some st' -> QInv st'.
  Proof.
    intros st l st' I P HQ E k W. destruct (sstep_key isClient st l st' I E) as [Hn HK].
    pose proof (i_r st I) as RV. pose proof (open_now st) as OPEN. unfold rvalid in RV.
    assert (Wst : wfkey k (inlog st)).
    { destruct (sstep_log isClient st l st' E) as [X|(f & _ & _ & X & _)]; rewrite X in W; [assumption|eapply wfkey_prefix; eassumption]. }
    specialize (HQ k Wst).
    assert (Hrest : curFrame (rpc st) = None -> (forall f, l <> LFrame f) -> Q k st').
    { intros HN N6. apply Qframe with (st := st); auto.
      - destruct (sstep_log isClient st l st' E) as [X|(f & X & _)]; [assumption|]. elim (N6 f X).
      - intros s Hs. split; [auto|]. clear -E Hs HN. allcases E; upd_tac s; auto; try lia; discriminate HN.
      - intros s H1 H2. clear -E H1 H2. allcases E; revert H1 H2; upd_tac s; auto; lia.
      - intros s Hs _ _. assert (pendOf st' s = [] /\ pendOf st s = []) as [-> ->]; [|reflexivity]. split.
        + unfold pendOf. clear -E HN N6. allcases E; cbn; rewrite ?ER; try reflexivity; try discriminate HN.
          all: try (elim (N6 f); reflexivity).
          all: destruct (rpc st); try reflexivity; discriminate HN.
        + unfold pendOf. destruct (rpc st); try reflexivity; discriminate HN.
      - intros f X. rewrite X in HN. discriminate.
      - intros f s X. rewrite X in HN. discriminate. }
    assert (Hsame : rpc st' = rpc st -> (forall f, l <> LFrame f) -> l <> LRStep -> Q k st').
    { intros ER' N6 N7. apply Qframe with (st := st); auto.
      - destruct (sstep_log isClient st l st' E) as [X|(f & X & _)]; [assumption|]. elim (N6 f X).
      - intros s Hs. split; [auto|]. clear -E Hs N7 ER'. allcases E; revert ER'; upd_tac s; auto; try lia; try (elim N7; reflexivity). congruence.
      - intros s H1 H2. clear -E H1 H2. allcases E; revert H1 H2; upd_tac s; auto; lia.
      - intros s Hs _ _. apply pend_rpc; auto.
      - intros f X Y. congruence.
      - intros f s X Y Z. split; [|congruence]. rewrite X in RV. apply RV. }
    destruct l as [f| | | | |id fl ce| | | | |s0| |s0].
    all: try (solve [apply Hsame; [eapply other_rpc; [exact E|reflexivity]|discriminate|discriminate]]).
    - (* a frame is read *)
      unfold sstep in E. destruct (panicked st); [discriminate|]. destruct (rpc st) eqn:ER; try discriminate E. injection E as <-.
      cbn in W. destruct HQ as [G U C].
      assert (PF : forall s, pendOf st s = []) by (intro s; unfold pendOf; rewrite ER; reflexivity).
      destruct (keqb (keyOf f) k && negb (isRstF f)) eqn:EK.
      + apply andb_true_iff in EK. destruct EK as [EK ERst]. apply keqb_eq in EK. apply negb_true_iff in ERst.
        assert (KL : Kof k (inlog st ++ [f]) = Kof k (inlog st) ++ [f]).
        { rewrite Kof_app. unfold Kof at 2. cbn. rewrite EK, keqb_refl, ERst. reflexivity. }
        unfold isRstF in ERst. rewrite ERst. constructor; cbn.
        * intros s Hs B K. rewrite KL, (G s Hs B K), PF, app_nil_r. unfold pendOf. cbn. rewrite K, EK, keqb_refl. reflexivity.
        * exact U.
        * destruct C as [C|[C|[(f0 & X & _)|(f0 & s0 & X & _)]]]; try congruence.
          -- right; right; left. exists f. rewrite KL, C. auto.
          -- right; left. exact C.
      + assert (KL : Kof k (inlog st ++ [f]) = Kof k (inlog st)).
        { rewrite Kof_app. unfold Kof at 2. cbn. rewrite EK. apply app_nil_r. }
        constructor; cbn.
        * intros s Hs B K. rewrite KL, (G s Hs B K), PF. unfold pendOf. cbn.
          destruct (IsRst (fFlags f)) eqn:ERst; [reflexivity|]. rewrite K. unfold isRstF in EK. rewrite ERst, andb_true_r in EK. rewrite EK. reflexivity.
        * exact U.
        * rewrite KL. destruct C as [C|[C|[(f0 & X & _)|(f0 & s0 & X & _)]]]; try congruence; auto.
    - (* the reader's own step *)
      destruct (curFrame (rpc st)) as [f|] eqn:ECur; [|apply Hrest; [reflexivity|discriminate]].
      unfold sstep in E. destruct (panicked st); [discriminate|]. unfold rstep in E.
      destruct (rpc st) as [| | | | |f0|f0 s|f0 s|s|s|s|s|s|s|s|f0 s|f0 s|f0 s|] eqn:ER; try discriminate ECur; cbn in ECur; injection ECur as ->.
      + (* RGet *)
        destruct RV as (a & RL & RR). specialize (OPEN f).
        assert (HP : forall s, pendOf st s = if keqb (keyOf f) (skey (heap st s)) then [f] else []) by (intro; unfold pendOf; rewrite ER; reflexivity).
        destruct HQ as [G U C]. unfold createOrGet in E. destruct (tbl st (IsPush (fFlags f)) (fRequestID f)) as [s|] eqn:ET.
        * injection E as <-. destruct (i_t1 st I _ _ _ ET) as (Hs & Ks & _).
          constructor; cbn.
          -- intros s1 H1 B1 K1. rewrite (G s1 H1 B1 K1), HP. unfold pendOf. cbn. f_equal. destruct (N.eqb_spec s s1) as [->|Hne].
             ++ rewrite Ks. unfold keyOf. rewrite keqb_refl. reflexivity.
             ++ destruct (keqb (keyOf f) (skey (heap st s1))) eqn:EK; [|reflexivity]. exfalso. apply keqb_eq in EK.
                destruct (OPEN k s1 I P Wst eq_refl ltac:(congruence) H1 K1) as (_ & _ & _ & T). rewrite <- K1, <- EK in T. cbn in T. congruence.
          -- exact U.
          -- destruct C as [C|[C|[(f0 & X & Y & Z)|(f0 & s0 & X & _)]]]; try congruence; auto.
             assert (f0 = f) by congruence; subst f0. destruct (binded (heap st s)) eqn:EB.
             ++ right; left. exists s. repeat split; auto. rewrite Ks. exact Y.
             ++ right; right; right. exists f, s. repeat split; auto. rewrite Ks. exact Y.
        * injection E as <-. constructor; cbn.
          -- intros s1 H1 B1 K1. destruct (N.eq_dec s1 (next st)) as [->|Hne]; [rewrite upd_eq in B1; discriminate|].
             rewrite upd_neq in * by assumption. unfold pendOf. cbn. rewrite (at_neq _ (next st) s1) by assumption.
             assert (H1' : s1 < next st) by lia. rewrite (G s1 H1' B1 K1), HP.
             destruct (keqb (keyOf f) (skey (heap st s1))) eqn:EK; [|reflexivity]. exfalso. apply keqb_eq in EK.
             destruct (OPEN k s1 I P Wst eq_refl ltac:(congruence) H1' K1) as (_ & _ & _ & T). rewrite <- K1, <- EK in T. cbn in T. congruence.
          -- intros s1 s2 L1 L2 B1 B2 K1 K2. destruct (N.eq_dec s1 (next st)) as [->|]; [rewrite upd_eq in B1; discriminate|].
             destruct (N.eq_dec s2 (next st)) as [->|]; [rewrite upd_eq in B2; discriminate|].
             rewrite upd_neq in * by assumption. apply U; auto; lia.
          -- destruct C as [C|[(s1 & X & Y & Z)|[(f0 & X & Y & Z)|(f0 & s0 & X & _)]]]; try congruence; auto.
             ++ right; left. exists s1. rewrite upd_neq by lia. repeat split; auto. lia.
             ++ assert (f0 = f) by congruence; subst f0. right; right; right. exists f, (next st). rewrite upd_eq. repeat split; auto.
      + (* RBind *)
        destruct RV as (Hs & Ks & a & RL & RR). specialize (OPEN f).
        assert (HP : forall s1, pendOf st s1 = if N.eqb s s1 then [f] else []) by (intro; unfold pendOf; rewrite ER; reflexivity).
        destruct (binded (heap st s)) eqn:EB; injection E as <-.
        * apply Qframe with (st := st); auto; cbn; try lia.
          -- intros s1 H1 _ _. rewrite HP. reflexivity.
          -- intros f0 X. congruence.
          -- intros f0 s0 X Y Z. assert (s0 = s) by congruence; subst s0. congruence.
        * destruct HQ as [G U C].
          assert (NB : forall s1, s1 < next st -> binded (heap st s1) = true -> skey (heap st s1) = k -> skey (heap st s) = k -> False).
          { intros s1 H1 B1 K1 K0. destruct (OPEN k s1 I P Wst eq_refl ltac:(congruence) H1 K1) as (_ & _ & _ & T1).
            destruct (OPEN k s I P Wst eq_refl ltac:(congruence) Hs K0) as (_ & _ & _ & T2). congruence. }
          constructor; cbn.
          -- intros s1 H1 B1 K1. unfold pendOf. cbn. rewrite app_nil_r. destruct (N.eq_dec s1 s) as [->|Hne].
             ++ rewrite upd_eq in *. cbn in *. change (skey (heap st s) = k) in K1.
                destruct C as [C|[(s2 & X & Y & Z)|[(f0 & X & _)|(f0 & s0 & X & Y & Z & V)]]].
                ** exfalso. rewrite RL, Kof_app in C. apply app_eq_nil in C. destruct C as [_ C]. unfold Kof in C. cbn in C.
                   rewrite RR in C. replace (keqb (keyOf f) k) with true in C; [discriminate|]. symmetry. apply keqb_eq. congruence.
                ** elim (NB s2); auto.
                ** congruence.
                ** assert (f0 = f) by congruence; subst f0. exact V.
             ++ rewrite upd_neq in * by assumption. rewrite (G s1 H1 B1 K1), HP, at_neq by assumption. apply app_nil_r.
          -- intros s1 s2 L1 L2 B1 B2 K1 K2.
             destruct (N.eq_dec s1 s) as [->|N1], (N.eq_dec s2 s) as [->|N2]; rewrite ?upd_eq, ?upd_neq in * by assumption; auto.
             ++ elim (NB s2); auto.
             ++ elim (NB s1); auto.
          -- destruct C as [C|[(s2 & X & Y & Z)|[(f0 & X & _)|(f0 & s0 & X & Y & Z & V)]]].
             ++ auto.
             ++ right; left. exists s2. rewrite upd_neq by congruence. auto.
             ++ congruence.
             ++ assert (s0 = s) by congruence; subst s0. right; left. exists s. rewrite upd_eq. cbn. auto.
      + (* RAddIn *)
        destruct RV as (Hs & Ks & a & RL & RR). apply Qframe with (st := st); auto.
        * injection E as <-. reflexivity.
        * intros s1 H1. split; [auto|]. injection E as <-. auto.
        * intros s1 H1 H2. injection E as <-. cbn in H2. lia.
        * intros s1 H1 _ _. injection E as <-. unfold pendOf. cbn. rewrite ER. destruct (closedPeer (heap st s)); reflexivity.
        * intros f0 X. congruence.
        * intros f0 s0 X. congruence.
      + discriminate E.
      + (* RWait: does not end for a conforming key *)
        destruct RV as (Hs & Ks & a & RL & RR). destruct (fullCh (heap st s)) eqn:EF; [|discriminate]. injection E as <-.
        apply Qframe with (st := st); auto; cbn; try lia.
        * intros s1 H1 K1 B1. unfold pendOf. rewrite ER. cbn. destruct (N.eqb_spec s s1) as [->|]; [|reflexivity]. exfalso.
          specialize (OPEN f). destruct (OPEN k s1 I P Wst eq_refl ltac:(congruence) H1 K1) as (_ & X & _). congruence.
        * intros f0 X. congruence.
        * intros f0 s0 X. congruence.
    - (* delivery *)
      unfold sstep in E. destruct (panicked st); [discriminate|]. destruct (rpc st) as [| | | | | | | | | | | | | | | |f s| |] eqn:ER; try discriminate E.
      destruct RV as (Hs & Ks & a & RL & RR). destruct (chClosed (heap st s)); injection E as <-.
      + apply Hsame; [cbn; rewrite ER; reflexivity|discriminate|discriminate].
      + destruct HQ as [G U C].
        assert (HP : forall s1, pendOf st s1 = if N.eqb s s1 then [f] else []) by (intro; unfold pendOf; rewrite ER; reflexivity).
        constructor; cbn.
        * intros s1 H1 B1 K1. unfold pendOf. cbn. rewrite app_nil_r. destruct (N.eq_dec s1 s) as [->|Hne].
          -- rewrite upd_eq in *. cbn in *. rewrite (G s Hs B1 K1), HP, at_eq. reflexivity.
          -- rewrite upd_neq in * by assumption. rewrite (G s1 H1 B1 K1), HP, at_neq by assumption. apply app_nil_r.
        * intros s1 s2 L1 L2 B1 B2 K1 K2. apply U; auto;
            match goal with |- _ (heap st ?z) = _ => destruct (N.eq_dec z s) as [->|N1]; rewrite ?upd_eq, ?upd_neq in * by assumption; auto end.
        * destruct C as [C|[(s2 & X & Y & Z)|[(f0 & X & _)|(f0 & s0 & X & _)]]]; try congruence; auto.
          right; left. exists s2. destruct (N.eq_dec s2 s) as [->|N1]; rewrite ?upd_eq, ?upd_neq in * by assumption; auto.
    - (* ctx branch *)
      unfold sstep in E. destruct (panicked st); [discriminate|]. destruct (rpc st) as [| | | | | | | | | | | | | | | |f s| |] eqn:ER; try discriminate E.
      destruct (ctxDone st s); [|discriminate]. injection E as <-. apply Qframe with (st := st); auto; cbn; try lia.
      + intros s1 H1 K1 B1. unfold pendOf. rewrite ER. reflexivity.
      + intros f0 X. congruence.
      + intros f0 s0 X. congruence.
    - apply Hrest; [|discriminate]. unfold sstep in E. destruct (panicked st); [discriminate|]. destruct (rpc st); try discriminate E. reflexivity.
  Qed.

  Lemma sinit_P : PInv sinit.
  Proof. constructor; cbn; try (intros; lia). intros; discriminate. Qed.
  Lemma sinit_Q : QInv sinit.
  Proof. intros k _. constructor; cbn; try (intros; lia). left; reflexivity. Qed.

  Lemma reach_pq : forall st, reachable (sstep isClient) sinit st -> SInv st /\ PInv st /\ QInv st.
  Proof.
    intros st H. eapply (reachable_inv (sstep isClient) (fun st => SInv st /\ PInv st /\ QInv st) sinit); [| |exact H].
    - split; [apply sinit_inv|split; [apply sinit_P|apply sinit_Q]].
    - intros st0 l st' (A & B & C) E. split; [eapply sstep_inv; eassumption|]. split; [eapply pinv_step; eassumption|eapply qinv_step; eassumption].
  Qed.
End PresQ2.
