(** Third invariant of the stream machine: which of the frames read each stream was given (C20, any peer). *)
From Coq Require Import ZifyBool ZifyNat ZifyN Sorted.
From Verif Require Import Model.GoBase Model.Machine Model.Qrpc Model.FrameReader Model.Stream Proofs.StreamP Proofs.StreamI Proofs.StreamQ.
Open Scope N_scope.

(** the reader has a frame it has not handed over yet *)
Definition undeliv (p : rpc_t) : bool :=
  match p with RGet _ | RBind _ _ | RAddIn _ _ | RSend _ _ | RWait _ _ => true | _ => false end.
(** number of frames the reader is done with *)
Definition used (st : sst) : nat := if undeliv (rpc st) then length (inlog st) - 1 else length (inlog st).

(** the stream the reader is about to hand a frame to *)
Definition holds (p : rpc_t) (s : N) : Prop :=
  exists f, p = RBind f s \/ p = RAddIn f s \/ p = RSend f s.

Record TInv (pos : N -> list nat) (st : sst) : Prop := {
  t_at : forall s, s < next st -> Forall2 (fun i f => nth_error (inlog st) i = Some f) (pos s) (got (heap st s));
  t_sorted : forall s, s < next st -> StronglySorted lt (pos s);
  t_used : forall s i, s < next st -> In i (pos s) -> (i < used st)%nat;
  t_key : forall s f, s < next st -> In f (got (heap st s)) -> keyOf f = skey (heap st s) /\ isRstF f = false;
  t_disj : forall s s' i, s < next st -> s' < next st -> In i (pos s) -> In i (pos s') -> s = s';
  t_old : forall s s', s < s' -> s' < next st -> skey (heap st s) = skey (heap st s') -> notified (heap st s) <> 0%nat;
  t_hold : forall s s', holds (rpc st) s -> s < s' -> s' < next st -> skey (heap st s') = skey (heap st s) -> got (heap st s') = [];
  t_ord : forall s s' i j, s < s' -> s' < next st -> skey (heap st s) = skey (heap st s') -> In i (pos s) -> In j (pos s') -> (i < j)%nat;
  t_loss : forall i f, (i < used st)%nat -> nth_error (inlog st) i = Some f -> isRstF f = false ->
     (exists s, s < next st /\ In i (pos s)) \/
     (exists j g, (j < i)%nat /\ nth_error (inlog st) j = Some g /\ keyOf g = keyOf f /\ IsDone (fFlags g) = true);
}.

Section PresT.
  Variable isClient : bool.

  (** how one step changes what streams were given *)
  Lemma sstep_got : forall st l st', SInv st -> PInv st -> sstep isClient st l = Some st' -> forall s, s < next st' ->
    (s < next st /\ got (heap st' s) = got (heap st s)) \/ (s = next st /\ got (heap st' s) = []) \/
    (exists f k, (rpc st = RBind f s \/ rpc st = RSend f s) /\ rpc st' = RCl1 f s k /\ s < next st /\
                 got (heap st' s) = got (heap st s) ++ [f] /\ inlog st' = inlog st /\ next st' = next st /\
                 forall z, z <> s -> got (heap st' z) = got (heap st z)).
  Proof.
    intros st l st' I P E. pose proof (p_got st P) as PG. pose proof (i_r st I) as RV. unfold rvalid in RV.
    allcases E; intros z Hz; cbn in Hz; upd_tac z; auto; try (left; split; [lia|reflexivity]); try (right; left; split; reflexivity).
    all: try (left; split; [tauto|reflexivity]).
    - right; right. do 2 eexists. split; [left; reflexivity|]. split; [reflexivity|]. split; [tauto|].
      split; [|split; [reflexivity|split; [reflexivity|intros y Hy; rewrite upd_neq by congruence; reflexivity]]].
      destruct (PG s ltac:(tauto)) as [A _]. rewrite (A ltac:(assumption)). reflexivity.
    - right; right. do 2 eexists. split; [right; reflexivity|]. split; [reflexivity|]. split; [tauto|].
      split; [reflexivity|split; [reflexivity|split; [reflexivity|intros y Hy; rewrite upd_neq by congruence; reflexivity]]].
  Qed.

  Lemma c_full : forall rel wv, forall x, fullCh x = true -> sokx x rel TWait wv -> closedPeer x = true.
  Proof. intros rel wv. brute_c. Qed.

  (** how one step changes the number of frames the reader is done with *)
  Lemma sstep_used : forall st l st', SInv st -> PInv st -> sstep isClient st l = Some st' ->
    used st' = used st \/
    (used st' = S (used st) /\ exists f, nth_error (inlog st') (used st) = Some f /\
       (isRstF f = true \/
        (exists s k, (rpc st = RBind f s \/ rpc st = RSend f s) /\ rpc st' = RCl1 f s k /\ next st' = next st /\
           got (heap st' s) = got (heap st s) ++ [f] /\ forall z, z <> s -> got (heap st' z) = got (heap st z)) \/
        (exists s, rpc st = RWait f s /\ fullCh (heap st s) = true))).
  Proof.
    intros st l st' I P E. pose proof (i_r st I) as RV. unfold rvalid in RV. pose proof (p_got st P) as PG. unfold used.
    allcases E; cbn; rewrite ?ER; cbn; auto.
    all: try (destruct (panicked _); auto).
    all: try (left; rewrite ?app_length; cbn [length]; lia).
    all: try (unfold rend; destruct (IsDone _); left; reflexivity).
    all: try (unfold rend; destruct (closedSelf _); left; reflexivity).
    all: try (unfold rend; left; reflexivity).
    - right. split; [rewrite app_length; cbn; lia|]. exists f. split; [|left; assumption].
      rewrite nth_error_app2 by lia. rewrite Nat.sub_diag. reflexivity.
    - destruct RV as (HS & _ & a & Ea & _). right. rewrite Ea, app_length. cbn [length].
      split; [lia|]. exists f. split.
      2:{ right; left. do 2 eexists. split; [left; reflexivity|]. split; [reflexivity|]. split; [reflexivity|]. split.
          - rewrite upd_eq. cbn. destruct (PG s HS) as [A _]. rewrite (A ltac:(assumption)). reflexivity.
          - intros z Hz. rewrite upd_neq by congruence. reflexivity. }
      replace (length a + 1 - 1)%nat with (length a) by lia. rewrite nth_error_app2 by lia. rewrite Nat.sub_diag. reflexivity.
    - destruct RV as (_ & _ & a & Ea & _). right. rewrite Ea, app_length. cbn [length].
      split; [lia|]. exists f. split; [|right; right; exists s; split; [reflexivity|assumption]].
      replace (length a + 1 - 1)%nat with (length a) by lia. rewrite nth_error_app2 by lia. rewrite Nat.sub_diag. reflexivity.
    - destruct RV as (_ & _ & a & Ea & _). right. rewrite Ea, app_length. cbn [length].
      split; [lia|]. exists f. split.
      2:{ right; left. do 2 eexists. split; [right; reflexivity|]. split; [reflexivity|]. split; [reflexivity|]. split.
          - rewrite upd_eq. reflexivity.
          - intros z Hz. rewrite upd_neq by congruence. reflexivity. }
      replace (length a + 1 - 1)%nat with (length a) by lia. rewrite nth_error_app2 by lia. rewrite Nat.sub_diag. reflexivity.
  Qed.

  Lemma used_le : forall st, (used st <= length (inlog st))%nat.
  Proof. intro st. unfold used. destruct (undeliv (rpc st)); lia. Qed.

  Lemma log_nth : forall st l st' i f, sstep isClient st l = Some st' -> nth_error (inlog st) i = Some f -> nth_error (inlog st') i = Some f.
  Proof.
    intros st l st' i f E H. destruct (sstep_log isClient st l st' E) as [->|(g & _ & _ & -> & _)]; [assumption|].
    rewrite nth_error_app1; [assumption|]. apply nth_error_Some. congruence.
  Qed.
  Lemma log_nth_inv : forall st l st' i f, sstep isClient st l = Some st' -> (i < used st)%nat -> nth_error (inlog st') i = Some f ->
    nth_error (inlog st) i = Some f.
  Proof.
    intros st l st' i f E Hi H. pose proof (used_le st). destruct (sstep_log isClient st l st' E) as [<-|(g & _ & _ & X & _)]; [assumption|].
    rewrite X, nth_error_app1 in H by lia. assumption.
  Qed.

  Lemma sstep_notified : forall st l st' s, SInv st -> sstep isClient st l = Some st' -> s < next st ->
    notified (heap st s) <> 0%nat -> notified (heap st' s) <> 0%nat.
  Proof.
    intros st l st' s I E Hs Hn.
    destruct (sstep_tbl isClient st l st' I E) as [(A & B & C)|[(p0 & id0 & A & B & C & D)|(s0 & H1 & H2 & H3 & H4 & H5 & H6 & H7)]].
    - destruct (C s) as [_ ->]. assumption.
    - rewrite D, upd_neq by lia. assumption.
    - assert (s <> s0) by (intros ->; congruence). rewrite H7 by assumption. assumption.
  Qed.

  (** the reader comes to hold stream s: it was just found in the table, or created *)
  Lemma sstep_holds : forall st l st' s, sstep isClient st l = Some st' -> holds (rpc st') s ->
    holds (rpc st) s \/ exists f, rpc st = RGet f /\ l = LRStep.
  Proof.
    intros st l st' s E (f0 & H).
    allcases E; cbn in H; rewrite ?ER in *;
      try (left; exists f0; exact H);
      try (exfalso; destruct H as [H|[H|H]]; discriminate H);
      try (unfold rend in H; exfalso; destruct H as [H|[H|H]]; discriminate H).
    all: try (right; eexists; split; reflexivity).
    all: try (left; destruct H as [H|[H|H]]; try discriminate H; inversion H; subst; exists f0; auto).
  Qed.

  Lemma get_holds : forall st st' f s, SInv st -> rpc st = RGet f -> rstep st = Some st' -> holds (rpc st') s ->
    tbl st' (spush (heap st' s)) (sid (heap st' s)) = Some s.
  Proof.
    intros st st' f s I ER E (f0 & H). pose proof (i_t1 st I) as T1. unfold rstep, createOrGet in E. rewrite ER in E.
    destruct (tbl st (IsPush (fFlags f)) (fRequestID f)) as [s1|] eqn:ET; injection E as <-; cbn in *.
    - destruct H as [H|[H|H]]; try discriminate H. injection H as <- <-. destruct (T1 _ _ _ ET) as (_ & K & _).
      unfold skey in K. inversion K. congruence.
    - destruct H as [H|[H|H]]; try discriminate H. injection H as <- <-. rewrite upd_eq. cbn. apply tset_eq.
  Qed.

  Lemma F2_impl : forall A B (R R' : A -> B -> Prop) l1 l2, (forall a b, R a b -> R' a b) -> Forall2 R l1 l2 -> Forall2 R' l1 l2.
  Proof. intros A B R R' l1 l2 H F. induction F; constructor; auto. Qed.
  Lemma Forall2_snoc : forall A B (R : A -> B -> Prop) l1 l2 a b, Forall2 R l1 l2 -> R a b -> Forall2 R (l1 ++ [a]) (l2 ++ [b]).
  Proof. intros. apply Forall2_app; [assumption|constructor; [assumption|constructor]]. Qed.
  Lemma sorted_snoc : forall l n, StronglySorted lt l -> (forall i, In i l -> (i < n)%nat) -> StronglySorted lt (l ++ [n]).
  Proof.
    induction l as [|a l IH]; intros n S H; cbn; [repeat constructor|]. inversion S; subst. constructor.
    - apply IH; [assumption|]. intros i Hi. apply H. right. assumption.
    - apply Forall_app. split; [assumption|]. constructor; [|constructor]. apply H. left. reflexivity.
  Qed.

  Lemma tinv_step : forall st l st' pos, SInv st -> PInv st -> TInv pos st -> sstep isClient st l = Some st' -> exists pos', TInv pos' st'.
  Proof.
    intros st l st' pos I P T E. pose proof (sstep_inv isClient st l st' I E) as I'.
    destruct (sstep_key isClient st l st' I E) as [Hn HK].
    pose proof (sstep_got st l st' I P E) as HG. pose proof (sstep_used st l st' I P E) as HU.
    pose proof (i_r st I) as RV.
    assert (OLD : forall s s', s < s' -> s' < next st' -> skey (heap st' s) = skey (heap st' s') -> notified (heap st' s) <> 0%nat).
    { intros s s' H1 H2 H3. destruct (N.lt_ge_cases s' (next st)) as [Hs'|Hs'].
      - apply (sstep_notified st l st' s I E); [lia|]. apply (t_old _ _ T s s'); [assumption|assumption|].
        rewrite <- (HK s), <- (HK s') by lia. assumption.
      - intro Z. pose proof (sstep_t2 isClient st l st' I E s ltac:(lia) Z) as X.
        destruct (sstep_tbl isClient st l st' I E) as [(A & B & C)|[(p0 & id0 & A & B & C & D)|(s0 & G1 & G2 & G3 & G4 & G5 & G6 & G7)]]; try lia.
        assert (s' = next st) by lia. subst s'. rewrite D in H3, X. rewrite upd_eq, upd_neq in H3 by lia. rewrite upd_neq in X by lia.
        unfold skey in H3. cbn in H3. inversion H3 as [[Y1 Y2]]. rewrite B, Y1, Y2, tset_eq in X. inversion X. lia. }
    assert (HOLD : forall s s', holds (rpc st') s -> s < s' -> s' < next st' -> skey (heap st' s') = skey (heap st' s) -> got (heap st' s') = []).
    { intros s s' H1 H2 H3 H4.
      destruct (sstep_holds st l st' s E H1) as [H|(f & ER & ->)].
      - destruct (N.lt_ge_cases s' (next st)) as [Hs'|Hs'].
        + assert (X : got (heap st s') = []).
          { apply (t_hold _ _ T s s'); [assumption|assumption|assumption|]. rewrite <- (HK s), <- (HK s') by lia. assumption. }
          destruct (HG s' H3) as [[_ G]|[[G _]|(f & k & G & GR & _)]]; [congruence|lia|].
          exfalso. destruct H1 as (f1 & H1). rewrite GR in H1. destruct H1 as [H1|[H1|H1]]; discriminate H1.
        + destruct (HG s' H3) as [[G _]|[[_ G]|(f & k & G & GR & G1 & _)]]; [lia|assumption|lia].
      - unfold sstep in E. destruct (panicked st) eqn:EP; [discriminate|]. pose proof (get_holds st st' f s I ER E H1) as X.
        exfalso. destruct (i_t1 st' I' _ _ _ X) as (_ & _ & Z). apply (OLD s s'); auto. }
    destruct HU as [HU|(HU & f & Hf & HC)].
    - (* nothing handed over *)
      assert (NG : forall s, s < next st' -> (s < next st /\ got (heap st' s) = got (heap st s)) \/ (s = next st /\ got (heap st' s) = [])).
      { intros s Hs. destruct (HG s Hs) as [G|[G|(f & k & G & GR & G1 & G2 & G3 & _)]]; auto. exfalso.
        unfold used in HU. rewrite GR, G3 in HU. cbn in HU. unfold rvalid in RV. destruct G as [G|G]; rewrite G in HU, RV; cbn in HU;
          destruct RV as (_ & _ & a & Ea & _); rewrite Ea, app_length in HU; cbn in HU; lia. }
      exists (fun s => if s <? next st then pos s else []).
      assert (IN : forall s i, In i (if s <? next st then pos s else []) -> s < next st /\ In i (pos s)).
      { intros s i H. destruct (N.ltb_spec s (next st)); [auto|destruct H]. }
      constructor.
      + intros s Hs. destruct (NG s Hs) as [[G1 G2]|[G1 G2]].
        * destruct (N.ltb_spec s (next st)); [|lia]. rewrite G2. eapply F2_impl; [|apply (t_at _ _ T s G1)].
          intros i g X. exact (log_nth st l st' i g E X).
        * subst s. rewrite N.ltb_irrefl, G2. constructor.
      + intros s Hs. destruct (N.ltb_spec s (next st)); [apply (t_sorted _ _ T); assumption|constructor].
      + intros s i Hs H. apply IN in H as [H1 H2]. rewrite HU. apply (t_used _ _ T s i); assumption.
      + intros s g Hs H. destruct (NG s Hs) as [[G1 G2]|[G1 G2]]; rewrite G2 in H; [|destruct H]. rewrite HK by assumption.
        apply (t_key _ _ T s g); assumption.
      + intros s s' i Hs Hs' H H'. apply IN in H as [H1 H2]. apply IN in H' as [H1' H2']. apply (t_disj _ _ T s s' i); assumption.
      + exact OLD.
      + exact HOLD.
      + intros s s' i j H1 H2 H3 H H'. apply IN in H as [H4 H5]. apply IN in H' as [H4' H5'].
        apply (t_ord _ _ T s s' i j); try assumption. rewrite <- (HK s), <- (HK s') by lia. assumption.
      + intros i g Hi Hg Hr. rewrite HU in Hi. pose proof (log_nth_inv st l st' i g E Hi Hg) as Hg0.
        destruct (t_loss _ _ T i g Hi Hg0 Hr) as [(s & H1 & H2)|(j & h & H1 & H2 & H3)].
        * left. exists s. split; [lia|]. destruct (N.ltb_spec s (next st)); [assumption|lia].
        * right. exists j, h. split; [assumption|]. split; [exact (log_nth st l st' j h E H2)|assumption].
    - destruct HC as [HR|[(s0 & k0 & HP & HP' & G4 & G2 & G5)|(s0 & HP & HFC)]].
      + (* a reset was read *)
        assert (NG : forall s, s < next st' -> (s < next st /\ got (heap st' s) = got (heap st s)) \/ (s = next st /\ got (heap st' s) = [])).
        { intros s Hs. destruct (HG s Hs) as [G|[G|(g & k & G & GR & G1 & G2 & G3 & _)]]; auto. exfalso.
          unfold rvalid in RV. destruct G as [G|G]; unfold used in Hf; rewrite G in Hf, RV; cbn in Hf; destruct RV as (_ & _ & a & Ea & Eb);
            rewrite G3, Ea, app_length in Hf; cbn in Hf; rewrite nth_error_app2 in Hf by lia;
            replace (length a + 1 - 1 - length a)%nat with 0%nat in Hf by lia; cbn in Hf; injection Hf as <-; congruence. }
        exists (fun s => if s <? next st then pos s else []).
        assert (IN : forall s i, In i (if s <? next st then pos s else []) -> s < next st /\ In i (pos s)).
        { intros s i H. destruct (N.ltb_spec s (next st)); [auto|destruct H]. }
        constructor.
        * intros s Hs. destruct (NG s Hs) as [[G1 G2]|[G1 G2]].
          -- destruct (N.ltb_spec s (next st)); [|lia]. rewrite G2. eapply F2_impl; [|apply (t_at _ _ T s G1)].
             intros i g X. exact (log_nth st l st' i g E X).
          -- subst s. rewrite N.ltb_irrefl, G2. constructor.
        * intros s Hs. destruct (N.ltb_spec s (next st)); [apply (t_sorted _ _ T); assumption|constructor].
        * intros s i Hs H. apply IN in H as [H1 H2]. rewrite HU. pose proof (t_used _ _ T s i H1 H2). lia.
        * intros s g Hs H. destruct (NG s Hs) as [[G1 G2]|[G1 G2]]; rewrite G2 in H; [|destruct H]. rewrite HK by assumption.
          apply (t_key _ _ T s g); assumption.
        * intros s s' i Hs Hs' H H'. apply IN in H as [H1 H2]. apply IN in H' as [H1' H2']. apply (t_disj _ _ T s s' i); assumption.
        * exact OLD.
        * exact HOLD.
        * intros s s' i j H1 H2 H3 H H'. apply IN in H as [H4 H5]. apply IN in H' as [H4' H5'].
          apply (t_ord _ _ T s s' i j); try assumption. rewrite <- (HK s), <- (HK s') by lia. assumption.
        * intros i g Hi Hg Hr. rewrite HU in Hi. destruct (Nat.eq_dec i (used st)) as [->|Hne]; [rewrite Hf in Hg; congruence|].
          assert (Hi' : (i < used st)%nat) by lia. pose proof (log_nth_inv st l st' i g E Hi' Hg) as Hg0.
          destruct (t_loss _ _ T i g Hi' Hg0 Hr) as [(s & H1 & H2)|(j & h & H1 & H2 & H3)].
          -- left. exists s. split; [lia|]. destruct (N.ltb_spec s (next st)); [assumption|lia].
          -- right. exists j, h. split; [assumption|]. split; [exact (log_nth st l st' j h E H2)|assumption].
      + (* handed over *)
        assert (HS : s0 < next st /\ keyOf f = skey (heap st s0) /\ isRstF f = false).
        { unfold rvalid in RV. destruct HP as [HP|HP]; rewrite HP in RV; destruct RV as (H1 & H2 & a & _ & H3); auto. }
        destruct HS as (HS & HKf & HRf).
        assert (HH : holds (rpc st) s0) by (exists f; destruct HP as [HP|HP]; rewrite HP; auto).
        assert (G3 : forall i g, nth_error (inlog st) i = Some g -> nth_error (inlog st') i = Some g) by (intros i g; apply (log_nth st l st' i g E)).
        exists (fun s => if s =? s0 then pos s0 ++ [used st] else pos s).
        assert (IN : forall s i, In i (if s =? s0 then pos s0 ++ [used st] else pos s) -> In i (pos s) \/ (s = s0 /\ i = used st)).
        { intros s i H. destruct (N.eqb_spec s s0) as [->|]; [|auto]. apply in_app_or in H as [H|[H|[]]]; auto. }
        constructor.
        * intros s Hs. destruct (N.eqb_spec s s0) as [->|Hne].
          -- rewrite G2. apply Forall2_snoc; [|assumption]. eapply F2_impl; [|apply (t_at _ _ T s0 HS)]. exact G3.
          -- rewrite G5 by assumption. eapply F2_impl; [|apply (t_at _ _ T s ltac:(lia))]. exact G3.
        * intros s Hs. destruct (N.eqb_spec s s0) as [->|Hne]; [|apply (t_sorted _ _ T); lia].
          apply sorted_snoc; [apply (t_sorted _ _ T); assumption|]. intros i Hi. apply (t_used _ _ T s0 i); assumption.
        * intros s i Hs H. rewrite HU. apply IN in H as [H|[-> ->]]; [|lia]. pose proof (t_used _ _ T s i ltac:(lia) H). lia.
        * intros s g Hs H. rewrite HK by lia. destruct (N.eq_dec s s0) as [->|Hne].
          -- rewrite G2 in H. apply in_app_or in H as [H|[<-|[]]]; [apply (t_key _ _ T s0 g); assumption|auto].
          -- rewrite G5 in H by assumption. apply (t_key _ _ T s g); [lia|assumption].
        * intros s s' i Hs Hs' H H'. apply IN in H as [H|[-> ->]]; apply IN in H' as [H'|[-> HE]]; try reflexivity.
          -- apply (t_disj _ _ T s s' i); try assumption; lia.
          -- subst i. pose proof (t_used _ _ T s (used st) ltac:(lia) H). lia.
          -- pose proof (t_used _ _ T s' (used st) ltac:(lia) H'). lia.
        * exact OLD.
        * exact HOLD.
        * intros s s' i j H1 H2 H3 H H'. rewrite (HK s), (HK s') in H3 by lia.
          apply IN in H as [H|[-> ->]]; apply IN in H' as [H'|[-> HE]].
          -- apply (t_ord _ _ T s s' i j); try assumption; lia.
          -- subst j. apply (t_used _ _ T s i); [lia|assumption].
          -- exfalso. pose proof (t_hold _ _ T s0 s' HH H1 ltac:(lia) ltac:(congruence)) as X.
             pose proof (t_at _ _ T s' ltac:(lia)) as Y. rewrite X in Y. inversion Y as [Z|]. rewrite <- Z in H'. destruct H'.
          -- lia.
        * intros i g Hi Hg Hr. rewrite HU in Hi. destruct (Nat.eq_dec i (used st)) as [->|Hne].
          { left. exists s0. split; [lia|]. rewrite N.eqb_refl. apply in_or_app. right. left. reflexivity. }
          assert (Hi' : (i < used st)%nat) by lia. pose proof (log_nth_inv st l st' i g E Hi' Hg) as Hg0.
          destruct (t_loss _ _ T i g Hi' Hg0 Hr) as [(s & H1 & H2)|(j & h & H1 & H2 & H3)].
          -- left. exists s. split; [lia|]. destruct (N.eqb_spec s s0) as [->|]; [apply in_or_app; auto|assumption].
          -- right. exists j, h. auto.
      + (* dropped: the peer had ended this stream *)
        assert (NG : forall s, s < next st' -> (s < next st /\ got (heap st' s) = got (heap st s)) \/ (s = next st /\ got (heap st' s) = [])).
        { intros s Hs. destruct (HG s Hs) as [G|[G|(g & k & G & GR & G1 & G2 & G3 & _)]]; auto. exfalso. destruct G; congruence. }
        unfold rvalid in RV. rewrite HP in RV. destruct RV as (HS & HKf & a & Ea & HRf).
        exists (fun s => if s <? next st then pos s else []).
        assert (IN : forall s i, In i (if s <? next st then pos s else []) -> s < next st /\ In i (pos s)).
        { intros s i H. destruct (N.ltb_spec s (next st)); [auto|destruct H]. }
        constructor.
        * intros s Hs. destruct (NG s Hs) as [[G1 G2]|[G1 G2]].
          -- destruct (N.ltb_spec s (next st)); [|lia]. rewrite G2. eapply F2_impl; [|apply (t_at _ _ T s G1)].
             intros i g X. exact (log_nth st l st' i g E X).
          -- subst s. rewrite N.ltb_irrefl, G2. constructor.
        * intros s Hs. destruct (N.ltb_spec s (next st)); [apply (t_sorted _ _ T); assumption|constructor].
        * intros s i Hs H. apply IN in H as [H1 H2]. rewrite HU. pose proof (t_used _ _ T s i H1 H2). lia.
        * intros s g Hs H. destruct (NG s Hs) as [[G1 G2]|[G1 G2]]; rewrite G2 in H; [|destruct H]. rewrite HK by assumption.
          apply (t_key _ _ T s g); assumption.
        * intros s s' i Hs Hs' H H'. apply IN in H as [H1 H2]. apply IN in H' as [H1' H2']. apply (t_disj _ _ T s s' i); assumption.
        * exact OLD.
        * exact HOLD.
        * intros s s' i j H1 H2 H3 H H'. apply IN in H as [H4 H5]. apply IN in H' as [H4' H5'].
          apply (t_ord _ _ T s s' i j); try assumption. rewrite <- (HK s), <- (HK s') by lia. assumption.
        * intros i g Hi Hg Hr. rewrite HU in Hi. destruct (Nat.eq_dec i (used st)) as [->|Hne].
          { right. assert (g = f) by congruence. subst g.
            assert (CP : closedPeer (heap st s0) = true).
            { pose proof (i_ok st I s0 HS) as OK. unfold sok in OK. rewrite HP in OK. cbn in OK. rewrite at_eq in OK. eapply c_full; eassumption. }
            destruct (p_end st P s0 HS CP) as [X|(h & H1 & H2 & H3)]; [apply isRel_true in X; destruct X; congruence|].
            unfold plog in H1. rewrite HP, Ea in H1. cbn [early] in H1. rewrite removelast_last in H1.
            apply In_nth_error in H1 as (j & Hj). exists j, h. assert (j < length a)%nat by (apply nth_error_Some; congruence).
            unfold used. rewrite HP, Ea, app_length. cbn [undeliv length]. split; [lia|]. split; [|split; [congruence|assumption]].
            apply (log_nth st l st' j h E). rewrite Ea, nth_error_app1 by assumption. assumption. }
          assert (Hi' : (i < used st)%nat) by lia. pose proof (log_nth_inv st l st' i g E Hi' Hg) as Hg0.
          destruct (t_loss _ _ T i g Hi' Hg0 Hr) as [(s & H1 & H2)|(j & h & H1 & H2 & H3)].
          -- left. exists s. split; [lia|]. destruct (N.ltb_spec s (next st)); [assumption|lia].
          -- right. exists j, h. split; [assumption|]. split; [exact (log_nth st l st' j h E H2)|assumption].
  Qed.

  Lemma tinv_init : TInv (fun _ => []) sinit.
  Proof.
    constructor; cbn; try (intros; lia).
  Qed.

  Lemma reach_t : forall st, reachable (sstep isClient) sinit st -> exists pos, TInv pos st.
  Proof.
    intros st R. apply (reachable_inv (sstep isClient) (fun st => (SInv st /\ PInv st) /\ exists pos, TInv pos st) sinit).
    - split; [split; [apply sinit_inv|]|exists (fun _ => []); apply tinv_init].
      destruct (reach_pq isClient sinit (ex_intro _ [] eq_refl)) as (_ & X & _). exact X.
    - intros s l s' [[A B] (pos & C)] E. split; [split; [eapply sstep_inv; eassumption|eapply pinv_step; eassumption]|].
      eapply tinv_step; eassumption.
    - exact R.
  Qed.
End PresT.
