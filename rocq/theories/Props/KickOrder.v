(** C75: what SetID returns. *)
From Verif Require Import Model.GoBase Model.Machine Model.Lifecycle Model.KickOrder Proofs.LifecycleP.
Open Scope N_scope.

(** *** Lemmas about the life cycle *)

Lemma lstep_other : forall s l s' x, lstep s l = Some s' -> x <> gor l -> lp s' x = lp s x.
Proof.
  intros s l s' x H N. destruct l; cbn [lstep gor] in *.
  - destruct (lp s g); try discriminate. destruct (cid s c); inversion H; subst; [reflexivity|]. cbn. apply upd_neq. assumption.
  - destruct (lp s g); try discriminate. inversion H; subst. cbn. apply upd_neq. assumption.
  - destruct (lp s g); try discriminate. destruct (clsd s c); inversion H; subst; cbn; [apply upd_neq; assumption|reflexivity].
  - unfold gstep in H. destruct (lp s g) as [|c i|c k ct|c k ct|c i k ct|c k ct|c ct|c ct|c ct|c ct|c td ct|c [|f fs] ct|c f]; try discriminate;
      repeat match goal with
      | H : match ?b with _ => _ end = Some _ |- _ => destruct b
      end; inversion H; subst; cbn; apply upd_neq; assumption.
Qed.

Lemma lstep_grows : forall s l s', lstep s l = Some s' ->
  (forall c i, cid s c = Some i -> cid s' c = Some i) /\ (forall c, clsd s c = true -> clsd s' c = true) /\ (forall c, bound s c = true -> bound s' c = true).
Proof.
  intros s l s' H. destruct l; cbn [lstep] in H.
  - destruct (lp s g); try discriminate. destruct (cid s c) eqn:E; inversion H; subst; clear H; [auto|]. split; [|split; auto].
    intros c' i' X. cbn. unfold upd. destruct (N.eqb_spec c' c); [subst; congruence|assumption].
  - destruct (lp s g); try discriminate. inversion H; subst. auto.
  - destruct (lp s g); try discriminate. destruct (clsd s c); inversion H; subst; auto.
  - unfold gstep in H. destruct (lp s g) as [|c i|c k ct|c k ct|c i k ct|c k ct|c ct|c ct|c ct|c ct|c td ct|c [|f fs] ct|c f]; try discriminate;
      repeat match goal with
      | H : match ?b with _ => _ end = Some _ |- _ => destruct b
      end; inversion H; subst; cbn; (split; [auto|]); (split; [|auto]); try (intros; assumption); intros d X; unfold upd; destruct (d =? c); auto.
Qed.

Lemma bound_grows : forall s l s' c, lstep s l = Some s' -> bound s' c = true ->
  bound s c = true \/ exists g i, l = LG g /\ lp s g = LBind c i /\ id2 s i = None.
Proof.
  intros s l s' c H B. destruct l; cbn [lstep] in H.
  - destruct (lp s g); try discriminate. destruct (cid s c0); inversion H; subst; auto.
  - destruct (lp s g); try discriminate. inversion H; subst. auto.
  - destruct (lp s g); try discriminate. destruct (clsd s c0); inversion H; subst; auto.
  - unfold gstep in H. destruct (lp s g) as [|d i|d k ct|d k ct|d i k ct|d k ct|d ct|d ct|d ct|d ct|d td ct|d [|f fs] ct|d f] eqn:L; try discriminate.
    + destruct (id2 s i) as [v|] eqn:E; [destruct (v =? d)|]; inversion H; subst; auto. cbn in B. unfold upd in B.
      destruct (N.eqb_spec c d); [|auto]. subst. right. exists g, i. auto.
    + destruct (untr s d); inversion H; subst; auto.
    + destruct (cid s d); inversion H; subst; auto.
    + inversion H; subst; auto.
    + inversion H; subst; auto.
    + inversion H; subst; auto.
    + inversion H; subst; auto.
    + destruct (utch s d); inversion H; subst; auto.
    + destruct (clsd s d); inversion H; subst; auto.
    + inversion H; subst; auto.
    + inversion H; subst; auto.
    + inversion H; subst; auto.
    + inversion H; subst; auto.
Qed.

(** the goroutine in SetID of c after one step *)
Lemma bind_step : forall s g s' c i, lp s g = LBind c i -> gstep s g = Some s' ->
  (id2 s i = None /\ lp s' g = LIdle /\ bound s' c = true) \/ (id2 s i = Some c /\ lp s' g = LIdle) \/
  (exists v, id2 s i = Some v /\ v <> c /\ lp s' g = LCas v true (CBind c i)).
Proof.
  intros s g s' c i L H. unfold gstep in H. rewrite L in H. destruct (id2 s i) as [v|]; [destruct (N.eqb_spec v c)|]; inversion H; subst; cbn; rewrite ?upd_eq.
  - right. left. auto.
  - right. right. exists v. auto.
  - left. auto.
Qed.

Definition isBind (p : lpc) : bool := match p with LBind _ _ => true | _ => false end.

Lemma cont_step : forall s g s' c i, contOf (lp s g) = CBind c i -> isBind (lp s g) = false -> gstep s g = Some s' ->
  contOf (lp s' g) = CBind c i /\
  (isBind (lp s' g) = true -> lp s' g = LBind c i /\ exists v, (exists td, lp s g = LNotify v td (CBind c i)) \/ (lp s g = LLock v (CBind c i) /\ clsd s v = true)).
Proof.
  intros s g s' c i L B H. unfold gstep in H. destruct (lp s g) as [|d j|d k ct|d k ct|d j k ct|d k ct|d ct|d ct|d ct|d ct|d td ct|d [|f fs] ct|d f] eqn:E; cbn in L, B; try discriminate; subst.
  - destruct (untr s d); inversion H; subst; cbn; rewrite upd_eq; (split; [reflexivity|discriminate]).
  - destruct (cid s d); inversion H; subst; cbn; rewrite upd_eq; (split; [reflexivity|discriminate]).
  - inversion H; subst; cbn; rewrite upd_eq; (split; [reflexivity|discriminate]).
  - inversion H; subst; cbn; rewrite upd_eq; destruct k; (split; [reflexivity|discriminate]).
  - inversion H; subst; cbn; rewrite upd_eq; (split; [reflexivity|discriminate]).
  - inversion H; subst; cbn; rewrite upd_eq; (split; [reflexivity|discriminate]).
  - destruct (utch s d); inversion H; subst; cbn; rewrite upd_eq; (split; [reflexivity|discriminate]).
  - destruct (clsd s d) eqn:C; inversion H; subst; cbn; rewrite upd_eq; (split; [reflexivity|]); [|discriminate]. intros _. split; [reflexivity|]. exists d. right. auto.
  - inversion H; subst; cbn; rewrite upd_eq; (split; [reflexivity|discriminate]).
  - inversion H; subst; cbn; rewrite upd_eq. split; [reflexivity|]. intros _. split; [reflexivity|]. exists d. left. eauto.
  - inversion H; subst; cbn; rewrite upd_eq; (split; [reflexivity|discriminate]).
Qed.

(** a goroutine gets into SetID only by calling it *)
Lemma cont_new : forall s g s' c i, gstep s g = Some s' -> contOf (lp s' g) = CBind c i -> contOf (lp s g) = CBind c i.
Proof.
  intros s g s' c i H C. unfold gstep in H. destruct (lp s g) as [|d j|d k ct|d k ct|d j k ct|d k ct|d ct|d ct|d ct|d ct|d td ct|d [|f fs] ct|d f] eqn:E; try discriminate;
    repeat match goal with
      | H : match ?b with _ => _ end = Some _ |- _ => destruct b
    end; inversion H; subst; cbn in C; rewrite upd_eq in C; cbn in *; try discriminate; try assumption; try (destruct k; assumption); destruct ct; cbn in *; assumption.
Qed.

(** *** The invariant *)

(** another connection with the id of c is closed *)
Definition W (s : lst) (c : N) : Prop := exists v i, v <> c /\ cid s c = Some i /\ cid s v = Some i /\ clsd s v = true.

Lemma W_lstep : forall s l s' c, lstep s l = Some s' -> W s c -> W s' c.
Proof.
  intros s l s' c H (v & i & A & B & C & D). destruct (lstep_grows s l s' H) as (M1 & M2 & _). exists v, i. auto.
Qed.

Record KI (k : kst) : Prop := {
  k_r : reachable lstep linit (kc k);
  k_o : kord k = u64 (kcount k);
  k_a : forall g, kp k g = KAdd -> exists c i, lp (kc k) g = LBind c i /\ W (kc k) c;
  k_l : forall g c, kp k g = KLoad c -> bound (kc k) c = true /\ lp (kc k) g = LIdle /\ ret k c = None /\ (kick k g = true -> W (kc k) c);
  k_u : forall g g' c, kp k g = KLoad c -> kp k g' = KLoad c -> g = g';
  k_t : forall c b o, ret k c = Some (b, o) -> bound (kc k) c = true /\ (b = true -> W (kc k) c) /\ exists m, m <= kcount k /\ o = u64 m;
  k_f : forall g c i, contOf (lp (kc k) g) = CBind c i -> kick k g = true -> W (kc k) c }.

Lemma u64_succ : forall x, u64 (u64 x + 1) = u64 (x + 1).
Proof. intro x. unfold u64. rewrite N.add_mod_idemp_l; [reflexivity|discriminate]. Qed.

Lemma KI_init : forall k0, KI (kinit k0).
Proof. intro k0. split; cbn; try discriminate; auto. exists []. reflexivity. Qed.

Lemma KI_step : forall k l k', KI k -> kstep k l = Some k' -> KI k'.
Proof.
  intros k l k' I H. destruct l as [l|g|]; cbn [kstep] in H.
  - destruct (kp k (gor l)) eqn:EK; try discriminate. destruct (lstep (kc k) l) as [s'|] eqn:EL; [|discriminate].
    pose proof (lreach _ (k_r k I)) as GI.
    assert (RR : reachable lstep linit s') by (eapply reachable_step; [apply (k_r k I)|eassumption]).
    pose proof (lreach _ RR) as GI'.
    destruct (lstep_grows _ _ _ EL) as (M1 & M2 & M3).
    pose proof (fun x => lstep_other _ _ _ x EL) as LO.
    pose proof (fun c => W_lstep _ _ _ c EL) as WL.
    (* calls *)
    assert (CALL : forall kk, (forall x, kk x = true -> x <> gor l -> kick k x = true) -> (contOf (lp (kc k) (gor l)) = CRet) ->
              (forall c i, contOf (lp s' (gor l)) = CBind c i -> kk (gor l) = true -> W s' c) ->
              KI (mkK s' (kord k) (kp k) kk (ret k) (kcount k))).
    { intros kk HK HC HN. split; cbn [kc kord kp kick ret kcount].
      - assumption.
      - apply (k_o k I).
      - intros x X. assert (x <> gor l) by (intros ->; congruence). rewrite LO by assumption. destruct (k_a k I x X) as (c & i & A & B). exists c, i. auto.
      - intros x c X. assert (x <> gor l) by (intros ->; congruence). rewrite LO by assumption. destruct (k_l k I x c X) as (A & B & C & D). repeat split; auto.
      - apply (k_u k I).
      - intros c b o X. destruct (k_t k I c b o X) as (A & B & C). auto.
      - intros x c i X Y. destruct (N.eq_dec x (gor l)) as [->|NE]; [eauto|]. rewrite LO in X by assumption. apply WL. apply (k_f k I x c i X). auto. }
    destruct l as [g c i|g c|g c f|g]; cbn [gor] in *.
    + inversion H; subst k'; clear H. cbn [lstep] in EL. destruct (lp (kc k) g) eqn:L; try discriminate. apply CALL.
      * intros x X N. unfold upd in X. destruct (N.eqb_spec x g); [contradiction|assumption].
      * reflexivity.
      * intros d j _ X. rewrite upd_eq in X. discriminate.
    + inversion H; subst k'; clear H. cbn [lstep] in EL. destruct (lp (kc k) g) eqn:L; try discriminate. apply CALL; auto.
      intros d j X. inversion EL; subst s'. cbn in X. rewrite upd_eq in X. discriminate.
    + inversion H; subst k'; clear H. cbn [lstep] in EL. destruct (lp (kc k) g) eqn:L; try discriminate. apply CALL; auto.
      intros d j X. destruct (clsd (kc k) c); inversion EL; subst s'; cbn in X; [rewrite upd_eq in X|rewrite L in X]; discriminate.
    + cbn [lstep] in EL.
      assert (RE : match lp (kc k) g with
                   | LBind c i => match id2 (kc k) i with
                                  | Some v => if v =? c then upd (ret k) c (Some (kick k g, 0)) else ret k
                                  | None => ret k
                                  end
                   | _ => ret k
                   end = ret k).
      { destruct (lp (kc k) g) eqn:L; try reflexivity. destruct (id2 (kc k) i) as [v|] eqn:E; [|reflexivity]. destruct (N.eqb_spec v c); [|reflexivity]. subst v. exfalso.
        destruct (i_id _ GI i c E) as [_ B]. rewrite (binder_unbound _ g c i GI) in B; [discriminate|]. rewrite L. reflexivity. }
      rewrite RE in H. inversion H; subst k'; clear H RE. split; cbn [kc kord kp kick ret kcount].
      * assumption.
      * apply (k_o k I).
      * intros x X. unfold upd in X. destruct (N.eqb_spec x g) as [EXG|NE]; [subst x|].
        -- unfold after in X. destruct (contOf (lp (kc k) g)) as [|c i] eqn:C.
           ++ exfalso. destruct (lp (kc k) g) eqn:L; cbn in C; subst; try discriminate; destruct (lp s' g) as [|c' i'|?|?|?|?|?|?|?|?|?|?|?] eqn:L'; try discriminate;
                (pose proof (cont_new _ g s' c' i' EL) as Y; rewrite L', L in Y; specialize (Y eq_refl); cbn in Y; discriminate).
           ++ assert (NB : isBind (lp (kc k) g) = false). { destruct (lp (kc k) g) eqn:L; try reflexivity. exfalso. destruct (id2 (kc k) i0); discriminate. }
              destruct (cont_step _ _ _ _ _ C NB EL) as [Y Z].
              assert (BB : isBind (lp s' g) = true). { destruct (lp (kc k) g); try discriminate; destruct (lp s' g); try discriminate; reflexivity. }
              destruct (Z BB) as (L' & v & V). exists c, i. split; [assumption|]. apply WL. pose proof (i_p _ GI g) as P.
              destruct V as [(td & V)|(V & CL)]; rewrite V in P; cbn in P; unfold kok in P.
              ** destruct P as ((_ & P1 & P2 & P3) & _ & P4). exists v, i. auto.
              ** destruct P as ((_ & P1 & P2 & P3) & _). exists v, i. auto.
        -- rewrite LO by assumption. destruct (k_a k I x X) as (c & i & A & B). exists c, i. auto.
      * intros x c X. unfold upd in X. destruct (N.eqb_spec x g) as [EXG|NE]; [subst x|].
        -- unfold after in X. destruct (lp (kc k) g) as [|d i|d kk ct|d kk ct|d i kk ct|d kk ct|d ct|d ct|d ct|d ct|d td ct|d td ct|d f] eqn:L; try discriminate;
             try (destruct (lp s' g); discriminate).
           destruct (id2 (kc k) i) eqn:E; [discriminate|]. inversion X; subst d.
           destruct (bind_step _ _ _ _ _ L EL) as [(_ & A & B)|[(Y & _)|(v & Y & _)]]; try congruence.
           split; [assumption|]. split; [assumption|]. split.
           ++ destruct (ret k c) as [[b o]|] eqn:R; [|reflexivity]. exfalso. destruct (k_t k I c b o R) as (Z & _). rewrite (binder_unbound _ g c i GI) in Z; [discriminate|]. rewrite L. reflexivity.
           ++ intro KT. apply WL. apply (k_f k I g c i); [rewrite L; reflexivity|assumption].
        -- rewrite LO by assumption. destruct (k_l k I x c X) as (A & B & C & D). repeat split; auto.
      * intros x y c X Y. unfold upd in X, Y.
        assert (OLD : forall z, kp k z = KLoad c -> after (kc k) s' g = KLoad c -> False).
        { intros z Z A. destruct (k_l k I z c Z) as (B & _). unfold after in A. destruct (lp (kc k) g) as [|d i|d kk ct|d kk ct|d i kk ct|d kk ct|d ct|d ct|d ct|d ct|d td ct|d td ct|d f] eqn:L; try discriminate;
             try (destruct (lp s' g); discriminate).
          destruct (id2 (kc k) i) eqn:E; [discriminate|]. inversion A; subst d. rewrite (binder_unbound _ g c i GI) in B; [discriminate|]. rewrite L. reflexivity. }
        destruct (N.eqb_spec x g) as [->|NE], (N.eqb_spec y g) as [->|NE']; try reflexivity.
        -- exfalso. eauto.
        -- exfalso. eauto.
        -- apply (k_u k I x y c); assumption.
      * intros c b o X. destruct (k_t k I c b o X) as (A & B & C). auto.
      * intros x c i X Y. apply WL. apply (k_f k I x c i); [|assumption]. destruct (N.eq_dec x g) as [->|NE]; [eapply cont_new; eassumption|]. rewrite LO in X by assumption. assumption.
  - destruct (kp k g) as [| |c] eqn:EK; try discriminate; inversion H; subst k'; clear H; split; cbn [kc kord kp kick ret kcount].
    + apply (k_r k I).
    + rewrite (k_o k I). apply u64_succ.
    + intros x X. unfold upd in X. destruct (N.eqb_spec x g); [discriminate|]. apply (k_a k I x X).
    + intros x c X. unfold upd in X. destruct (N.eqb_spec x g) as [|NE]; [discriminate|]. rewrite upd_neq by assumption. apply (k_l k I x c X).
    + intros x y c X Y. unfold upd in X, Y. destruct (x =? g); [discriminate|]. destruct (y =? g); [discriminate|]. apply (k_u k I x y c); assumption.
    + intros c b o X. destruct (k_t k I c b o X) as (A & B & m & C & D). split; [assumption|]. split; [assumption|]. exists m. split; [lia|assumption].
    + intros x c i X Y. unfold upd in Y. destruct (N.eqb_spec x g) as [->|NE]; [|apply (k_f k I x c i X Y)].
      destruct (k_a k I g EK) as (d & j & A & B). rewrite A in X. cbn in X. inversion X; subst. assumption.
    + apply (k_r k I).
    + apply (k_o k I).
    + intros x X. unfold upd in X. destruct (N.eqb_spec x g); [discriminate|]. apply (k_a k I x X).
    + intros x d X. unfold upd in X. destruct (N.eqb_spec x g) as [|NE]; [discriminate|]. destruct (k_l k I x d X) as (A & B & C & D). repeat split; auto.
      unfold upd. destruct (N.eqb_spec d c) as [->|]; [|assumption]. exfalso. apply NE. apply (k_u k I x g c); assumption.
    + intros x y d X Y. unfold upd in X, Y. destruct (x =? g); [discriminate|]. destruct (y =? g); [discriminate|]. apply (k_u k I x y d); assumption.
    + destruct (k_l k I g c EK) as (A & B & C & D). intros d b o X. unfold upd in X. destruct (N.eqb_spec d c) as [->|NE]; [|apply (k_t k I d b o X)].
      inversion X; subst. split; [assumption|]. split; [assumption|]. exists (kcount k). split; [lia|apply (k_o k I)].
    + apply (k_f k I).
  - inversion H; subst k'; clear H. split; cbn [kc kord kp kick ret kcount]; try apply I.
    + rewrite (k_o k I). apply u64_succ.
    + intros c b o X. destruct (k_t k I c b o X) as (A & B & m & C & D). split; [assumption|]. split; [assumption|]. exists m. split; [lia|assumption].
Qed.

Lemma KI_reach : forall k0 k, reachable kstep (kinit k0) k -> KI k.
Proof. intros k0. apply reachable_inv; [apply KI_init|apply KI_step]. Qed.

Lemma KL_shape : forall k l k', KI k -> kstep k (KL l) = Some k' ->
  kp k (gor l) = KNo /\ lstep (kc k) l = Some (kc k') /\ ret k' = ret k /\ kcount k' = kcount k /\
  (forall x, x <> gor l -> kp k' x = kp k x /\ kick k' x = kick k x) /\
  ((exists g, l = LG g /\ kp k' g = after (kc k) (kc k') g /\ kick k' g = kick k g) \/ lp (kc k) (gor l) = LIdle).
Proof.
  intros k l k' I H. cbn [kstep] in H. destruct (kp k (gor l)) eqn:EK; try discriminate. destruct (lstep (kc k) l) as [s'|] eqn:EL; [|discriminate].
  destruct l as [g c i|g c|g c f|g]; cbn [gor] in *.
  - inversion H; subst k'; cbn [kc kord kp kick ret kcount]. cbn [lstep] in EL. destruct (lp (kc k) g); try discriminate.
    repeat split; auto. apply upd_neq. assumption.
  - inversion H; subst k'; cbn [kc kord kp kick ret kcount]. cbn [lstep] in EL. destruct (lp (kc k) g); try discriminate. repeat split; auto.
  - inversion H; subst k'; cbn [kc kord kp kick ret kcount]. cbn [lstep] in EL. destruct (lp (kc k) g); try discriminate. repeat split; auto.
  - pose proof (lreach _ (k_r k I)) as GI.
    assert (RE : match lp (kc k) g with
                   | LBind c i => match id2 (kc k) i with
                                  | Some v => if v =? c then upd (ret k) c (Some (kick k g, 0)) else ret k
                                  | None => ret k
                                  end
                   | _ => ret k
                   end = ret k).
    { destruct (lp (kc k) g) eqn:L; try reflexivity. destruct (id2 (kc k) i) as [v|] eqn:E; [|reflexivity]. destruct (N.eqb_spec v c); [|reflexivity]. subst v. exfalso.
      destruct (i_id _ GI i c E) as [_ B]. rewrite (binder_unbound _ g c i GI) in B; [discriminate|]. rewrite L. reflexivity. }
    rewrite RE in H. inversion H; subst k'; clear H RE. cbn [kc kord kp kick ret kcount]. repeat split; auto; [apply upd_neq; assumption|].
    left. exists g. rewrite upd_eq. auto.
Qed.

(** where goroutine g is in its SetID of c with id i since it found another connection under the id, when [n0] adds
    had been made *)
Definition Ph (g c i n0 : N) (k : kst) : Prop :=
  (contOf (lp (kc k) g) = CBind c i /\ isBind (lp (kc k) g) = false /\ n0 <= kcount k) \/
  (lp (kc k) g = LBind c i /\ kp k g = KAdd /\ n0 <= kcount k) \/
  (n0 < kcount k /\ kick k g = true /\ contOf (lp (kc k) g) = CBind c i) \/
  (n0 < kcount k /\ kick k g = true /\ kp k g = KLoad c) \/
  (exists m, n0 < m /\ m <= kcount k /\ ret k c = Some (true, u64 m)).

Lemma isBind_lp : forall p c i, contOf p = CBind c i -> isBind p = true -> p = LBind c i.
Proof. intros p c i C B. destruct p; try discriminate. cbn in C. inversion C. reflexivity. Qed.

Lemma Ph_step : forall g c i n0 k l k', KI k -> Ph g c i n0 k -> kstep k l = Some k' -> Ph g c i n0 k'.
Proof.
  intros g c i n0 k l k' I P H. destruct l as [l|x|].
  - destruct (KL_shape k l k' I H) as (EK & EL & ER & EC & OT & G).
    pose proof (lreach _ (k_r k I)) as GI. unfold Ph. rewrite EC, ER.
    destruct P as [(P1 & P2 & P3)|[(P1 & P2 & P3)|[(P1 & P2 & P3)|[(P1 & P2 & P3)|P]]]].
    + destruct (N.eq_dec (gor l) g) as [E|NE].
      * destruct G as [(g' & -> & A & B)|G]; [|rewrite E in G; rewrite G in P1; discriminate]. cbn in E. subst g'. cbn [lstep] in EL.
        destruct (cont_step _ _ _ _ _ P1 P2 EL) as [C1 C2]. destruct (isBind (lp (kc k') g)) eqn:IB; [|left; auto].
        destruct (C2 eq_refl) as (L' & _). right. left. split; [assumption|]. split; [|assumption]. rewrite A. unfold after. rewrite L'.
        destruct (lp (kc k) g); try discriminate; reflexivity.
      * rewrite (lstep_other _ _ _ g EL) by congruence. left. auto.
    + destruct (N.eq_dec (gor l) g) as [E|NE]; [rewrite E in EK; congruence|]. rewrite (lstep_other _ _ _ g EL) by congruence. destruct (OT g) as [A B]; [congruence|]. rewrite A. right. left. auto.
    + destruct (N.eq_dec (gor l) g) as [E|NE].
      * destruct G as [(g' & -> & A & B)|G]; [|rewrite E in G; rewrite G in P3; discriminate]. cbn in E. subst g'. cbn [lstep] in EL.
        destruct (isBind (lp (kc k) g)) eqn:IB.
        -- pose proof (isBind_lp _ _ _ P3 IB) as L. destruct (bind_step _ _ _ _ _ L EL) as [(C1 & C2 & C3)|[(C1 & C2)|(v & C1 & C2 & C3)]].
           ++ right. right. right. left. rewrite A, B. unfold after. rewrite L, C1. auto.
           ++ exfalso. destruct (i_id _ GI i c C1) as [_ D]. rewrite (binder_unbound _ g c i GI P3) in D. discriminate.
           ++ right. right. left. rewrite B, C3. auto.
        -- destruct (cont_step _ _ _ _ _ P3 IB EL) as [C1 C2]. right. right. left. rewrite B. auto.
      * rewrite (lstep_other _ _ _ g EL) by congruence. destruct (OT g) as [A B]; [congruence|]. rewrite B. right. right. left. auto.
    + destruct (N.eq_dec (gor l) g) as [E|NE]; [rewrite E in EK; congruence|]. destruct (OT g) as [A B]; [congruence|]. rewrite A, B. right. right. right. left. auto.
    + right. right. right. right. assumption.
  - cbn [kstep] in H. destruct (kp k x) as [| |d] eqn:EK; try discriminate; inversion H; subst k'; clear H; unfold Ph; cbn [kc kord kp kick ret kcount].
    + destruct P as [(P1 & P2 & P3)|[(P1 & P2 & P3)|[(P1 & P2 & P3)|[(P1 & P2 & P3)|(m & P1 & P2 & P3)]]]].
      * left. repeat split; [assumption|assumption|lia].
      * destruct (N.eq_dec x g) as [->|NE].
        -- right. right. left. rewrite upd_eq, P1. repeat split; lia.
        -- rewrite !(upd_neq _ _ x _ g) by congruence. right. left. repeat split; [assumption|assumption|lia].
      * right. right. left. split; [lia|]. split; [|assumption]. unfold upd. destruct (g =? x); [reflexivity|assumption].
      * right. right. right. left. assert (g <> x) by congruence. rewrite !upd_neq by assumption. repeat split; [lia|assumption|assumption].
      * right. right. right. right. exists m. repeat split; [lia|lia|assumption].
    + destruct (k_l k I x d EK) as (D1 & D2 & D3 & _).
      destruct P as [(P1 & P2 & P3)|[(P1 & P2 & P3)|[(P1 & P2 & P3)|[(P1 & P2 & P3)|(m & P1 & P2 & P3)]]]].
      * left. auto.
      * right. left. rewrite upd_neq by congruence. auto.
      * right. right. left. auto.
      * destruct (N.eq_dec x g) as [->|NE].
        -- right. right. right. right. rewrite EK in P3. inversion P3; subst d. exists (kcount k). rewrite upd_eq, P2, (k_o k I). repeat split; [assumption|lia].
        -- right. right. right. left. rewrite upd_neq by congruence. auto.
      * right. right. right. right. exists m. split; [assumption|]. split; [assumption|]. rewrite upd_neq; [assumption|]. intros ->. congruence.
  - inversion H; subst k'; clear H. unfold Ph. cbn [kc kord kp kick ret kcount].
    destruct P as [(P1 & P2 & P3)|[(P1 & P2 & P3)|[(P1 & P2 & P3)|[(P1 & P2 & P3)|(m & P1 & P2 & P3)]]]].
    + left. repeat split; [assumption|assumption|lia].
    + right. left. repeat split; [assumption|assumption|lia].
    + right. right. left. repeat split; [lia|assumption|assumption].
    + right. right. right. left. repeat split; [lia|assumption|assumption].
    + right. right. right. right. exists m. repeat split; [lia|lia|assumption].
Qed.

(** *** C75 *)

(** [ret k c]: what SetID on connection c returned, (kick, order); [kickedBy s c]: the connection whose SetID closed c.
    If connection c was closed by the SetID of c', that SetID says that it kicked and has the greater order. *)
Definition C75_statement : Prop :=
  forall k0 k, reachable kstep (kinit k0) k -> kcount k < 18446744073709551616 ->
  forall c c' b o b' o', kickedBy (kc k) c = Some c' -> ret k c = Some (b, o) -> ret k c' = Some (b', o') -> b' = true /\ o < o'.

(** The counter is loaded after the id is bound: the SetID of connection 2 can get between the two in the SetID of
    connection 1, and both return the same order; or even a third kick, and the kicked connection has the greater one. *)
Definition lateSched : list klabel :=
  [KL (LSetID 1 1 5); KL (LG 1); KL (LSetID 2 2 5)] ++ repeat (KL (LG 2)) 10 ++ [KG 2; KL (LG 2); KG 2; KOther; KG 1].

Theorem C75_refuted : ~ C75_statement.
Proof.
  intro H. destruct (run kstep (kinit 0) lateSched) as [k|] eqn:E; [|exfalso; vm_compute in E; discriminate].
  assert (X : match run kstep (kinit 0) lateSched with
    | Some k => kickedBy (kc k) 1 = Some 2 /\ ret k 1 = Some (false, 2) /\ ret k 2 = Some (true, 1) /\ kcount k = 2 | None => False end) by (vm_compute; auto).
  rewrite E in X. destruct X as (A & B & C & D).
  destruct (H 0 k (ex_intro _ lateSched E)) with (c := 1) (c' := 2) (b := false) (o := 2) (b' := true) (o' := 1) as [_ X]; try assumption; [rewrite D; reflexivity|].
  vm_compute in X. discriminate.
Qed.
Print Assumptions C75_refuted.

(** A SetID that finds another connection under the id returns kick = true and an order greater than every order
    that any SetID (of any id) had returned by then.  Missing for the full statement: that the SetID of the
    connection found had returned by then. *)
Theorem C75_order_partial :
  forall k0 k g c i v k1 ls k2,
  reachable kstep (kinit k0) k -> lp (kc k) g = LBind c i -> id2 (kc k) i = Some v -> v <> c ->
  kstep k (KL (LG g)) = Some k1 -> run kstep k1 ls = Some k2 -> kcount k2 < 18446744073709551616 ->
  forall b' o', ret k2 c = Some (b', o') -> b' = true /\ forall d b o, ret k d = Some (b, o) -> o < o'.
Proof.
  intros k0 k g c i v k1 ls k2 R L E NE H1 H2 HB b' o' HR.
  pose proof (KI_reach k0 k R) as I. pose proof (KI_step _ _ _ I H1) as I1.
  assert (P1 : Ph g c i (kcount k) k1).
  { left. destruct (KL_shape k (LG g) k1 I H1) as (_ & EL & _ & EC & _). cbn [lstep] in EL.
    destruct (bind_step _ _ _ _ _ L EL) as [(A & _)|[(A & _)|(w & _ & _ & A)]]; [congruence|congruence|]. rewrite A, EC. repeat split. lia. }
  assert (X : KI k2 /\ Ph g c i (kcount k) k2).
  { apply (run_inv kstep (fun k' => KI k' /\ Ph g c i (kcount k) k')) with (ls := ls) (s := k1); [|split; assumption|assumption].
    intros t l t' [A B] C. split; [eapply KI_step; eassumption|eapply Ph_step; eassumption]. }
  destruct X as [I2 P2]. destruct (k_t k2 I2 c b' o' HR) as (BD & _). pose proof (lreach _ (k_r k2 I2)) as GI.
  destruct P2 as [(A & B & C)|[(A & B & C)|[(A & B & C)|[(A & B & C)|(m & A & B & C)]]]].
  - rewrite (binder_unbound _ g c i GI A) in BD. discriminate.
  - rewrite (binder_unbound _ g c i GI) in BD; [discriminate|]. rewrite A. reflexivity.
  - rewrite (binder_unbound _ g c i GI C) in BD. discriminate.
  - destruct (k_l k2 I2 g c C) as (_ & _ & D & _). congruence.
  - rewrite C in HR. inversion HR; subst. split; [reflexivity|]. intros d b o HD. destruct (k_t k I d b o HD) as (_ & _ & m0 & M1 & ->).
    unfold u64. rewrite !N.mod_small by lia. lia.
Qed.
Print Assumptions C75_order_partial.

(** kick = true is true: another connection with the same id has been closed. *)
Theorem C75_kick :
  forall k0 k c o, reachable kstep (kinit k0) k -> ret k c = Some (true, o) ->
  exists v i, v <> c /\ cid (kc k) c = Some i /\ cid (kc k) v = Some i /\ clsd (kc k) v = true.
Proof. intros k0 k c o R H. apply (k_t k (KI_reach k0 k R) c true o H). reflexivity. Qed.
Print Assumptions C75_kick.

(** Orders come in the order of the returns, for any SetID calls: what returns later is not smaller. *)
Theorem C75_monotone :
  forall k0 k g c ls k1 k2, reachable kstep (kinit k0) k -> ret k c = None -> kp k g = KLoad c -> kstep k (KG g) = Some k1 ->
  run kstep k1 ls = Some k2 -> kcount k2 < 18446744073709551616 ->
  exists b o, ret k2 c = Some (b, o) /\ o = kord k /\ forall d b' o', ret k d = Some (b', o') -> o' <= o.
Proof.
  intros k0 k g c ls k1 k2 R RN HK H1 H2 HB. pose proof (KI_reach k0 k R) as I.
  assert (CM : kcount k <= kcount k2 /\ ret k2 c = Some (kick k g, kord k) /\ KI k2).
  { apply (run_inv kstep (fun k' => kcount k <= kcount k' /\ ret k' c = Some (kick k g, kord k) /\ KI k')) with (ls := ls) (s := k1); [| |assumption].
    - intros t l t' (A & B & C) D. split; [|split; [|eapply KI_step; eassumption]].
      + destruct l as [l|x|].
        * destruct (KL_shape t l t' C D) as (_ & _ & _ & E & _). lia.
        * cbn [kstep] in D. destruct (kp t x); inversion D; subst; cbn; lia.
        * inversion D; subst; cbn; lia.
      + destruct l as [l|x|].
        * destruct (KL_shape t l t' C D) as (_ & _ & E & _). rewrite E. assumption.
        * cbn [kstep] in D. destruct (kp t x) as [| |d] eqn:EX; inversion D; subst; cbn; try assumption. rewrite upd_neq; [assumption|]. intros ->.
          destruct (k_l t C x d EX) as (_ & _ & Y & _). congruence.
        * inversion D; subst; cbn; assumption.
    - pose proof (KI_step _ _ _ I H1) as I1. cbn [kstep] in H1. rewrite HK in H1. inversion H1; subst. cbn. rewrite upd_eq. split; [lia|]. split; [reflexivity|exact I1]. }
  destruct CM as (A & B & _). exists (kick k g), (kord k). split; [assumption|]. split; [reflexivity|]. intros d b' o' X.
  destruct (k_t k I d b' o' X) as (_ & _ & m & M & ->). rewrite (k_o k I). unfold u64. rewrite !N.mod_small by lia. lia.
Qed.
Print Assumptions C75_monotone.

(** Connection 1 gets id 5, its SetID returns (false, 41); then connection 2 takes the id: (true, 42). *)
Example C75_case :
  match run kstep (kinit 41) [KL (LSetID 1 1 5); KL (LG 1); KG 1; KL (LSetID 2 2 5)] with
  | Some k =>
    lp (kc k) 2 = LBind 2 5 /\ id2 (kc k) 5 = Some 1 /\ ret k 1 = Some (false, 41) /\
    match kstep k (KL (LG 2)) with
    | Some k1 =>
      match run kstep k1 (repeat (KL (LG 2)) 9 ++ [KG 2; KL (LG 2); KG 2]) with
      | Some k2 => ret k2 2 = Some (true, 42) /\ ret k2 1 = Some (false, 41) /\ kcount k2 = 42
      | None => False
      end
    | None => False
    end
  | None => False
  end.
Proof. vm_compute. repeat split. Qed.
