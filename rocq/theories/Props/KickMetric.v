(** C90: the counter of kicked connections. *)
From Verif Require Import Model.GoBase Model.Machine Model.Lifecycle Model.KickMetric Proofs.LifecycleP.
Open Scope N_scope.

(** how often connection v was counted; how often without an error *)
Definition counted (v : N) (l : list (N * N * bool)) : nat := length (filter (fun x => match x with (w, _, _) => w =? v end) l).
Definition countedOk (v : N) (l : list (N * N * bool)) : nat := length (filter (fun x => match x with (w, _, e) => (w =? v) && negb e end) l).

(** no SetID call is in progress *)
Definition noSetID (m : mst) : Prop := forall g c i, contOf (lp (mc m) g) <> CBind c i.

(** *** Lemmas *)

Lemma counted_cons : forall v w c e l, counted v ((w, c, e) :: l) = ((if (w =? v)%N then 1 else 0) + counted v l)%nat.
Proof. intros. unfold counted. cbn. destruct (w =? v); reflexivity. Qed.

Lemma countedOk_cons : forall v w c e l, countedOk v ((w, c, e) :: l) = ((if (w =? v)%N && negb e then 1 else 0) + countedOk v l)%nat.
Proof. intros. unfold countedOk. cbn. destruct ((w =? v) && negb e); reflexivity. Qed.

Lemma counted_pos : forall v l, (1 <= counted v l)%nat -> exists c e, In (v, c, e) l.
Proof.
  intros v l. induction l as [|[[w c] e] l IH]; cbn [counted]; [unfold counted; cbn; lia|]. rewrite counted_cons. intro H.
  destruct (N.eqb_spec w v) as [->|N].
  - exists c, e. left. reflexivity.
  - destruct (IH H) as (c' & e' & A). exists c', e'. right. assumption.
Qed.

Lemma in_counted : forall v c e l, In (v, c, e) l -> (1 <= counted v l)%nat.
Proof.
  intros v c e l. induction l as [|[[w d] f] l IH]; [intros []|]. rewrite counted_cons. intros [E|H].
  - inversion E; subst. rewrite N.eqb_refl. lia.
  - specialize (IH H). lia.
Qed.

Definition late (p : lpc) : bool := match p with LLock _ _ | LCancel _ _ _ | LNotify _ _ _ => true | _ => false end.
Definition later (p : lpc) : bool := match p with LCancel _ _ _ | LNotify _ _ _ => true | _ => false end.
Definition atCas (p : lpc) : bool := match p with LCas _ _ _ => true | _ => false end.

Ltac gcases s g H :=
  unfold gstep in H; destruct (lp s g) as [|c i|c k ct|c k ct|c i k ct|c k ct|c ct|c ct|c ct|c ct|c td ct|c [|f fs] ct|c f] eqn:L; try discriminate H;
      repeat match type of H with
      | match ?b with _ => _ end = Some _ => destruct b eqn:?; try discriminate H
      end; inversion H; subst; clear H.

Lemma other : forall s l s' x, lstep s l = Some s' -> x <> mgor l -> lp s' x = lp s x.
Proof.
  intros s l s' x H N. destruct l; cbn [lstep mgor] in *.
  - destruct (lp s g); try discriminate H. destruct (cid s c); inversion H; subst; [reflexivity|]. cbn. apply upd_neq. assumption.
  - destruct (lp s g); try discriminate H. inversion H; subst. cbn. apply upd_neq. assumption.
  - destruct (lp s g); try discriminate H. destruct (clsd s c); inversion H; subst; cbn; [apply upd_neq; assumption|reflexivity].
  - gcases s g H; cbn; apply upd_neq; assumption.
Qed.

Lemma grows : forall s l s', lstep s l = Some s' ->
  (forall c i, cid s c = Some i -> cid s' c = Some i) /\ (forall c, clsd s c = true -> clsd s' c = true).
Proof.
  intros s l s' H. destruct l; cbn [lstep] in H.
  - destruct (lp s g); try discriminate H. destruct (cid s c) eqn:E; inversion H; subst; clear H; [auto|]. split; auto.
    intros c' i' X. cbn. unfold upd. destruct (N.eqb_spec c' c); [subst; congruence|assumption].
  - destruct (lp s g); try discriminate H. inversion H; subst. auto.
  - destruct (lp s g); try discriminate H. destruct (clsd s c); inversion H; subst; auto.
  - gcases s g H; cbn; (split; [auto|]); try (intros; assumption); intros d X; unfold upd; destruct (d =? c); auto.
Qed.

(** a call starts from LIdle and gets nowhere near closeUntracked *)
Lemma call_step : forall s l s', lstep s l = Some s' -> (forall g, l <> LG g) ->
  lp s (mgor l) = LIdle /\ late (lp s' (mgor l)) = false /\ kickedBy s' = kickedBy s /\
  (forall v, target (lp s' (mgor l)) = Some v -> contOf (lp s' (mgor l)) = CRet).
Proof.
  intros s l s' H N. destruct l; cbn [lstep mgor] in *.
  - destruct (lp s g) eqn:L; try discriminate H. destruct (cid s c); inversion H; subst; clear H.
    + rewrite L. repeat split.
    + cbn. rewrite upd_eq. repeat split. intros v X. discriminate X.
  - destruct (lp s g) eqn:L; try discriminate H. inversion H; subst; clear H. cbn. rewrite upd_eq. repeat split.
  - destruct (lp s g) eqn:L; try discriminate H. destruct (clsd s c); inversion H; subst; clear H.
    + cbn. rewrite upd_eq. repeat split.
    + cbn. rewrite L. repeat split.
  - exfalso. apply (N g). reflexivity.
Qed.

(** one step of a goroutine that is at a connection *)
Lemma target_step : forall s g s' v, ginv s -> gstep s g = Some s' -> target (lp s g) = Some v ->
  (target (lp s' g) = Some v /\ contOf (lp s' g) = contOf (lp s g) /\ (late (lp s g) = true -> late (lp s' g) = true) /\
   (later (lp s' g) = true -> late (lp s g) = true)) \/
  (late (lp s g) = true /\ lp s' g = resume (contOf (lp s g)) /\ clsd s v = true).
Proof.
  intros s g s' v I H T. pose proof (i_p s I g) as P.
  gcases s g H; cbn in T; try discriminate T; injection T as T; subst; cbn; rewrite upd_eq; cbn;
    try (destruct k); try (left; repeat split; (assumption || discriminate || reflexivity || (intros; assumption) || (intros; reflexivity)); fail);
    right; repeat split; auto; cbn in P; tauto.
Qed.

(** a goroutine that is at no connection *)
Lemma free_step : forall s g s', gstep s g = Some s' -> target (lp s g) = None ->
  late (lp s' g) = false /\ kickedBy s' = kickedBy s /\ (forall v, target (lp s' g) = Some v -> atCas (lp s' g) = true).
Proof.
  intros s g s' H T. gcases s g H; cbn in T; try discriminate T; cbn; rewrite ?upd_eq; cbn; repeat split; intros v X; discriminate X.
Qed.

(** kickedBy changes when a SetID wins the compare-and-swap, and only then *)
Lemma kicked_step : forall s g s', ginv s -> gstep s g = Some s' ->
  kickedBy s' = kickedBy s \/
  exists v c i, kickedBy s' = upd (kickedBy s) v (Some c) /\ atCas (lp s g) = true /\ target (lp s g) = Some v /\ contOf (lp s g) = CBind c i /\
    untr s v = false /\ atCas (lp s' g) = false /\ target (lp s' g) = Some v.
Proof.
  intros s g s' I H. gcases s g H; cbn; auto. destruct ct as [|c' i']; [auto|]. right. exists c, c', i'. rewrite upd_eq. repeat split. assumption.
Qed.

Lemma cas_step : forall s g s', gstep s g = Some s' -> atCas (lp s g) = true -> forall v, target (lp s g) = Some v ->
  atCas (lp s' g) = false /\ (untr s v = false -> forall c i, contOf (lp s g) = CBind c i -> kickedBy s' = upd (kickedBy s) v (Some c)).
Proof.
  intros s g s' H A v T. gcases s g H; cbn in A; try discriminate A; cbn in T; injection T as T; subst; cbn; rewrite upd_eq; cbn; (split; [reflexivity|]).
  - intro X. congruence.
  - intros _ d j E. subst ct. reflexivity.
Qed.

Lemma nocas_step : forall s g s' v, gstep s g = Some s' -> atCas (lp s g) = false -> target (lp s g) = Some v -> atCas (lp s' g) = false.
Proof.
  intros s g s' v H A T. gcases s g H; cbn in *; try discriminate; rewrite upd_eq; cbn; try reflexivity; try (destruct k; reflexivity); destruct ct; reflexivity.
Qed.

(** *** The invariant *)

(** goroutine g, in the SetID of c, is at connection v or about to count it *)
Definition at_ (m : mst) (g v c : N) : Prop :=
  (exists i, contOf (lp (mc m) g) = CBind c i) /\ (target (lp (mc m) g) = Some v \/ exists e, mp m g = MCnt v e).
Definition holds (m : mst) (g v : N) : Prop := mp m g = MGot v false \/ mp m g = MCnt v false.

Record MI (m : mst) : Prop := {
  q_r : reachable lstep linit (mc m);
  q_g : forall g v e, mp m g = MGot v e -> target (lp (mc m) g) = Some v /\ late (lp (mc m) g) = true;
  q_n : forall g, later (lp (mc m) g) = true -> exists v e, mp m g = MGot v e;
  q_c : forall g v e, mp m g = MCnt v e -> exists c i, lp (mc m) g = LBind c i /\ v <> c /\ cid (mc m) c = Some i /\ cid (mc m) v = Some i /\ clsd (mc m) v = true;
  q_a : forall v c e, In (v, c, e) (adds m) -> v <> c /\ clsd (mc m) v = true /\ exists i, cid (mc m) c = Some i /\ cid (mc m) v = Some i;
  q_k : forall v c, kickedBy (mc m) v = Some c -> (exists g, at_ m g v c) \/ exists e, In (v, c, e) (adds m);
  q_h : forall g v, holds m g v -> sock m v = true /\ countedOk v (adds m) = 0%nat;
  q_u : forall g g' v, holds m g v -> holds m g' v -> g = g';
  q_o : forall v, (countedOk v (adds m) <= 1)%nat;
  q_s : forall v, (1 <= countedOk v (adds m))%nat -> sock m v = true }.

Lemma MI_init : MI minit.
Proof. split; cbn; try discriminate; auto; try lia; try contradiction. - exists []. reflexivity. - intros g v [X|X]; discriminate X. - intros g g' v [X|X]; discriminate X. Qed.

Lemma late_target : forall p, late p = true -> exists v, target p = Some v.
Proof. intros p H. destruct p; try discriminate H; eexists; reflexivity. Qed.

Lemma later_late : forall p, later p = true -> late p = true.
Proof. intros p H. destruct p; try discriminate H; reflexivity. Qed.

Lemma MI_sock : forall m g m', MI m -> mstep m (MSock g) = Some m' -> MI m'.
Proof.
  intros m g m' I H. cbn [mstep] in H. destruct (mp m g) eqn:EM; try discriminate H. destruct (lp (mc m) g) eqn:L; try discriminate H.
  inversion H; subst m'; clear H.
  assert (HO : forall x w, holds (mkM (mc m) (upd (sock m) c true) (upd (mp m) g (MGot c (sock m c))) (adds m)) x w -> (x = g /\ w = c /\ sock m c = false) \/ (x <> g /\ holds m x w)).
  { intros x w X. unfold holds in X. cbn [mp] in X. unfold upd in X. destruct (N.eqb_spec x g) as [->|N].
    - left. destruct X as [X|X]; [|discriminate X]. inversion X; subst. auto.
    - right. auto. }
  split; cbn [mc sock mp adds].
  - apply (q_r m I).
  - intros x v e X. unfold upd in X. destruct (N.eqb_spec x g) as [->|N]; [|apply (q_g m I x v e X)]. inversion X; subst. rewrite L. auto.
  - intros x X. unfold upd. destruct (x =? g); [eauto|apply (q_n m I x X)].
  - intros x v e X. unfold upd in X. destruct (x =? g); [discriminate X|apply (q_c m I x v e X)].
  - apply (q_a m I).
  - intros v d X. destruct (q_k m I v d X) as [(x & A & B)|B]; [left|right; assumption]. exists x. split; [exact A|]. cbn [mc mp].
    destruct B as [B|(e & B)]; [left; assumption|]. right. exists e. rewrite upd_neq; [assumption|]. intros ->. congruence.
  - intros x v X. destruct (HO x v X) as [(-> & -> & S)|(N & Y)].
    + rewrite upd_eq. split; [reflexivity|]. destruct (countedOk c (adds m)) eqn:E; [reflexivity|]. rewrite (q_s m I c) in S; [discriminate S|lia].
    + destruct (q_h m I x v Y) as [A B]. split; [|assumption]. unfold upd. destruct (v =? c); auto.
  - intros x y v X Y. destruct (HO x v X) as [(-> & -> & S)|(N & Z)]; destruct (HO y _ Y) as [(-> & E & S')|(N' & Z')]; auto.
    + destruct (q_h m I y c Z') as [A _]. congruence.
    + subst v. destruct (q_h m I x c Z) as [A _]. congruence.
    + apply (q_u m I x y v Z Z').
  - apply (q_o m I).
  - intros v X. unfold upd. destruct (v =? c); [reflexivity|apply (q_s m I v X)].
Qed.

Lemma MI_count : forall m g m', MI m -> mstep m (MCount g) = Some m' -> MI m'.
Proof.
  intros m g m' I H. cbn [mstep] in H. destruct (mp m g) as [| |v e] eqn:EM; try discriminate H. destruct (lp (mc m) g) as [|c i| | | | | | | | | | |] eqn:L; try discriminate H.
  inversion H; subst m'; clear H. destruct (q_c m I g v e EM) as (c' & i' & L' & NE & C1 & C2 & C3). rewrite L in L'. inversion L'; subst c' i'; clear L'.
  assert (HO : forall x w, holds (mkM (mc m) (sock m) (upd (mp m) g MNo) ((v, c, e) :: adds m)) x w -> x <> g /\ holds m x w).
  { intros x w X. unfold holds in X. cbn [mp] in X. unfold upd in X. destruct (N.eqb_spec x g) as [->|N]; [destruct X as [X|X]; discriminate X|]. auto. }
  assert (HG : e = false -> holds m g v) by (intros ->; right; assumption).
  split; cbn [mc sock mp adds].
  - apply (q_r m I).
  - intros x w f X. unfold upd in X. destruct (N.eqb_spec x g) as [->|N]; [discriminate X|apply (q_g m I x w f X)].
  - intros x X. unfold upd. destruct (N.eqb_spec x g) as [->|N]; [rewrite L in X; discriminate X|apply (q_n m I x X)].
  - intros x w f X. unfold upd in X. destruct (x =? g); [discriminate X|apply (q_c m I x w f X)].
  - intros w d f [X|X]; [|apply (q_a m I w d f X)]. inversion X; subst. split; [assumption|]. split; [assumption|]. exists i. auto.
  - intros w d X. destruct (q_k m I w d X) as [(x & A & B)|(f & B)]; [|right; exists f; right; assumption].
    destruct (N.eq_dec x g) as [->|N].
    + right. destruct A as (j & A). rewrite L in A. cbn in A. inversion A; subst. destruct B as [B|(f & B)]; [rewrite L in B; discriminate B|].
      rewrite EM in B. inversion B; subst. exists f. left. reflexivity.
    + left. exists x. split; [exact A|]. cbn [mc mp]. rewrite upd_neq by assumption. exact B.
  - intros x w X. destruct (HO x w X) as [N Y]. destruct (q_h m I x w Y) as [A B]. split; [assumption|]. rewrite countedOk_cons, B.
    destruct (N.eqb_spec v w) as [->|]; [|reflexivity]. destruct e; [reflexivity|]. exfalso. apply N. apply (q_u m I x g w Y (HG eq_refl)).
  - intros x y w X Y. apply HO in X, Y. apply (q_u m I x y w); tauto.
  - intro w. rewrite countedOk_cons. pose proof (q_o m I w). destruct (N.eqb_spec v w) as [->|]; [|cbn; lia]. destruct e; cbn; [lia|].
    destruct (q_h m I g w (HG eq_refl)) as [_ B]. rewrite B. lia.
  - intros w X. rewrite countedOk_cons in X. destruct (N.eqb_spec v w) as [->|]; [|apply (q_s m I w); cbn in X; lia]. destruct e; [apply (q_s m I w); cbn in X; lia|].
    apply (q_h m I g w (HG eq_refl)).
Qed.

Lemma ML_shape : forall m l m', MI m -> mstep m (ML l) = Some m' ->
  exists s' f, lstep (mc m) l = Some s' /\ m' = mkM s' (sock m) f (adds m) /\
     (forall x, x <> mgor l -> f x = mp m x) /\
     ((mp m (mgor l) = MNo /\ f (mgor l) = MNo /\ late (lp (mc m) (mgor l)) = false) \/
      exists v e, mp m (mgor l) = MGot v e /\ f (mgor l) = mnext v e (lp s' (mgor l))).
Proof.
  intros m l m' I H. cbn [mstep] in H. destruct (mp m (mgor l)) as [|v e|v e] eqn:EM; [| |discriminate H].
  - destruct (late (lp (mc m) (mgor l))) eqn:LT.
    + exfalso. destruct (lp (mc m) (mgor l)) eqn:L; try discriminate LT; try discriminate H; destruct (q_n m I (mgor l)) as (v & e & X); try (rewrite L; reflexivity); congruence.
    + destruct (lstep (mc m) l) as [s'|] eqn:EL; [|destruct (lp (mc m) (mgor l)); discriminate H]. exists s', (mp m). split; [reflexivity|].
      split; [destruct (lp (mc m) (mgor l)); try discriminate LT; inversion H; reflexivity|]. split; [auto|]. left. auto.
  - destruct (lstep (mc m) l) as [s'|] eqn:EL; [|discriminate H]. inversion H; subst. exists s', (upd (mp m) (mgor l) (mnext v e (lp s' (mgor l)))).
    split; [reflexivity|]. split; [reflexivity|]. split; [intros x N; apply upd_neq; assumption|]. right. exists v, e. rewrite upd_eq. auto.
Qed.

Lemma MI_l : forall m l m', MI m -> mstep m (ML l) = Some m' -> MI m'.
Proof.
  intros m l m' I H. destruct (ML_shape m l m' I H) as (s' & f & EL & -> & FO & FG). clear H.
  pose proof (lreach _ (q_r m I)) as GI. destruct (grows _ _ _ EL) as [M1 M2].
  pose proof (fun x => other _ _ _ x EL) as LO. set (g := mgor l) in *.
  (* what goroutine g is at after the step *)
  assert (K : (forall v e, f g = MGot v e -> mp m g = MGot v e /\ target (lp s' g) = Some v /\ late (lp s' g) = true) /\
              (later (lp s' g) = true -> exists v e, f g = MGot v e) /\
              (forall v e, f g = MCnt v e -> mp m g = MGot v e /\ exists c i, lp s' g = LBind c i /\ v <> c /\ cid s' c = Some i /\ cid s' v = Some i /\ clsd s' v = true) /\
              (forall v c, kickedBy s' v = Some c -> kickedBy (mc m) v = Some c \/ at_ (mkM s' (sock m) f (adds m)) g v c) /\
              (forall v c, at_ m g v c -> at_ (mkM s' (sock m) f (adds m)) g v c)).
  { assert (D : (exists h, l = LG h) \/ forall h, l <> LG h) by (destruct l; [right; discriminate..|left; eauto]). destruct D as [(h & ->)|D].
    - cbn [mgor] in g. cbn [lstep] in EL. subst g. rename h into g.
      destruct FG as [(EM & EF & LT)|(v & e & EM & EF)].
      + assert (NL : forall v, target (lp (mc m) g) = Some v -> target (lp s' g) = Some v /\ contOf (lp s' g) = contOf (lp (mc m) g) /\ later (lp s' g) = false).
        { intros v T. destruct (target_step _ _ _ v GI EL T) as [(A & B & _ & C)|(A & _)]; [|congruence]. split; [assumption|]. split; [assumption|].
          destruct (later (lp s' g)); [|reflexivity]. rewrite C in LT; [discriminate LT|reflexivity]. }
        repeat split.
        * congruence.
        * congruence.
        * congruence.
        * intro X. exfalso. destruct (target (lp (mc m) g)) as [v|] eqn:T.
          -- destruct (NL v eq_refl) as (_ & _ & A). congruence.
          -- destruct (free_step _ _ _ EL T) as (A & _). rewrite (later_late _ X) in A. discriminate A.
        * congruence.
        * congruence.
        * intros v c X. destruct (kicked_step _ _ _ GI EL) as [E|(w & d & i & E & A & B & C & _ & _ & F)]; [rewrite E in X; auto|].
          rewrite E in X. unfold upd in X. destruct (N.eqb_spec v w) as [->|]; [|auto]. inversion X; subst. right. split; cbn [mc mp].
          -- exists i. destruct (NL w B) as (_ & Y & _). congruence.
          -- left. assumption.
        * destruct H as [(i & A) [T|(e & X)]]; [|congruence]. cbn [mc]. exists i. destruct (NL v T) as (_ & Y & _). congruence.
        * destruct H as [_ [T|(e & X)]]; [|congruence]. cbn [mc mp]. left. apply (NL v T).
      + destruct (q_g m I g v e EM) as [T LT]. pose proof (i_p _ GI g) as P.
        assert (NC : atCas (lp (mc m) g) = false) by (destruct (lp (mc m) g); try discriminate LT; reflexivity).
        assert (K4 : kickedBy s' = kickedBy (mc m)).
        { destruct (kicked_step _ _ _ GI EL) as [E|(w & d & i & _ & A & _)]; [assumption|congruence]. }
        destruct (target_step _ _ _ v GI EL T) as [(A & B & C & _)|(_ & B & C)].
        * specialize (C LT). assert (F : f g = MGot v e) by (rewrite EF; destruct (lp s' g); try discriminate C; reflexivity).
          repeat split.
          -- congruence.
          -- congruence.
          -- assumption.
          -- intros _. eauto.
          -- congruence.
          -- congruence.
          -- rewrite K4. auto.
          -- destruct H as [(i & X) _]. exists i. cbn [mc]. congruence.
          -- destruct H as [_ [Y|(e' & X)]]; [|congruence]. cbn [mc mp]. left. congruence.
        * destruct (contOf (lp (mc m) g)) as [|d j] eqn:CT; cbn [resume] in B; rewrite B in EF |- *; cbn [mnext] in EF.
          -- repeat split; try congruence.
             ++ intro X. discriminate X.
             ++ rewrite K4. auto.
             ++ destruct H as [(i & X) _]. congruence.
             ++ destruct H as [(i & X) _]. congruence.
          -- assert (Q : d <> v /\ cid (mc m) d = Some j /\ cid (mc m) v = Some j).
             { destruct (lp (mc m) g); try discriminate LT; cbn in CT, P, T; injection T as T; subst; unfold kok in P; tauto. }
             destruct Q as (Q1 & Q2 & Q3). repeat split; try congruence.
             ++ intro X. discriminate X.
             ++ rewrite EF in H. inversion H; subst. exists d, j. repeat split; auto.
             ++ rewrite K4. auto.
             ++ destruct H as [(i & X) _]. exists i. cbn [mc]. rewrite B. cbn [contOf]. congruence.
             ++ destruct H as [_ [Y|(e' & X)]]; [|congruence]. cbn [mc mp]. right. exists e. congruence.
    - destruct (call_step _ _ _ EL D) as (A & B & C & _). fold g in A, B.
      assert (EM : mp m g = MNo /\ f g = MNo).
      { destruct FG as [(X & Y & _)|(v & e & X & _)]; [auto|]. destruct (q_g m I g v e X) as [T _]. rewrite A in T. discriminate T. }
      destruct EM as [EM EF]. repeat split; try congruence.
      + intro X. rewrite (later_late _ X) in B. discriminate B.
      + rewrite C. auto.
      + destruct H as [(i & X) _]. rewrite A in X. discriminate X.
      + destruct H as [(i & X) _]. rewrite A in X. discriminate X. }
  destruct K as (K1 & K2 & K3 & K4 & K5).
  assert (HO : forall x w, holds (mkM s' (sock m) f (adds m)) x w -> holds m x w).
  { intros x w X. unfold holds in X |- *. cbn [mp] in X. destruct (N.eq_dec x g) as [->|N]; [|rewrite FO in X by assumption; assumption].
    destruct X as [X|X]; [left; apply (K1 w false X)|left; apply (K3 w false X)]. }
  split; cbn [mc sock mp adds].
  - eapply reachable_step; [apply (q_r m I)|exact EL].
  - intros x v e X. destruct (N.eq_dec x g) as [->|N]; [apply (K1 v e X)|]. rewrite LO by assumption. apply (q_g m I x v e). rewrite FO in X by assumption. assumption.
  - intros x X. destruct (N.eq_dec x g) as [->|N]; [apply (K2 X)|]. rewrite LO in X by assumption. rewrite FO by assumption. apply (q_n m I x X).
  - intros x v e X. destruct (N.eq_dec x g) as [->|N]; [apply (K3 v e X)|]. rewrite FO in X by assumption. rewrite LO by assumption.
    destruct (q_c m I x v e X) as (c & i & A & B & C & E & F). exists c, i. auto 7.
  - intros v c e X. destruct (q_a m I v c e X) as (A & B & i & C & E). split; [assumption|]. split; [auto|]. exists i. split; auto.
  - intros v c X. destruct (K4 v c X) as [Y|Y]; [|left; exists g; exact Y]. destruct (q_k m I v c Y) as [(x & Z)|Z]; [left|right; assumption].
    exists x. destruct (N.eq_dec x g) as [->|N]; [apply (K5 v c Z)|]. destruct Z as [Z1 Z2]. split; cbn [mc mp]; [rewrite LO by assumption; exact Z1|].
    rewrite LO, FO by assumption. exact Z2.
  - intros x v X. apply (q_h m I x v (HO x v X)).
  - intros x y v X Y. apply (q_u m I x y v (HO x v X) (HO y v Y)).
  - apply (q_o m I).
  - apply (q_s m I).
Qed.

Lemma MI_step : forall m l m', MI m -> mstep m l = Some m' -> MI m'.
Proof. intros m [l|g|g] m' I H; [eapply MI_l|eapply MI_sock|eapply MI_count]; eassumption. Qed.

Lemma MI_reach : forall m, reachable mstep minit m -> MI m.
Proof. intros m (ls & R). eapply (@run_inv _ _ mstep MI); [|exact MI_init|exact R]. intros. eapply MI_step; eassumption. Qed.

(** *** The statement *)

(** C90: whenever no SetID call is in progress, every connection has been counted as often as it was kicked (OnKickCB called). *)
Definition C90_statement : Prop :=
  forall m, reachable mstep minit m -> noSetID m -> forall v, counted v (adds m) = cbs (mc m) v.

Definition G (g : N) (n : nat) : list mlabel := repeat (ML (LG g)) n.

(** Connection 1 has id 5 and closes itself; the SetID of connection 2 looks the id up before it is deleted, waits, and counts
    connection 1, which was not kicked. *)
Definition selfClose : list mlabel :=
  [ML (LSetID 1 1 5); ML (LG 1); ML (LClose 1 1); ML (LSetID 2 2 5); ML (LG 2)] ++ G 1 5 ++ [MSock 1] ++ G 1 3 ++
  G 2 2 ++ [MSock 2; ML (LG 2); MCount 2; ML (LG 2)].

(** two SetID calls find connection 1 and both count it; then connection 2 has the id and is kicked by connection 3 *)
Definition bothFind : list mlabel :=
  [ML (LSetID 1 1 5); ML (LG 1); ML (LSetID 2 2 5); ML (LG 2); ML (LSetID 3 3 5); ML (LG 3)] ++ G 2 6 ++ [MSock 2] ++ G 2 3 ++ [MCount 2] ++
  G 3 2 ++ [MSock 3; ML (LG 3); MCount 3; ML (LG 2)] ++ G 3 7 ++ [MSock 3] ++ G 3 3 ++ [MCount 3; ML (LG 3)].

Lemma self_settled : match run mstep minit selfClose with
  | Some m => (forall g c i, contOf (lp (mc m) g) <> CBind c i) /\ counted 1 (adds m) = 1%nat /\ cbs (mc m) 1 = 0%nat | None => False end.
Proof.
  vm_compute. split; [|auto]. intros g c i. destruct g as [|[p|[p|p|]|]]; discriminate.
Qed.

Theorem C90_refuted : ~ C90_statement.
Proof.
  intro H. pose proof self_settled as X. destruct (run mstep minit selfClose) as [m|] eqn:E; [|exact X]. destruct X as (A & B & C).
  pose proof (H m (ex_intro _ selfClose E) A 1) as Y. rewrite B, C in Y. discriminate Y.
Qed.
Print Assumptions C90_refuted.

(** Kicked once, counted twice. *)
Theorem C90_counted_twice :
  exists m, reachable mstep minit m /\ noSetID m /\ cbs (mc m) 1 = 1%nat /\ counted 1 (adds m) = 2%nat.
Proof.
  assert (X : match run mstep minit bothFind with
    | Some m => noSetID m /\ cbs (mc m) 1 = 1%nat /\ counted 1 (adds m) = 2%nat | None => False end).
  { vm_compute. split; [|auto]. intros g c i. destruct g as [|[[p|p|]|[p|p|]|]]; intro Q; discriminate Q. }
  destruct (run mstep minit bothFind) as [m|] eqn:E; [|contradiction]. exists m. split; [exists bothFind; exact E|exact X].
Qed.
Print Assumptions C90_counted_twice.

(** The race of C32: connection 1 is closed between setting its id and binding it, and stays in the map.  The next SetID of the id counts
    it again and again, as often as one likes; OnKickCB was never called. *)
Definition stale : list mlabel := [ML (LSetID 1 1 5); ML (LClose 2 1)] ++ G 2 5 ++ [MSock 2] ++ G 2 3 ++ [ML (LG 1); ML (LSetID 3 2 5)].

Definition round : list mlabel := G 3 3 ++ [MSock 3; ML (LG 3); MCount 3].

Definition spins (m : mst) : Prop :=
  id2 (mc m) 5 = Some 1 /\ untr (mc m) 1 = true /\ utch (mc m) 1 = true /\ clsd (mc m) 1 = true /\ lp (mc m) 3 = LBind 2 5 /\ mp m 3 = MNo /\ cbs (mc m) 1 = 0%nat.

Lemma spin_round : forall m, spins m -> exists m', run mstep m round = Some m' /\ spins m' /\ counted 1 (adds m') = S (counted 1 (adds m)).
Proof.
  intros m (A & B & C & D & E & F & K). unfold round, G. cbn [repeat app run mstep mgor lstep]. rewrite F, E. unfold gstep at 1. rewrite E, A.
  change (1 =? 2) with false. cbn iota.
  repeat (cbn [mc mp lp sock adds setp id2 cid untr utch clsd resume mnext run mstep mgor lstep]; rewrite ?upd_eq; cbn iota;
          rewrite ?F, ?B, ?C, ?D; unfold gstep).
  eexists. split; [reflexivity|]. split.
  - unfold spins. cbn [mc mp lp id2 untr utch clsd cbs setp]. rewrite !upd_eq. auto 10.
  - cbn [adds]. apply counted_cons.
Qed.

Theorem C90_counted_forever :
  exists m, reachable mstep minit m /\ forall n, exists m', run mstep m (concat (repeat round n)) = Some m' /\
    (n <= counted 1 (adds m'))%nat /\ cbs (mc m') 1 = 0%nat.
Proof.
  assert (X : match run mstep minit stale with Some m => spins m | None => False end) by (vm_compute; auto 10).
  destruct (run mstep minit stale) as [m|] eqn:E; [|contradiction]. exists m. split; [exists stale; exact E|]. clear E. intro n.
  cut (forall n m, spins m -> exists m', run mstep m (concat (repeat round n)) = Some m' /\ spins m' /\ (n + counted 1 (adds m) <= counted 1 (adds m'))%nat).
  { intro H. destruct (H n m X) as (m' & A & B & C). exists m'. split; [assumption|]. split; [lia|]. apply B. }
  clear. induction n as [|n IH]; intros m S.
  - exists m. split; [reflexivity|]. split; [exact S|lia].
  - destruct (spin_round m S) as (m1 & R & S1 & C1). destruct (IH m1 S1) as (m2 & R2 & S2 & C2). exists m2. cbn [repeat concat]. rewrite run_app, R.
    split; [assumption|]. split; [assumption|]. lia.
Qed.
Print Assumptions C90_counted_forever.

(** Never too few: a connection that was kicked is counted, by the SetID that kicked it.  Missing for the full statement: that no other
    count is made for it (see above). *)
Theorem C90_kicked_counted_partial :
  forall m, reachable mstep minit m -> noSetID m -> forall v, (cbs (mc m) v <= counted v (adds m))%nat.
Proof.
  intros m R NS v. pose proof (MI_reach m R) as I. pose proof (lreach _ (q_r m I)) as GI. destruct (i_s _ GI) as (Gs & _ & S). destruct (S v) as (_ & K & _).
  destruct (cbs (mc m) v) as [|n] eqn:E; [lia|]. destruct (kickedBy (mc m) v) as [c|] eqn:KB; cbn [some] in K; [|lia].
  destruct (q_k m I v c KB) as [(g & (i & X) & _)|(e & X)]; [exfalso; apply (NS g c i X)|]. pose proof (in_counted v c e _ X). lia.
Qed.
Print Assumptions C90_kicked_counted_partial.

(** What is counted is a connection that is closed and had the id that another connection's SetID took. *)
Theorem C90_counted_closed :
  forall m v c e, reachable mstep minit m -> In (v, c, e) (adds m) ->
  v <> c /\ clsd (mc m) v = true /\ exists i, cid (mc m) c = Some i /\ cid (mc m) v = Some i.
Proof. intros m v c e R H. apply (q_a m (MI_reach m R) v c e H). Qed.
Print Assumptions C90_counted_closed.

(** Under the label error = "<nil>" a connection is counted at most once, whatever the schedule. *)
Theorem C90_no_error_once :
  forall m v, reachable mstep minit m -> (countedOk v (adds m) <= 1)%nat.
Proof. intros m v R. apply (q_o m (MI_reach m R)). Qed.
Print Assumptions C90_no_error_once.

(** *** Exact when no SetID comes to a connection that is being closed already *)

(** The same machine, without the executions in which a SetID comes to untrack a connection that somebody else began to untrack. *)
Definition mstepR (m : mst) (l : mlabel) : option mst :=
  match l with
  | ML (LG g) => match lp (mc m) g with LCas v true _ => if untr (mc m) v then None else mstep m l | _ => mstep m l end
  | _ => mstep m l
  end.

Lemma mstepR_mstep : forall m l m', mstepR m l = Some m' -> mstep m l = Some m'.
Proof.
  intros m l m' H. unfold mstepR in H. destruct l as [[g c i|g c|g c f|g]|g|g]; try exact H. destruct (lp (mc m) g); try exact H. destruct k; [|exact H].
  destruct (untr (mc m) c); [discriminate H|exact H].
Qed.

Definition at2 (m : mst) (g v c : N) : Prop :=
  (exists i, contOf (lp (mc m) g) = CBind c i) /\ ((target (lp (mc m) g) = Some v /\ atCas (lp (mc m) g) = false) \/ exists e, mp m g = MCnt v e).

Record RI (m : mst) : Prop := {
  x_a : forall g v c, at2 m g v c -> kickedBy (mc m) v = Some c;
  x_b : forall v c e, In (v, c, e) (adds m) -> kickedBy (mc m) v = Some c;
  x_c : forall v, (counted v (adds m) <= 1)%nat;
  x_d : forall g v c, at2 m g v c -> counted v (adds m) = 0%nat }.

Lemma counted_kicked : forall m v, RI m -> (1 <= counted v (adds m))%nat -> exists c, kickedBy (mc m) v = Some c.
Proof. intros m v R H. destruct (counted_pos v _ H) as (c & e & X). exists c. apply (x_b m R v c e X). Qed.

Lemma RI_step : forall m l m', MI m -> RI m -> mstepR m l = Some m' -> RI m'.
Proof.
  intros m l m' I R HR. pose proof (mstepR_mstep _ _ _ HR) as H. pose proof (lreach _ (q_r m I)) as GI. destruct l as [l|g|g].
  - destruct (ML_shape m l m' I H) as (s' & f & EL & -> & FO & FG). clear H. pose proof (fun x => other _ _ _ x EL) as LO. set (g := mgor l) in *.
    assert (K : (forall v c, kickedBy (mc m) v = Some c -> kickedBy s' v = Some c) /\
      (forall v c, at2 (mkM s' (sock m) f (adds m)) g v c -> at2 m g v c \/ (kickedBy s' v = Some c /\ untr (mc m) v = false))).
    { assert (D : (exists h, l = LG h) \/ forall h, l <> LG h) by (destruct l; [right; discriminate..|left; eauto]). destruct D as [(h & ->)|D].
      - cbn [mgor] in g. cbn [lstep] in EL. subst g. rename h into g. split.
        + intros v c X. destruct (kicked_step _ _ _ GI EL) as [E|(w & d & i & E & _ & _ & _ & U & _)]; rewrite E; [assumption|]. unfold upd.
          destruct (N.eqb_spec v w) as [->|]; [|assumption]. destruct (i_k _ GI w c X) as [Y _]. congruence.
        + intros v c [(i & A) B]. cbn [mc mp] in A, B. destruct (target (lp (mc m) g)) as [w|] eqn:T.
          * destruct (atCas (lp (mc m) g)) eqn:AC.
            -- right. pose proof (i_p _ GI g) as P. cbn [mstepR] in HR.
               assert (EM : f g = MNo).
               { destruct FG as [(_ & X & _)|(w' & e & X & _)]; [assumption|]. destruct (q_g m I g w' e X) as [_ Y]. destruct (lp (mc m) g); discriminate. }
               destruct (target_step _ _ _ w GI EL T) as [(T' & CT & _)|(X & _)]; [|destruct (lp (mc m) g); discriminate].
               destruct B as [[B _]|(e & B)]; [|congruence]. assert (w = v) by congruence. subst w.
               assert (U : untr (mc m) v = false).
               { rewrite CT in A. destruct (lp (mc m) g) eqn:L; try discriminate AC. cbn in T, A, P. injection T as T. subst. destruct P as [-> _]. cbn [ctk] in HR.
                 destruct (untr (mc m) v); [discriminate HR|reflexivity]. }
               split; [|assumption]. destruct (cas_step _ _ _ EL AC v T) as [_ Y]. rewrite (Y U c i) by congruence. apply upd_eq.
            -- left. destruct (target_step _ _ _ w GI EL T) as [(T' & CT & LL & _)|(LT & RS & _)].
               ++ split; [exists i; congruence|]. left. split; [|assumption]. destruct B as [[B _]|(e & B)]; [congruence|]. exfalso.
                  destruct FG as [(_ & X & _)|(w' & e' & X & Y)]; [congruence|]. destruct (q_g m I g w' e' X) as [_ LT]. specialize (LL LT). rewrite Y in B.
                  destruct (lp s' g); discriminate.
               ++ split; [exists i; rewrite RS, resume_cont in A; assumption|]. left. split; [|assumption].
                  destruct B as [[B _]|(e & B)]; [rewrite RS, resume_target in B; discriminate B|].
                  destruct FG as [(_ & X & _)|(w' & e' & X & Y)]; [congruence|]. destruct (q_g m I g w' e' X) as [T2 _]. rewrite Y in B.
                  assert (w' = v) by (destruct (lp s' g); try discriminate B; cbn in B; congruence). congruence.
          * exfalso. destruct (free_step _ _ _ EL T) as (_ & _ & X). destruct B as [[B C]|(e & B)]; [specialize (X v B); congruence|].
            destruct FG as [(_ & Y & _)|(w' & e' & Y & _)]; [congruence|]. destruct (q_g m I g w' e' Y) as [T2 _]. congruence.
      - destruct (call_step _ _ _ EL D) as (A & _ & C & E). fold g in A, E. split; [rewrite C; auto|]. intros v c [(i & X) Y]. exfalso. cbn [mc mp] in X, Y.
        destruct Y as [[Y _]|(e & Y)]; [rewrite (E v Y) in X; discriminate X|].
        destruct FG as [(_ & Z & _)|(w' & e' & Z & _)]; [congruence|]. destruct (q_g m I g w' e' Z) as [T2 _]. rewrite A in T2. discriminate T2. }
    destruct K as [K1 K2].
    assert (AT : forall x v c, at2 (mkM s' (sock m) f (adds m)) x v c -> at2 m x v c \/ (kickedBy s' v = Some c /\ untr (mc m) v = false)).
    { intros x v c X. destruct (N.eq_dec x g) as [->|N]; [apply (K2 v c X)|]. left. unfold at2 in *. cbn [mc mp] in X. rewrite LO, FO in X by assumption. exact X. }
    split; cbn [mc adds].
    + intros x v c X. destruct (AT x v c X) as [Y|[Y _]]; [|assumption]. apply K1, (x_a m R x v c Y).
    + intros v c e X. apply K1, (x_b m R v c e X).
    + apply (x_c m R).
    + intros x v c X. destruct (AT x v c X) as [Y|[_ U]]; [apply (x_d m R x v c Y)|]. destruct (counted v (adds m)) eqn:E; [reflexivity|].
      destruct (counted_kicked m v R) as (d & Z); [lia|]. destruct (i_k _ GI v d Z) as [W _]. congruence.
  - cbn [mstep] in H. destruct (mp m g) eqn:EM; try discriminate H. destruct (lp (mc m) g) eqn:L; try discriminate H. inversion H; subst m'; clear H HR.
    assert (AT : forall x v d, at2 (mkM (mc m) (upd (sock m) c true) (upd (mp m) g (MGot c (sock m c))) (adds m)) x v d -> at2 m x v d).
    { intros x v d [A B]. split; [exact A|]. cbn [mc mp] in B. destruct B as [B|(e & B)]; [left; exact B|]. right. exists e. unfold upd in B. destruct (x =? g); [discriminate B|exact B]. }
    split; cbn [mc adds].
    + intros x v d X. apply (x_a m R x v d (AT x v d X)).
    + apply (x_b m R).
    + apply (x_c m R).
    + intros x v d X. apply (x_d m R x v d (AT x v d X)).
  - cbn [mstep] in H. destruct (mp m g) as [| |v e] eqn:EM; try discriminate H. destruct (lp (mc m) g) as [|c i| | | | | | | | | | |] eqn:L; try discriminate H.
    inversion H; subst m'; clear H HR.
    assert (AT : forall x w d, at2 (mkM (mc m) (sock m) (upd (mp m) g MNo) ((v, c, e) :: adds m)) x w d -> x <> g /\ at2 m x w d).
    { intros x w d [A B]. cbn [mc mp] in A, B. destruct (N.eq_dec x g) as [->|N].
      - exfalso. rewrite L in B. destruct B as [[B _]|(e' & B)]; [discriminate B|]. rewrite upd_eq in B. discriminate B.
      - split; [assumption|]. split; [exact A|]. rewrite upd_neq in B by assumption. exact B. }
    assert (AG : at2 m g v c) by (split; [exists i; rewrite L; reflexivity|right; exists e; exact EM]).
    split; cbn [mc adds].
    + intros x w d X. apply (x_a m R x w d). apply (AT x w d X).
    + intros w d e' [X|X]; [inversion X; subst; apply (x_a m R g w d AG)|apply (x_b m R w d e' X)].
    + intro w. rewrite counted_cons. pose proof (x_c m R w). destruct (N.eqb_spec v w) as [<-|]; [|cbn; lia]. rewrite (x_d m R g v c AG). lia.
    + intros x w d X. destruct (AT x w d X) as [N Y]. rewrite counted_cons, (x_d m R x w d Y). destruct (N.eqb_spec v w) as [<-|]; [|reflexivity].
      exfalso. apply N. pose proof (x_a m R g v c AG) as P1. pose proof (x_a m R x v d Y) as P2. rewrite P1 in P2. inversion P2; subst d.
      destruct Y as [(j & Y) _]. apply (binder_unique _ x g c j i GI Y). rewrite L. reflexivity.
Qed.

Lemma RI_reach : forall m, reachable mstepR minit m -> MI m /\ RI m.
Proof.
  intros m (ls & R). eapply (@run_inv _ _ mstepR (fun m => MI m /\ RI m)); [| |exact R].
  - intros t l t' [A B] H. split; [eapply MI_step; [exact A|apply mstepR_mstep; exact H]|eapply RI_step; eassumption].
  - split; [exact MI_init|]. split; cbn; try lia; try contradiction; intros g v c [(i & X) _]; discriminate X.
Qed.

(** Exact then.  Missing for the full statement: the executions in which a SetID comes to a connection that is being closed already. *)
Theorem C90_exact_partial :
  forall m, reachable mstepR minit m -> noSetID m -> forall v, counted v (adds m) = cbs (mc m) v.
Proof.
  intros m RR NS v. destruct (RI_reach m RR) as [I R]. pose proof (lreach _ (q_r m I)) as GI. destruct (i_s _ GI) as (Gs & _ & S). destruct (S v) as (_ & K & _).
  assert (Z : gsum Gs (fun g => wK v (lp (mc m) g)) = 0%nat).
  { destruct (gsum Gs (fun g => wK v (lp (mc m) g))) eqn:Z; [reflexivity|]. destruct (gsum_pos Gs (fun g => wK v (lp (mc m) g))) as (g & _ & W); [lia|]. exfalso.
    pose proof (i_p _ GI g) as P. specialize (NS g). destruct (lp (mc m) g) as [| | |d k ct|d j k ct|d k ct|d ct| | | | | |]; cbn in W, P, NS; try lia;
      try (destruct k; [|lia]); destruct P as [[P _] _]; destruct ct; try discriminate P; eapply NS; reflexivity. }
  rewrite Z in K. cbn [Nat.add] in K. rewrite K. pose proof (x_c m R v) as C. destruct (kickedBy (mc m) v) as [c|] eqn:KB; cbn [some].
  - destruct (q_k m I v c KB) as [(g & (i & X) & _)|(e & X)]; [exfalso; apply (NS g c i X)|]. pose proof (in_counted v c e _ X). lia.
  - destruct (counted v (adds m)) eqn:E; [reflexivity|]. destruct (counted_kicked m v R) as (d & W); [lia|]. congruence.
Qed.
Print Assumptions C90_exact_partial.

(** Connection 2 takes id 5 from connection 1, connection 3 takes it from connection 2; all SetID calls have returned. *)
Example C90_case :
  match run mstepR minit ([ML (LSetID 1 1 5); ML (LG 1); ML (LSetID 2 2 5)] ++ G 2 7 ++ [MSock 2] ++ G 2 3 ++ [MCount 2; ML (LG 2); ML (LSetID 3 3 5)] ++
                          G 3 7 ++ [MSock 3] ++ G 3 3 ++ [MCount 3; ML (LG 3)]) with
  | Some m => adds m = [(2, 3, false); (1, 2, false)] /\ (forall g, lp (mc m) g = LIdle) /\ cbs (mc m) 1 = 1%nat /\ cbs (mc m) 2 = 1%nat /\ cbs (mc m) 3 = 0%nat
  | None => False
  end.
Proof.
  vm_compute. repeat split. intro g. destruct g as [|[[p|p|]|[p|p|]|]]; reflexivity.
Qed.

(** the hypotheses of the other theorems, in the execution of C90_refuted: the only add is one with an error *)
Example C90_case_self : option_map (fun m => (adds m, map (lp (mc m)) [1; 2])) (run mstep minit selfClose) = Some ([(1, 2, true)], [LIdle; LIdle]).
Proof. vm_compute. reflexivity. Qed.
