(** Invariant of the API bookkeeping machine. *)
From Coq Require Import ZifyBool ZifyNat ZifyN.
From Verif Require Import Model.GoBase Model.Machine Model.Api.
Open Scope N_scope.

Definition holding (p : apc) : bool :=
  match p with
  | AWoLoad _ | AWoClosed _ | AWoDial _ | AWoErrUnlock | AWoStore _ _ | AWoStore2 _ _ | AWoUnlock _ _
  | AWoUnlock2 _ _ | AScdDel _ _ _ | AScdDel2 _ _ _ | ACloseRange | APanicked => true
  | _ => false
  end.

(** facts about one goroutine's pc *)
Definition pcok (s : apist) (p : apc) : Prop :=
  match p with
  | AReq i c | AReq2 i c | AWoUnlock i c | AWoUnlock2 i c | AScd i c _ => c < next s
  | AWoClosed i => conns s i = None
  | AWoDial i => conns s i = None /\ closeRet s = false
  | AWoStore i c => conns s i = None /\ c < next s /\ cidx s c = i /\ closeRet s = false
  | AWoStore2 i c => conns s i = Some c /\ c < next s /\ cidx s c = i /\ closeRet s = false
  | AScdLock i c _ | AScdDel i c _ | AScdDel2 i c _ => c < next s /\ cclosed s c = true
  | ACloseLock | ACloseRange => aclosed s = true
  | APanicked => False
  | _ => True
  end.

Definition storing (p : apc) (c : N) : Prop :=
  match p with AWoStore _ c' | AWoStore2 _ c' => c' = c | _ => False end.
Definition storing2 (p : apc) (c : N) : Prop :=
  match p with AWoStore2 _ c' => c' = c | _ => False end.

Record AInv (s : apist) : Prop := {
  i_mu : forall t, holding (pcs s t) = true <-> mu s = Some t;
  i_pc : forall t, pcok s (pcs s t);
  i_conns : forall i c, conns s i = Some c -> c < next s /\ cidx s c = i;
  i_active : forall i c, active s c = Some i -> c < next s /\ cidx s c = i;
  i_acc : forall c, c < next s -> cclosed s c = true \/
     (active s c <> None \/ exists t, storing (pcs s t) c) /\
     (conns s (cidx s c) = Some c \/ exists t i, pcs s t = AWoStore i c);
  i_ret : closeRet s = true -> aclosed s = true /\ forall c, c < next s -> cclosed s c = true;
}.

Lemma holder_unique : forall s, AInv s -> forall t t', holding (pcs s t) = true -> holding (pcs s t') = true -> t = t'.
Proof. intros s I t t' H H'. apply (i_mu s I) in H. apply (i_mu s I) in H'. congruence. Qed.

Lemma storing_holding : forall p c, storing p c -> holding p = true.
Proof. intros p c H; destruct p; cbn in *; try contradiction; reflexivity. Qed.

(** generic preservation when only a pc changes *)
Lemma setpc_inv : forall s t p, AInv s -> holding (pcs s t) = holding p -> pcok s p ->
  (forall c, storing (pcs s t) c -> storing p c) ->
  (forall i c, pcs s t = AWoStore i c -> p = AWoStore i c) -> AInv (setpc s t p).
Proof.
  intros s t p I Hh Hp Hst Hst1. constructor; cbn.
  - intro t'. unfold upd. destruct (N.eqb_spec t' t) as [->|]; [rewrite <- Hh|]; apply (i_mu s I).
  - intro t'. unfold upd. destruct (N.eqb_spec t' t) as [->|]; [exact Hp|exact (i_pc s I t')].
  - apply (i_conns s I).
  - apply (i_active s I).
  - intros c Hc. destruct (i_acc s I c Hc) as [H|[H1 H2]]; [left; assumption|right]. split.
    + destruct H1 as [H1|[t' H1]]; [left; assumption|right]. exists t'. unfold upd.
      destruct (N.eqb_spec t' t) as [->|]; [apply Hst|]; assumption.
    + destruct H2 as [H2|(t' & i & H2)]; [left; assumption|right]. exists t', i. unfold upd.
      destruct (N.eqb_spec t' t) as [->|]; [apply Hst1|]; assumption.
  - apply (i_ret s I).
Qed.

(** pc changes to a lock holding one while the lock is free *)
Lemma lock_inv : forall s t p, AInv s -> mu s = None -> holding p = true -> pcok s p ->
  (forall c, ~ storing p c) -> AInv (setpc (setmu s (Some t)) t p).
Proof.
  intros s t p I Hm Hh Hp Hst.
  assert (Hn : forall t', holding (pcs s t') = false).
  { intro t'. destruct (holding (pcs s t')) eqn:E; [|reflexivity]. apply (i_mu s I) in E. congruence. }
  constructor; cbn.
  - intro t'. unfold upd. destruct (N.eqb_spec t' t) as [->|Hne].
    + rewrite Hh. split; reflexivity.
    + rewrite Hn. split; [discriminate|]. intro X. congruence.
  - intro t'. unfold upd. destruct (N.eqb_spec t' t) as [->|]; [exact Hp|exact (i_pc s I t')].
  - apply (i_conns s I).
  - apply (i_active s I).
  - intros c Hc. destruct (i_acc s I c Hc) as [H|[H1 H2]]; [left; assumption|right]. split.
    + destruct H1 as [H1|[t' H1]]; [left; assumption|]. apply storing_holding in H1. rewrite Hn in H1. discriminate.
    + destruct H2 as [H2|(t' & i & H2)]; [left; assumption|]. pose proof (Hn t') as X. rewrite H2 in X. discriminate.
  - apply (i_ret s I).
Qed.

Lemma unlock_inv : forall s t p, AInv s -> holding (pcs s t) = true -> holding p = false -> pcok s p ->
  (forall c, ~ storing (pcs s t) c) -> AInv (setpc (setmu s None) t p).
Proof.
  intros s t p I Hh Hp Hok Hst.
  constructor; cbn.
  - intro t'. unfold upd. destruct (N.eqb_spec t' t) as [->|Hne].
    + rewrite Hp. split; discriminate.
    + split; [|discriminate]. intro X. exfalso. apply Hne. eapply holder_unique; eassumption.
  - intro t'. unfold upd. destruct (N.eqb_spec t' t) as [->|]; [exact Hok|exact (i_pc s I t')].
  - apply (i_conns s I).
  - apply (i_active s I).
  - intros c Hc. destruct (i_acc s I c Hc) as [H|[H1 H2]]; [left; assumption|right]. split.
    + destruct H1 as [H1|[t' H1]]; [left; assumption|right]. exists t'. unfold upd.
      destruct (N.eqb_spec t' t) as [->|]; [exfalso; eapply Hst; eassumption|assumption].
    + destruct H2 as [H2|(t' & i & H2)]; [left; assumption|right]. exists t', i. unfold upd.
      destruct (N.eqb_spec t' t) as [->|]; [exfalso; apply (Hst c); rewrite H2; reflexivity|assumption].
  - apply (i_ret s I).
Qed.

(** closing a connection preserves the invariant *)
Lemma close_inv : forall s c, AInv s -> AInv (closeConn s c).
Proof.
  intros s c I. constructor; cbn.
  - apply (i_mu s I).
  - intro t. pose proof (i_pc s I t) as H. destruct (pcs s t); cbn in *; try assumption;
      (destruct H as [H1 H2]; split; [assumption|]; unfold upd; destruct (N.eqb _ _); [reflexivity|assumption]).
  - apply (i_conns s I).
  - apply (i_active s I).
  - intros c' Hc. unfold upd. destruct (N.eqb_spec c' c); [left; reflexivity|apply (i_acc s I c' Hc)].
  - intro H. destruct (i_ret s I H) as [H1 H2]. split; [assumption|]. intros c' Hc. unfold upd.
    destruct (N.eqb_spec c' c); [reflexivity|apply H2; assumption].
Qed.

Lemma others_not_holding : forall s t, AInv s -> holding (pcs s t) = true ->
  forall t', t' <> t -> holding (pcs s t') = false.
Proof.
  intros s t I H t' Hne. destruct (holding (pcs s t')) eqn:E; [|reflexivity].
  exfalso. apply Hne. eapply holder_unique; eassumption.
Qed.

Lemma allActive_spec : forall s, allActiveClosed s = true -> forall c, c < next s -> active s c <> None -> cclosed s c = true.
Proof.
  intros s H c Hc Ha. unfold allActiveClosed in H. rewrite forallb_forall in H.
  specialize (H c). destruct (active s c); [|congruence]. apply H.
  apply in_map_iff. exists (N.to_nat c). split; [lia|]. apply in_seq. lia.
Qed.

Lemma astep_inv : forall s l s', AInv s -> astep s l = Some s' -> AInv s'.
Proof.
  intros s l s' I H. destruct l as [t i|t|t|t|t ok|t ok|t c|t|t c|t|c]; cbn [astep] in H.
  - destruct (pcs s t) eqn:E; try discriminate. inversion H; subst. apply setpc_inv; rewrite ?E; cbn; auto; congruence.
  - destruct (pcs s t) eqn:E; try discriminate. inversion H; subst. apply setpc_inv; rewrite ?E; cbn; auto; congruence.
  - destruct (pcs s t) eqn:E; try discriminate. inversion H; subst. apply setpc_inv; rewrite ?E; cbn; auto; congruence.
  - pose proof (i_pc s I t) as Hpc. destruct (pcs s t) eqn:E; try discriminate; cbn [pcok] in Hpc.
    + (* AIdx *) destruct (conns s i) eqn:EC; inversion H; subst; apply setpc_inv; rewrite ?E; cbn; auto; try congruence.
      apply (i_conns s I) in EC. tauto.
    + (* AWo *) destruct (mu s) eqn:EM; [discriminate|]. inversion H; subst. apply lock_inv; cbn; auto.
    + (* AWoLoad *) destruct (conns s i) eqn:EC; inversion H; subst; apply setpc_inv; rewrite ?E; cbn; auto; try congruence.
      apply (i_conns s I) in EC. tauto.
    + (* AWoClosed *) destruct (aclosed s) eqn:EC; inversion H; subst; apply setpc_inv; rewrite ?E; cbn; auto; try congruence.
      split; [assumption|]. destruct (closeRet s) eqn:ER; [|reflexivity]. destruct (i_ret s I ER). congruence.
    + (* AWoErrUnlock *) inversion H; subst. apply unlock_inv; rewrite ?E; cbn; auto.
    + (* AWoStore *) destruct Hpc as (Hn & Hc & Hi & Hr). rewrite Hn in H. inversion H; subst s'.
      assert (HO := others_not_holding s t I ltac:(rewrite E; reflexivity)).
      constructor; cbn.
      * intro t'. unfold upd. destruct (N.eqb_spec t' t) as [->|]; [|apply (i_mu s I)].
        rewrite <- (i_mu s I t), E. cbn. tauto.
      * intro t'. destruct (N.eq_dec t' t) as [->|Hne]; [rewrite upd_eq|rewrite upd_neq by assumption]; cbn.
        -- rewrite upd_eq. auto.
        -- specialize (HO t' Hne). pose proof (i_pc s I t') as HH.
           destruct (pcs s t'); cbn in *; try exact HH; try discriminate.
      * intros i0 c0. unfold upd. destruct (N.eqb_spec i0 i) as [->|]; [|apply (i_conns s I)].
        intro X; inversion X; subst. auto.
      * apply (i_active s I).
      * intros c0 Hc0. destruct (i_acc s I c0 Hc0) as [X|[X1 X2]]; [left; assumption|right]. split.
        -- destruct X1 as [X1|[t' X1]]; [left; assumption|right]. exists t'. unfold upd.
           destruct (N.eqb_spec t' t) as [->|]; [rewrite E in X1; exact X1|assumption].
        -- left. unfold upd. destruct X2 as [X2|(t' & i' & X2)].
           ++ destruct (N.eqb_spec (cidx s c0) i) as [Ei|]; [|assumption]. congruence.
           ++ destruct (N.eq_dec t' t) as [->|Hne].
              ** rewrite E in X2. inversion X2; subst. rewrite N.eqb_refl. reflexivity.
              ** specialize (HO t' Hne). rewrite X2 in HO. discriminate.
      * apply (i_ret s I).
    + (* AWoStore2 *) destruct Hpc as (Hn & Hc & Hi & Hr). inversion H; subst s'.
      assert (HO := others_not_holding s t I ltac:(rewrite E; reflexivity)).
      constructor; cbn.
      * intro t'. unfold upd. destruct (N.eqb_spec t' t) as [->|]; [|apply (i_mu s I)].
        rewrite <- (i_mu s I t), E. cbn. tauto.
      * intro t'. unfold upd. destruct (N.eqb_spec t' t) as [->|Hne]; cbn; [assumption|exact (i_pc s I t')].
      * apply (i_conns s I).
      * intros i0 c0. unfold upd. destruct (N.eqb_spec c0 c) as [->|]; [|apply (i_active s I)].
        intro X; inversion X; subst. auto.
      * intros c0 Hc0. destruct (i_acc s I c0 Hc0) as [X|[X1 X2]]; [left; assumption|right]. split.
        -- unfold upd. left. destruct (N.eqb_spec c0 c); [discriminate|].
           destruct X1 as [X1|[t' X1]]; [assumption|].
           destruct (N.eq_dec t' t) as [->|Hne]; [rewrite E in X1; cbn in X1; congruence|].
           specialize (HO t' Hne). apply storing_holding in X1. congruence.
        -- destruct X2 as [X2|(t' & i' & X2)]; [left; assumption|].
           destruct (N.eq_dec t' t) as [->|Hne]; [congruence|]. specialize (HO t' Hne). rewrite X2 in HO. discriminate.
      * apply (i_ret s I).
    + (* AWoUnlock *) inversion H; subst. apply unlock_inv; rewrite ?E; cbn; auto.
    + (* AWoUnlock2 *) inversion H; subst. apply unlock_inv; rewrite ?E; cbn; auto.
    + (* AScd *) inversion H; subst. apply setpc_inv; cbn; rewrite ?E; cbn; auto; try congruence.
      * apply close_inv. assumption.
      * rewrite upd_eq. auto.
    + (* AScdLock *) destruct (mu s) eqn:EM; [discriminate|]. inversion H; subst. apply lock_inv; cbn; auto.
    + (* AScdDel *) destruct Hpc as [Hc Hcl].
      destruct (conns s i) as [c'|] eqn:EC; [destruct (N.eqb_spec c' c) as [->|]|]; inversion H; subst s'; clear H;
        try (apply setpc_inv; rewrite ?E; cbn; auto; congruence).
      assert (HO := others_not_holding s t I ltac:(rewrite E; reflexivity)).
      constructor; cbn.
      * intro t'. unfold upd. destruct (N.eqb_spec t' t) as [->|]; [|apply (i_mu s I)].
        rewrite <- (i_mu s I t), E. cbn. tauto.
      * intro t'. destruct (N.eq_dec t' t) as [->|Hne]; [rewrite upd_eq|rewrite upd_neq by assumption]; cbn; [auto|].
        specialize (HO t' Hne). pose proof (i_pc s I t') as HH. destruct (pcs s t'); cbn in *; try exact HH; discriminate.
      * intros i0 c0. unfold upd. destruct (N.eqb_spec i0 i); [discriminate|apply (i_conns s I)].
      * apply (i_active s I).
      * intros c0 Hc0. destruct (i_acc s I c0 Hc0) as [X|[X1 X2]]; [left; assumption|].
        destruct (N.eq_dec c0 c) as [->|Hne]; [left; assumption|right]. split.
        -- destruct X1 as [X1|[t' X1]]; [left; assumption|right]. exists t'. unfold upd.
           destruct (N.eqb_spec t' t) as [->|]; [rewrite E in X1; destruct X1|assumption].
        -- destruct X2 as [X2|(t' & i' & X2)].
           ++ left. unfold upd. destruct (N.eqb_spec (cidx s c0) i) as [Ei|]; [|assumption]. rewrite Ei in X2. congruence.
           ++ right. exists t', i'. unfold upd. destruct (N.eqb_spec t' t) as [->|]; [congruence|assumption].
      * apply (i_ret s I).
    + (* AScdDel2 *) destruct Hpc as [Hc Hcl]. inversion H; subst s'; clear H.
      apply (unlock_inv (setactive s (upd (active s) c None))); cbn; rewrite ?E; cbn; auto.
      * constructor; cbn.
        -- apply (i_mu s I).
        -- intro t'. exact (i_pc s I t').
        -- apply (i_conns s I).
        -- intros i0 c0. unfold upd. destruct (N.eqb_spec c0 c); [discriminate|apply (i_active s I)].
        -- intros c0 Hc0. destruct (N.eq_dec c0 c) as [->|Hne]; [left; assumption|].
           rewrite upd_neq by assumption. apply (i_acc s I c0 Hc0).
        -- apply (i_ret s I).
      * destruct k; reflexivity.
      * destruct k; exact Logic.I.
    + (* AClose *) destruct (aclosed s) eqn:EA; inversion H; subst s'; clear H.
      * apply setpc_inv; rewrite ?E; cbn; auto; congruence.
      * apply setpc_inv; cbn; rewrite ?E; cbn; auto; try congruence.
        constructor; cbn.
        -- apply (i_mu s I).
        -- intro t'. pose proof (i_pc s I t') as HH. destruct (pcs s t'); cbn in *; try exact HH; congruence.
        -- apply (i_conns s I).
        -- apply (i_active s I).
        -- apply (i_acc s I).
        -- intro X. destruct (i_ret s I X). congruence.
    + (* ACloseLock *) destruct (mu s) eqn:EM; [discriminate|]. inversion H; subst. apply lock_inv; cbn; auto.
  - pose proof (i_pc s I t) as Hpc.
    destruct (pcs s t) eqn:E; try discriminate; cbn [pcok] in Hpc; inversion H; subst s'; clear H;
      apply setpc_inv; rewrite ?E; destruct ok; cbn; auto; congruence.
  - pose proof (i_pc s I t) as Hpc. destruct (pcs s t) eqn:E; try discriminate; cbn [pcok] in Hpc.
    destruct ok; inversion H; subst s'; clear H; [|apply setpc_inv; rewrite ?E; cbn; auto; congruence].
    assert (HO := others_not_holding s t I ltac:(rewrite E; reflexivity)). destruct Hpc as [Hn Hr].
    constructor; cbn.
    + intro t'. unfold upd. destruct (N.eqb_spec t' t) as [->|]; [|apply (i_mu s I)].
      rewrite <- (i_mu s I t), E. cbn. tauto.
    + intro t'. destruct (N.eq_dec t' t) as [->|Hne]; [rewrite upd_eq|rewrite upd_neq by assumption]; cbn.
      * rewrite upd_eq. repeat split; [assumption|lia|assumption].
      * specialize (HO t' Hne). pose proof (i_pc s I t') as HH.
        destruct (pcs s t'); cbn in *; try exact HH; try discriminate; try lia;
        destruct HH as [H1 H2]; (split; [lia|rewrite upd_neq by lia; exact H2]).
    + intros i0 c0 X. apply (i_conns s I) in X. destruct X as [X1 X2]. rewrite upd_neq by lia. split; [lia|assumption].
    + intros i0 c0 X. apply (i_active s I) in X. destruct X as [X1 X2]. rewrite upd_neq by lia. split; [lia|assumption].
    + intros c0 Hc0. destruct (N.eq_dec c0 (next s)) as [->|Hne].
      * right. rewrite upd_eq. split; [right|right]; exists t; rewrite upd_eq; [reflexivity|exists i; reflexivity].
      * rewrite !upd_neq by assumption. destruct (i_acc s I c0 ltac:(lia)) as [X|[X1 X2]]; [left; assumption|right].
        split.
        -- destruct X1 as [X1|[t' X1]]; [left; assumption|right]. exists t'. unfold upd.
           destruct (N.eqb_spec t' t) as [->|]; [rewrite E in X1; destruct X1|assumption].
        -- destruct X2 as [X2|(t' & i' & X2)]; [left; assumption|right]. exists t', i'. unfold upd.
           destruct (N.eqb_spec t' t) as [->|]; [congruence|assumption].
    + congruence.
  - destruct (pcs s t) eqn:E; try discriminate. destruct (active s c) eqn:EA; [|discriminate].
    inversion H; subst. apply setpc_inv; rewrite ?E; cbn; auto; try congruence. apply (i_active s I) in EA. tauto.
  - destruct (pcs s t) eqn:E; try discriminate. inversion H; subst. apply setpc_inv; rewrite ?E; cbn; auto; congruence.
  - destruct (pcs s t) eqn:E; try discriminate. destruct (active s c) eqn:EA; [|discriminate].
    inversion H; subst. apply close_inv. assumption.
  - pose proof (i_pc s I t) as Hpc. destruct (pcs s t) eqn:E; try discriminate; cbn [pcok] in Hpc.
    destruct (allActiveClosed s) eqn:EA; [|discriminate]. inversion H; subst s'; clear H.
    assert (HO := others_not_holding s t I ltac:(rewrite E; reflexivity)).
    assert (HAll : forall c, c < next s -> cclosed s c = true).
    { intros c Hc. destruct (i_acc s I c Hc) as [X|[[X|[t' X]] _]]; [assumption| |].
      - eapply allActive_spec; eassumption.
      - destruct (N.eq_dec t' t) as [->|Hne]; [rewrite E in X; destruct X|].
        specialize (HO t' Hne). apply storing_holding in X. congruence. }
    constructor; cbn.
    + intro t'. unfold upd. destruct (N.eqb_spec t' t) as [->|Hne]; [split; discriminate|].
      rewrite (HO t' Hne). split; discriminate.
    + intro t'. destruct (N.eq_dec t' t) as [->|Hne]; [rewrite upd_eq|rewrite upd_neq by assumption]; cbn; [exact Logic.I|].
      specialize (HO t' Hne). pose proof (i_pc s I t') as HH. destruct (pcs s t'); cbn in *; try exact HH; discriminate.
    + apply (i_conns s I).
    + apply (i_active s I).
    + intros c0 Hc0. left. apply HAll. assumption.
    + auto.
  - destruct (c <? next s); inversion H; subst. apply close_inv. assumption.
Qed.

Lemma apiInit_inv : forall dialed i s, AInv s -> (forall t, pcs s t = AIdle) -> closeRet s = false ->
  (forall j, i <= j -> conns s j = None) -> aclosed s = false -> (forall c, cclosed s c = false) ->
  AInv (apiInit dialed i s).
Proof.
  induction dialed as [|[|] r IH]; intros i s I Hp Hr Hc Ha Hcl; cbn [apiInit]; [assumption| |].
  - apply IH; cbn; auto.
    + constructor; cbn.
      * intro t. rewrite Hp. cbn. split; discriminate.
      * intro t. rewrite Hp. exact Logic.I.
      * intros i0 c0. unfold upd. destruct (N.eqb_spec i0 i) as [->|].
        -- intro X; inversion X; subst. rewrite N.eqb_refl. split; [lia|reflexivity].
        -- intro X. apply (i_conns s I) in X. destruct X. destruct (N.eqb_spec c0 (next s)); [lia|]. split; [lia|assumption].
      * intros i0 c0. unfold upd. destruct (N.eqb_spec c0 (next s)) as [->|].
        -- intro X; inversion X; subst. split; [lia|reflexivity].
        -- intro X. apply (i_active s I) in X. destruct X. split; [lia|assumption].
      * intros c0 Hc0. right. destruct (N.eq_dec c0 (next s)) as [->|Hne].
        -- rewrite !upd_eq. split; [left; discriminate|left; reflexivity].
        -- rewrite !(upd_neq _ _ _ _ _ Hne).
           destruct (i_acc s I c0 ltac:(lia)) as [X|[X1 X2]]; [congruence|].
           split.
           ++ destruct X1 as [X1|[t' X1]]; [left; assumption|rewrite Hp in X1; destruct X1].
           ++ destruct X2 as [X2|(t' & i' & X2)]; [|rewrite Hp in X2; discriminate].
              left. rewrite upd_neq; [assumption|]. intro Ei. rewrite Ei, (Hc i) in X2 by lia. discriminate.
      * discriminate.
    + intros j Hj. rewrite upd_neq by lia. apply Hc. lia.
  - apply IH; auto. intros j Hj. apply Hc. lia.
Qed.

Lemma newAPI_inv : forall dialed, AInv (newAPI dialed).
Proof.
  intro dialed. apply apiInit_inv; cbn; auto. constructor; cbn; try discriminate; auto.
  - intro t; split; discriminate.
  - intros c Hc. lia.
Qed.
