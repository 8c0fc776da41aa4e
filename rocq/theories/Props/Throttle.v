(** C35: SetThrottle, ClearThrottle, waitThrottle. *)
From Coq Require Import ZifyBool ZifyNat ZifyN.
From Verif Require Import Model.GoBase Model.Machine Model.Throttle.
Open Scope N_scope.

(** What C35 says of a state: no call panicked; when no SetThrottle/ClearThrottle call is in progress and the
    throttle is not on, no goroutine is held; when it is on, whoever now asks is held. *)
Definition throttleOk (s : thst) : Prop :=
  (forall g, tp s g <> TDead) /\
  (busy s = 0%nat -> (match cur s with Some (true, _) => False | _ => True end) ->
     forall g ch, tp s g = TWait ch -> chClosed s ch = true) /\
  (busy s = 0%nat -> forall ch, cur s = Some (true, ch) -> chClosed s ch = false).

Definition C35_statement : Prop := forall s, reachable thstep thinit s -> throttleOk s.

(** Two ClearThrottle calls at the same time close one channel twice. *)
Theorem C35_two_clears_panic :
  exists s, reachable thstep thinit s /\ tp s 2 = TDead.
Proof.
  eexists. split.
  - exists [TCallSet 1; TStep 1; TCallClear 1; TCallClear 2; TStep 1; TStep 2]. vm_compute. reflexivity.
  - vm_compute. reflexivity.
Qed.
Print Assumptions C35_two_clears_panic.

(** Two SetThrottle calls at the same time: the goroutine that waits on the first one's channel is never
    released by ClearThrottle. *)
Theorem C35_two_sets_lose_a_waiter :
  exists s, reachable thstep thinit s /\ busy s = 0%nat /\ (exists ch, cur s = Some (false, ch)) /\
    exists ch, tp s 3 = TWait ch /\ chClosed s ch = false.
Proof.
  eexists. split.
  - exists [TCallSet 1; TCallSet 2; TStep 1; TCallWait 3; TStep 2; TCallClear 1; TStep 1; TStep 1]. vm_compute. reflexivity.
  - vm_compute. split; [reflexivity|]. split; eexists; [reflexivity|]. split; reflexivity.
Qed.
Print Assumptions C35_two_sets_lose_a_waiter.

Theorem C35_refuted : ~ C35_statement.
Proof.
  intro H. destruct C35_two_clears_panic as (s & R & D). destruct (H s R) as (A & _). exact (A 2 D).
Qed.
Print Assumptions C35_refuted.

(** The invariant of the serialised machine. *)
Definition active (p : tpc) : bool := match p with TSetStore | TClrClose _ | TClrStore => true | _ => false end.

Record thinv (s : thst) : Prop := {
  t_nd : forall g, tp s g <> TDead;
  t_fresh : forall ch, nextCh s <= ch -> chClosed s ch = false;
  t_cur : forall on ch, cur s = Some (on, ch) -> ch < nextCh s;
  t_wlt : forall g ch, tp s g = TWait ch -> ch < nextCh s;
  (* a waiter's channel is closed or is the current one, which is on *)
  t_wait : forall g ch, tp s g = TWait ch -> chClosed s ch = true \/ cur s = Some (true, ch);
  t_idle : busy s = 0%nat -> (forall g, active (tp s g) = false);
  t_one : (busy s <= 1)%nat;
  t_who : busy s = 1%nat -> exists g0, active (tp s g0) = true /\ (forall g, active (tp s g) = true -> g = g0) /\
     match tp s g0 with
     | TSetStore => (forall ch, cur s <> Some (true, ch))
     | TClrClose ch => (exists on, cur s = Some (on, ch)) /\ chClosed s ch = false
     | TClrStore => exists on ch, cur s = Some (on, ch) /\ chClosed s ch = true
     | _ => True
     end;
  t_open : (forall g, tp s g <> TClrStore) -> forall on ch, cur s = Some (on, ch) -> chClosed s ch = false }.

Lemma thinv_init : thinv thinit.
Proof. split; cbn; intros; try discriminate; try reflexivity; lia. Qed.

Ltac updc g0 g := destruct (N.eq_dec g0 g) as [?E|?E]; [try subst g0; rewrite ?upd_eq in *|rewrite ?upd_neq in * by congruence].

Lemma thinv_step : forall s l s', thinv s -> thstepS s l = Some s' -> thinv s'.
Proof.
  intros s l s' [ND FR CU WL WT ID ON WH OP] H.
  assert (ACT : forall g, active (tp s g) = true -> busy s = 1%nat).
  { intros g E. destruct (busy s) as [|[|n]] eqn:B; [rewrite (ID eq_refl g) in E; discriminate|reflexivity|lia]. }
  destruct l as [g|g|g|g|g|g|]; cbn [thstepS thstep] in H.
  - (* Set *)
    destruct (Nat.eqb_spec (busy s) 0) as [B|]; [|discriminate]. destruct (tp s g) eqn:T; try discriminate.
    assert (G : forall (C : forall ch, cur s <> Some (true, ch)),
      thinv (mkTh (cur s) (chClosed s) (nextCh s) (upd (tp s) g TSetStore) (isDone s) (S (busy s)))).
    { intro C. split; cbn; auto.
      - intro g0. updc g0 g; [discriminate|apply ND].
      - intros g0 ch. updc g0 g; [discriminate|apply WL].
      - intros g0 ch. updc g0 g; [discriminate|apply WT].
      - discriminate.
      - lia.
      - intros _. exists g. rewrite upd_eq. split; [reflexivity|]. split; [|assumption].
        intros g0. updc g0 g; [reflexivity|]. rewrite (ID B). discriminate.
      - intros HN. apply OP. intros g0 E. specialize (HN g0). updc g0 g; [rewrite T in E; discriminate|contradiction]. }
    destruct (cur s) as [[[] ch]|] eqn:C; inversion H; subst; clear H.
    + split; auto; rewrite C; auto.
    + apply G. congruence.
    + apply G. congruence.
  - (* Clear *)
    destruct (Nat.eqb_spec (busy s) 0) as [B|]; [|discriminate]. destruct (tp s g) eqn:T; try discriminate.
    destruct (cur s) as [[on ch]|] eqn:C; inversion H; subst; clear H; [|split; auto; rewrite C; auto].
    assert (OPN : chClosed s ch = false).
    { apply (OP) with (on := on); [|reflexivity]. intros g0 E. pose proof (ID B g0) as X. rewrite E in X. discriminate. }
    split; cbn; auto.
    + intro g0. updc g0 g; [discriminate|apply ND].
    + intros g0 ch0. updc g0 g; [discriminate|apply WL].
    + intros g0 ch0. updc g0 g; [discriminate|apply WT].
    + discriminate.
    + lia.
    + intros _. exists g. rewrite upd_eq. split; [reflexivity|]. split; [|split; [exists on; reflexivity|assumption]].
      intros g0. updc g0 g; [reflexivity|]. rewrite (ID B). discriminate.
    + intros _ on0 ch0 E. inversion E; subst. assumption.
  - (* Wait *)
    destruct (tp s g) eqn:T; try discriminate.
    destruct (cur s) as [[[] ch]|] eqn:C; inversion H; subst; clear H;
      [|split; auto; rewrite C; auto|split; auto; rewrite C; auto].
    split; cbn; auto.
    + intro g0. updc g0 g; [discriminate|apply ND].
    + intros g0 ch0. updc g0 g; [|apply WL]. intro E. inversion E; subst. eapply CU. reflexivity.
    + intros g0 ch0. updc g0 g; [|apply WT]. intro E. inversion E; subst. right. reflexivity.
    + intros B g0. updc g0 g; [reflexivity|apply ID; assumption].
    + intros B. destruct (WH B) as (g0 & A1 & A2 & A3). exists g0.
      assert (g0 <> g) by (intro; subst; rewrite T in A1; discriminate). rewrite upd_neq by assumption.
      split; [assumption|]. split; [|assumption]. intros g1. updc g1 g; [discriminate|apply A2].
    + intros HN. apply OP. intros g0 E. specialize (HN g0). updc g0 g; [rewrite T in E; discriminate|contradiction].
  - (* Step *)
    destruct (tp s g) as [| |ch| |ch|] eqn:T; try discriminate.
    + (* set store *)
      assert (B : busy s = 1%nat) by (apply (ACT g); rewrite T; reflexivity).
      destruct (WH B) as (g0 & A1 & A2 & A3). assert (g0 = g) by (symmetry; apply A2; rewrite T; reflexivity). subst g0. rewrite T in A3.
      inversion H; subst; clear H. split; cbn.
      * intro g0. updc g0 g; [discriminate|apply ND].
      * intros ch Hc. apply FR. lia.
      * intros on ch E. inversion E; subst. lia.
      * intros g0 ch. updc g0 g; [discriminate|]. intro E0. specialize (WL _ _ E0). lia.
      * intros g0 ch. updc g0 g; [discriminate|]. intro E0. left. destruct (WT _ _ E0) as [|X]; [assumption|]. exfalso. exact (A3 ch X).
      * intros _ g0. updc g0 g; [reflexivity|]. destruct (active (tp s g0)) eqn:E0; [|reflexivity]. exfalso. apply E. apply A2. assumption.
      * lia.
      * rewrite B. discriminate.
      * intros _ on ch E. inversion E; subst. apply FR. lia.
    + (* clear close *)
      assert (B : busy s = 1%nat) by (apply (ACT g); rewrite T; reflexivity).
      destruct (WH B) as (g0 & A1 & A2 & A3). assert (g0 = g) by (symmetry; apply A2; rewrite T; reflexivity). subst g0. rewrite T in A3.
      destruct A3 as ((on & A3) & A4). rewrite A4 in H. inversion H; subst; clear H. split; cbn; auto.
      * intro g0. updc g0 g; [discriminate|apply ND].
      * intros ch0 Hc. rewrite upd_neq; [apply FR; assumption|]. specialize (CU _ _ A3). lia.
      * intros g0 ch0. updc g0 g; [discriminate|apply WL].
      * intros g0 ch0 E. updc g0 g; [discriminate|]. destruct (WT _ _ E) as [X|X]; [|right; assumption].
        left. unfold upd. destruct (ch0 =? ch); [reflexivity|assumption].
      * rewrite B. discriminate.
      * intros _. exists g. rewrite upd_eq. split; [reflexivity|]. split; [|exists on, ch; split; [assumption|apply upd_eq]].
        intros g0. updc g0 g; [reflexivity|apply A2].
      * intros HN. exfalso. apply (HN g). apply upd_eq.
    + (* clear store *)
      assert (B : busy s = 1%nat) by (apply (ACT g); rewrite T; reflexivity).
      destruct (WH B) as (g0 & A1 & A2 & A3). assert (g0 = g) by (symmetry; apply A2; rewrite T; reflexivity). subst g0. rewrite T in A3.
      destruct A3 as (on & ch & A3 & A4). inversion H; subst; clear H. split; cbn.
      * intro g0. updc g0 g; [discriminate|apply ND].
      * intros ch0 Hc. apply FR. lia.
      * intros on0 ch0 E. inversion E; subst. lia.
      * intros g0 ch0. updc g0 g; [discriminate|]. intro E0. specialize (WL _ _ E0). lia.
      * intros g0 ch0. updc g0 g; [discriminate|]. intro E0. left. destruct (WT _ _ E0) as [|X]; [assumption|]. congruence.
      * intros _ g0. updc g0 g; [reflexivity|]. destruct (active (tp s g0)) eqn:E0; [|reflexivity]. exfalso. apply E. apply A2. assumption.
      * lia.
      * rewrite B. discriminate.
      * intros _ on0 ch0 E. inversion E; subst. apply FR. lia.
  - (* pass *)
    destruct (tp s g) as [| |ch| |ch|] eqn:T; try discriminate. destruct (chClosed s ch); [|discriminate]. inversion H; subst; clear H.
    split; cbn; auto.
    + intro g0. updc g0 g; [discriminate|apply ND].
    + intros g0 ch0. updc g0 g; [discriminate|apply WL].
    + intros g0 ch0. updc g0 g; [discriminate|apply WT].
    + intros B g0. updc g0 g; [reflexivity|apply ID; assumption].
    + intros B. destruct (WH B) as (g0 & A1 & A2 & A3). exists g0.
      assert (g0 <> g) by (intro; subst; rewrite T in A1; discriminate). rewrite upd_neq by assumption.
      split; [assumption|]. split; [|assumption]. intros g1. updc g1 g; [discriminate|apply A2].
    + intros HN. apply OP. intros g0 E. specialize (HN g0). updc g0 g; [rewrite T in E; discriminate|contradiction].
  - destruct (tp s g) as [| |ch| |ch|] eqn:T; try discriminate. destruct (isDone s); [|discriminate]. inversion H; subst; clear H.
    split; cbn; auto.
    + intro g0. updc g0 g; [discriminate|apply ND].
    + intros g0 ch0. updc g0 g; [discriminate|apply WL].
    + intros g0 ch0. updc g0 g; [discriminate|apply WT].
    + intros B g0. updc g0 g; [reflexivity|apply ID; assumption].
    + intros B. destruct (WH B) as (g0 & A1 & A2 & A3). exists g0.
      assert (g0 <> g) by (intro; subst; rewrite T in A1; discriminate). rewrite upd_neq by assumption.
      split; [assumption|]. split; [|assumption]. intros g1. updc g1 g; [discriminate|apply A2].
    + intros HN. apply OP. intros g0 E. specialize (HN g0). updc g0 g; [rewrite T in E; discriminate|contradiction].
  - inversion H; subst; clear H. split; cbn; auto.
Qed.

Lemma threach : forall s, reachable thstepS thinit s -> thinv s.
Proof. intros s R. exact (reachable_inv thstepS thinv _ thinv_init thinv_step s R). Qed.

(** When the program does not run two SetThrottle/ClearThrottle calls at the same time (waiters unrestricted),
    C35 holds. *)
Theorem C35_serialised_partial : forall s, reachable thstepS thinit s -> throttleOk s.
Proof.
  intros s R. destruct (threach s R) as [ND FR CU WL WT ID ON WH OP]. split; [assumption|]. split.
  - intros B HC g ch E. destruct (WT _ _ E) as [|X]; [assumption|]. rewrite X in HC. contradiction.
  - intros B ch E. apply (OP) with (on := true); [|assumption]. intros g X. pose proof (ID B g) as Y. rewrite X in Y. discriminate.
Qed.
Print Assumptions C35_serialised_partial.

(** In terms of what the goroutines do, for the serialised machine: with the throttle on and nothing in
    progress, a goroutine that calls waitThrottle is held and can leave only through the done channel; once
    ClearThrottle is through, every held goroutine can leave. *)
Theorem C35_held_while_on_partial :
  forall s ch g, reachable thstepS thinit s -> busy s = 0%nat -> cur s = Some (true, ch) -> tp s g = TIdle ->
  exists s', thstepS s (TCallWait g) = Some s' /\ tp s' g = TWait ch /\ thstepS s' (TPass g) = None /\
    (isDone s = false -> thstepS s' (TPassDone g) = None).
Proof.
  intros s ch g R B C T. destruct (C35_serialised_partial s R) as (_ & _ & H). specialize (H B ch C).
  eexists. unfold thstepS, thstep at 1. rewrite T, C. split; [reflexivity|]. cbn. rewrite upd_eq, H.
  repeat split. intros ->. reflexivity.
Qed.
Print Assumptions C35_held_while_on_partial.

Theorem C35_released_by_clear_partial :
  forall s g, reachable thstepS thinit s -> busy s = 0%nat -> tp s g = TIdle -> cur s <> None ->
  exists s', run thstepS s [TCallClear g; TStep g; TStep g] = Some s' /\
    forall w ch, tp s' w = TWait ch -> exists s2, thstepS s' (TPass w) = Some s2 /\ tp s2 w = TIdle.
Proof.
  intros s g R B T C. destruct (cur s) as [[on ch]|] eqn:CE; [|congruence].
  destruct (threach s R) as [ND FR CU WL WT ID ON WH OP].
  assert (O : chClosed s ch = false).
  { apply (OP) with (on := on); [|assumption]. intros g0 X. pose proof (ID B g0) as Y. rewrite X in Y. discriminate. }
  assert (RR : exists s', run thstepS s [TCallClear g; TStep g; TStep g] = Some s' /\ busy s' = 0%nat /\ cur s' = Some (false, nextCh s)).
  { eexists. cbn [run]. unfold thstepS at 1. rewrite B. cbn [Nat.eqb]. unfold thstep at 1. rewrite T, CE.
    unfold thstepS at 1, thstep at 1. cbn [tp chClosed]. rewrite upd_eq, O. unfold thstepS at 1, thstep at 1. cbn [tp]. rewrite upd_eq.
    split; [reflexivity|]. cbn. rewrite B. split; reflexivity. }
  destruct RR as (s' & R1 & B1 & C1). exists s'. split; [assumption|]. intros w c E.
  assert (R' : reachable thstepS thinit s').
  { destruct R as [a Ra]. exists (a ++ [TCallClear g; TStep g; TStep g]). rewrite run_app, Ra. assumption. }
  destruct (C35_serialised_partial s' R') as (_ & H & _). rewrite C1 in H. specialize (H B1 I w c E).
  eexists. unfold thstepS, thstep. rewrite E, H. split; [reflexivity|]. cbn. apply upd_eq.
Qed.
Print Assumptions C35_released_by_clear_partial.

(** throttle on, two goroutines held, throttle off, both can leave; on again with another channel *)
Example C35_example :
  match run thstepS thinit [TCallClear 1; TCallSet 1; TStep 1; TCallWait 5; TCallWait 6; TCallSet 1; TCallClear 1; TStep 1; TStep 1] with
  | Some s => busy s = 0%nat /\ tp s 5 = TWait 0 /\ tp s 6 = TWait 0 /\ chClosed s 0 = true /\ cur s = Some (false, 1) /\
      match run thstepS s [TPass 5; TCallSet 2; TStep 2; TCallWait 5; TPass 6] with
      | Some s2 => tp s2 5 = TWait 2 /\ tp s2 6 = TIdle /\ thstepS s2 (TPass 5) = None
      | None => False
      end
  | None => False
  end.
Proof. vm_compute. repeat split. Qed.
