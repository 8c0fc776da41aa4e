(** More invariants of the write-combining machine: the reference count, failed writes, progress and the measure. *)
From Verif Require Import Model.GoBase Model.Machine Model.WriteCombine Spec.OrderSpec Proofs.WriteCombineP.
From Coq Require Import ZifyBool ZifyNat ZifyN.
Open Scope N_scope.

(** *** The reference count, once serve has run first *)

Definition sect (p : wpc) : bool :=
  match p with
  | QColl _ _ | QWrite _ | QErr _ _ | QUntr _ _ | QWaitU _ _ | QCls _ _ | QCan _ _ | QAns _ _ | QWait _ | QFree _ _ => true
  | _ => false
  end.
Definition inc (p : wpc) : bool := match p with QBack => true | _ => sect p end.
Definition b2z (b : bool) : Z := if b then 1%Z else 0%Z.
Arguments b2z : simpl never.
Definition running (s : wst) : bool := match rd s with RRun => true | _ => false end.

(** the state after serve has started the reader *)
Definition served : wst := w_rd RRun (w_infl 1%Z winit).

Record sinv (s : wst) : Prop := mkSinv {
  r_rd : rd s <> RNot;
  r_infl : infl s = (b2z (running s) + b2z (atLock false inc s))%Z;
  r_back : forall w, pc s w = QBack \/ pc s w = QStuck -> running s = false;
  r_rel : released s = if running s || atLock false sect s then 0%nat else 1%nat;
  r_late : late s = false;
  r_quit : running s = false -> clsd s = true \/ ctxD s = true }.

Lemma sinv_served : sinv served.
Proof. split; cbn; try discriminate; try reflexivity. intros w [A|A]; discriminate. Qed.

Lemma sect_crit : forall p, sect p = true -> crit p = true.
Proof. destruct p; cbn; congruence. Qed.
Lemma inc_crit : forall p, inc p = true -> crit p = true.
Proof. destruct p; cbn; congruence. Qed.

(** *** A step of a call changes the place of that call only *)
Lemma cstep_pc : forall cap s w c s' x, cstep cap s w c = Some s' -> x <> w -> pc s' x = pc s x.
Proof. intros cap s w c s' x H NE. cases H; cbn; rewrite ?upd_neq by assumption; reflexivity. Qed.

Ltac lkq I :=
  match goal with
  | EP : pc ?s ?w = ?p |- _ =>
    let b := eval cbn in (crit p) in
    match b with
    | true => let A := fresh "HLk" in assert (A : lock s = Some w) by (refine (v_crit _ s I w _); rewrite EP; reflexivity)
    | _ => let A := fresh "HNl" in try (assert (A : lock s <> Some w) by (refine (not_holder _ s w I _ _); rewrite EP; [reflexivity|discriminate]))
    end
  end.

Lemma useCs_not : forall st s, released s = 0%nat -> useCs st s = s.
Proof. intros st s E. unfold useCs. rewrite E. rewrite andb_false_r. reflexivity. Qed.

Lemma cstep_flags : forall cap s w c s', cstep cap s w c = Some s' ->
  rd s' = rd s /\ (clsd s = true -> clsd s' = true) /\ (ctxD s = true -> ctxD s' = true) /\ (failed s = true -> failed s' = true) /\ (utch s = true -> utch s' = true).
Proof. intros cap s w c s' H. cases H; cbn; repeat split; auto; congruence. Qed.

(** the count and the releases at a step of a call *)
Lemma cstep_count : forall cap s w c s', cstep cap s w c = Some s' ->
  (released s' = released s /\ infl s' = (infl s + b2z (inc (pc s' w)) - b2z (inc (pc s w)))%Z /\ (sect (pc s w) = sect (pc s' w) \/ (pc s w = QInf /\ infl s <> 0%Z /\ sect (pc s' w) = true))
   /\ (pc s' w = QBack -> infl s = 0%Z) /\ (pc s' w = QStuck -> pc s w = QBack)) \/
  (sect (pc s w) = true /\ inc (pc s' w) = false /\ pc s' w <> QStuck /\ infl s' = (infl s - 1)%Z /\ released s' = if (infl s - 1 =? 0)%Z then S (released s) else released s).
Proof.
  intros cap s w c s' H.
  unfold cstep in H; destruct (pc s w) eqn:EP; destruct c; try discriminate H;
  repeat match type of H with
    | context [match ?x with _ => _ end] => destruct x eqn:?; try discriminate H
    end;
  try match type of H with context [useCs ?st ?t] => let v := fresh "v" in let E := fresh "EU" in destruct (useCs_late st t) as [v E]; rewrite E in H; clear E end;
  inversion H; subst; clear H; cbn; rewrite ?upd_eq; cbn.
  all: try (left; unfold b2z; repeat split; try lia; try discriminate; auto; fail).
  - left. cbn in Heqb. unfold b2z. repeat split; try lia; try discriminate; auto.
  - left. cbn in Heqb. unfold b2z. repeat split; try lia; try discriminate; auto. right. repeat split. lia.
  - right. unfold tryFree. cbn. destruct (infl s - 1 =? 0)%Z; cbn; rewrite ?upd_eq; repeat split; discriminate.
  - right. unfold tryFree. cbn. destruct (infl s - 1 =? 0)%Z; cbn; rewrite ?upd_eq; repeat split; discriminate.
Qed.

Lemma cstep_late : forall cap s w c s', cstep cap s w c = Some s' -> released s = 0%nat \/ sect (pc s w) = false -> late s' = late s.
Proof.
  intros cap s w c s' H R.
  unfold cstep in H; destruct (pc s w) eqn:EP; destruct c; try discriminate H;
  repeat match type of H with
    | context [match ?x with _ => _ end] => destruct x eqn:?; try discriminate H
    end; unfold tryFree in H; cbn in H;
  try rewrite useCs_not in H by (cbn; destruct R; [assumption|discriminate]);
  inversion H; subst; clear H; cbn; auto; destruct (_ =? 0)%Z; reflexivity.
Qed.

(** what holds at the holder, before and after a step of w *)
Lemma cstep_atLock : forall cap s w c s' (h : wpc -> bool), winv cap s -> cstep cap s w c = Some s' -> (forall p, h p = true -> crit p = true) ->
  (atLock false h s = h (pc s w) /\ atLock false h s' = h (pc s' w)) \/
  (atLock false h s' = atLock false h s /\ h (pc s w) = false /\ h (pc s' w) = false).
Proof.
  intros cap s w c s' h I H HH.
  assert (I' : winv cap s') by (eapply cstep_inv; eassumption).
  assert (F : forall p, crit p = false -> h p = false).
  { intros p E. destruct (h p) eqn:X; [|reflexivity]. apply HH in X. congruence. }
  assert (G : forall t, winv cap t -> h (pc t w) = true -> atLock false h t = h (pc t w)).
  { intros t J E. unfold atLock. rewrite (v_crit cap t J w (HH _ E)). reflexivity. }
  assert (OT : forall g, g <> w -> pc s' g = pc s g) by (intros; eapply cstep_pc; eassumption).
  destruct (h (pc s w)) eqn:E1; destruct (h (pc s' w)) eqn:E2.
  - left. rewrite (G s I E1), (G s' I' E2). auto.
  - left. split; [rewrite (G s I E1); auto|]. unfold atLock. destruct (lock s') as [g|] eqn:EL; [|reflexivity].
    destruct (N.eq_dec g w) as [->|NE]; [assumption|]. rewrite OT by assumption. apply F.
    destruct (crit (pc s g)) eqn:EC; [|reflexivity]. pose proof (v_crit cap s I g EC). pose proof (v_crit cap s I w (HH _ E1)). congruence.
  - left. split; [|rewrite (G s' I' E2); auto]. unfold atLock. destruct (lock s) as [g|] eqn:EL; [|reflexivity].
    destruct (N.eq_dec g w) as [->|NE]; [assumption|]. apply F.
    destruct (crit (pc s g)) eqn:EC; [|reflexivity]. rewrite <- OT in EC by assumption. pose proof (v_crit cap s' I' g EC). pose proof (v_crit cap s' I' w (HH _ E2)). congruence.
  - right. split; [|auto]. unfold atLock.
    assert (LX : lock s' = lock s \/ (lock s = None /\ lock s' = Some w) \/ (lock s = Some w /\ lock s' = None)).
    { clear - H I. cases H; cbn; auto; right; right; (split; [|reflexivity]); refine (v_crit _ s I w _); rewrite EP; reflexivity. }
    destruct LX as [L|[[L1 L2]|[L1 L2]]].
    + rewrite L. destruct (lock s) as [g|]; [|reflexivity]. destruct (N.eq_dec g w) as [->|NE]; [congruence|rewrite OT by assumption; reflexivity].
    + rewrite L1, L2. assumption.
    + rewrite L1, L2. auto.
Qed.

Lemma cstep_sinv : forall cap s w c s', winv cap s -> sinv s -> cstep cap s w c = Some s' -> sinv s'.
Proof.
  intros cap s w c s' I [S1 S2 S3 S4 S5 S6] H.
  destruct (cstep_flags cap s w c s' H) as (F1 & F2 & F3 & _).
  assert (RN : running s' = running s) by (unfold running; rewrite F1; reflexivity).
  pose proof (cstep_count cap s w c s' H) as CT.
  pose proof (cstep_atLock cap s w c s' inc I H inc_crit) as AI.
  pose proof (cstep_atLock cap s w c s' sect I H sect_crit) as AS.
  assert (WK : crit (pc s w) = true -> forall h : wpc -> bool, atLock false h s = h (pc s w)).
  { intros E h. unfold atLock. rewrite (v_crit cap s I w E). reflexivity. }
  split; rewrite ?RN, ?F1; auto.
  - destruct CT as [(A & B & _)|(A & B & _ & C & _)]; [rewrite B, S2; destruct AI as [[X Y]|[X [Y Z]]]; [rewrite X, Y; ring|rewrite X, Y, Z; ring]|].
    rewrite C, S2. assert (A' : inc (pc s w) = true) by (destruct (pc s w); cbn in *; congruence).
    destruct AI as [[X Y]|[X [Y Z]]]; [rewrite X, Y, A', B; unfold b2z; ring|congruence].
  - intros x HX. destruct (N.eq_dec x w) as [->|NE]; [|rewrite (cstep_pc _ _ _ _ _ x H NE) in HX; exact (S3 x HX)].
    destruct CT as [(_ & _ & _ & A & B)|(_ & A & B & _)].
    + destruct HX as [HX|HX]; [specialize (A HX)|apply (S3 w); auto]. rewrite S2 in A. unfold b2z in A. destruct (running s); [|reflexivity]. destruct (atLock false inc s); discriminate A.
    + destruct HX as [HX|HX]; [rewrite HX in A; discriminate|congruence].
  - destruct CT as [(A & B & C & _)|(A & B & _ & C & D)].
    + rewrite A, S4. destruct C as [C|(C1 & C2 & C3)].
      * destruct AS as [[X Y]|[X _]]; [rewrite X, Y, C|rewrite X]; reflexivity.
      * assert (R : running s = true). { rewrite S2, (WK ltac:(rewrite C1; reflexivity)), C1 in C2. unfold b2z in C2. cbn in C2. destruct (running s); [reflexivity|contradiction C2; reflexivity]. }
        rewrite R. reflexivity.
    + rewrite D, S4, S2, !(WK (sect_crit _ A)), A. assert (A' : inc (pc s w) = true) by (destruct (pc s w); cbn in *; congruence). rewrite A'.
      assert (SX : sect (pc s' w) = false) by (destruct (pc s' w); cbn in *; congruence).
      destruct AS as [[X Y]|[X [Y Z]]]; [|congruence]. rewrite Y, SX. unfold b2z. destruct (running s); reflexivity.
  - rewrite <- S5. apply (cstep_late cap s w c s' H). destruct (sect (pc s w)) eqn:E; [left|auto].
    rewrite S4, !(WK (sect_crit _ E)), E, orb_true_r. reflexivity.
  - intros E. destruct (S6 E) as [Z|Z]; auto.
Qed.

Lemma sinv_start : forall cap s w, winv cap s -> sinv s -> pc s w = QIdle -> sinv (start w s).
Proof.
  intros cap s w I [S1 S2 S3 S4 S5 S6] EP. assert (NL : lock s <> Some w).
  { apply (not_holder cap s w I); rewrite EP; [reflexivity|discriminate]. }
  assert (HH : forall A d (h : wpc -> A), atLock d h (start w s) = atLock d h s).
  { intros. unfold atLock. cbn. destruct (lock s) as [g|]; [rewrite upd_neq by congruence|]; reflexivity. }
  split; rewrite ?HH; cbn; auto.
  intros x HX. destruct (N.eq_dec x w) as [->|NE]; [rewrite upd_eq in HX; destruct HX; discriminate|rewrite upd_neq in HX by assumption; apply (S3 x HX)].
Qed.

Lemma sinv_flags : forall s s', sinv s -> pc s' = pc s -> lock s' = lock s -> infl s' = infl s -> rd s' = rd s -> released s' = released s -> late s' = late s ->
  (clsd s = true -> clsd s' = true) -> (ctxD s = true -> ctxD s' = true) -> sinv s'.
Proof.
  intros s s' [S1 S2 S3 S4 S5 S6] E1 E2 E3 E4 E5 E6 M1 M2.
  assert (HH : forall A d (h : wpc -> A), atLock d h s' = atLock d h s) by (intros; unfold atLock; rewrite E1, E2; reflexivity).
  assert (RN : running s' = running s) by (unfold running; rewrite E4; reflexivity).
  split; rewrite ?HH, ?RN, ?E1, ?E3, ?E4, ?E5, ?E6; auto. intros E. destruct (S6 E) as [Z|Z]; auto.
Qed.

Lemma wstep_sinv : forall cap s l s', winv cap s -> sinv s -> wstep cap s l = Some s' -> sinv s'.
Proof.
  intros cap s l s' I S H. destruct l; cbn in H.
  - destruct (isIdle (pc s w)) eqn:E; [|discriminate]. inversion H; subst. apply (sinv_start cap); auto. destruct (pc s w); [reflexivity|discriminate..].
  - eapply cstep_sinv; eassumption.
  - destruct S as [S1 _ _ _ _ _]. destruct (rd s); congruence.
  - destruct (rd s) eqn:ER; try discriminate. assert (R0 : released s = 0%nat). { rewrite (r_rel s S). unfold running. rewrite ER. reflexivity. }
    rewrite useCs_not in H by assumption. congruence.
  - destruct S as [S1 S2 S3 S4 S5 S6]. unfold running in *. destruct (rd s) eqn:ER; try discriminate. destruct (clsd s || ctxD s)%bool eqn:EC; [|discriminate]. inversion H; subst; clear H.
    assert (AI : atLock false inc s = atLock false sect s).
    { unfold atLock. destruct (lock s) as [g|]; [|reflexivity]. destruct (pc s g) eqn:EG; try reflexivity. specialize (S3 g (or_introl EG)). discriminate. }
    unfold tryFree. cbn. rewrite S2. cbn in S4. unfold b2z in *. rewrite AI in *.
    assert (LA : forall A (h : wpc -> A) d b r i, atLock d h (w_released r (w_infl i (w_rd b s))) = atLock d h s) by reflexivity.
    assert (LB : forall A (h : wpc -> A) d b i, atLock d h (w_infl i (w_rd b s)) = atLock d h s) by reflexivity.
    destruct (atLock false sect s) eqn:AS; cbn; split; unfold running; cbn; rewrite ?LA, ?LB, ?AI, ?AS, ?S4; auto; try discriminate.
    + intros _. apply orb_prop in EC. tauto.
    + intros _. apply orb_prop in EC. tauto.
  - destruct (untr s) eqn:EU; [discriminate|]. inversion H; subst. apply (sinv_flags s _ S); auto.
  - destruct (utch s) eqn:EU; [|discriminate]. inversion H; subst. apply (sinv_flags s _ S); auto.
  - destruct (clsd s) eqn:EU; [|discriminate]. inversion H; subst. apply (sinv_flags s _ S); auto.
  - inversion H; subst. apply (sinv_flags s _ S); auto.
  - destruct (untr s) eqn:EU; [discriminate|]. inversion H; subst. apply (sinv_flags s _ S); auto.
  - destruct (kcb s) eqn:EK; [discriminate|]. destruct (kicking s && isIdle (pc s w))%bool eqn:E; [|discriminate]. inversion H; subst. apply andb_prop in E.
    destruct E as [E1 E2]. apply (sinv_flags (start w s)); auto. apply (sinv_start cap); auto. destruct (pc s w); [reflexivity|discriminate..].
  - destruct (kcb s) eqn:EK; [|discriminate]. destruct (pc s n); try discriminate. inversion H; subst. apply (sinv_flags s _ S); auto.
  - destruct (kcb s) eqn:EK; [discriminate|]. destruct (kicking s) eqn:E; [|discriminate]. inversion H; subst. apply (sinv_flags s _ S); auto.
Qed.

Lemma served_step : forall cap, wstep cap winit EServe = Some served.
Proof. reflexivity. Qed.

Lemma both_reachable : forall cap s, reachable (wstep cap) served s -> winv cap s /\ sinv s.
Proof.
  intros cap s HR. apply (reachable_inv (wstep cap) (fun s => winv cap s /\ sinv s) served).
  - split; [|apply sinv_served]. exact (wstep_inv cap winit EServe served (winv_init cap) (served_step cap)).
  - intros t l t' [I S] H. split; [eapply wstep_inv; eassumption|eapply wstep_sinv; eassumption].
  - assumption.
Qed.

(** *** After a failed write nothing more is written *)
Definition dead (p : wpc) : bool :=
  match p with
  | QErr _ _ | QUntr _ _ | QWaitU _ _ | QCls _ _ | QCan _ _ | QAns _ false | QWait false | QFree false _ | QDone _ => true
  | _ => false
  end.
Definition finv (s : wst) : Prop := failed s = true -> atLock false dead s = true.

Lemma cstep_dead : forall cap s w c s', winv cap s -> cstep cap s w c = Some s' ->
  atLock false dead s = true -> wire s' = wire s /\ failed s' = failed s /\ atLock false dead s' = true.
Proof.
  intros cap s w c s' I H D. unfold atLock in *. destruct (lock s) as [g|] eqn:EL; [|discriminate].
  destruct (N.eq_dec g w) as [->|NE].
  - cases H; cbn; rewrite ?EP in *; try discriminate D; rewrite ?EL, ?upd_eq; cbn; auto; try (destruct ok; try discriminate; auto).
    all: cbn in D; try discriminate D; rewrite ?EL, ?upd_eq; auto.
  - cases H; lkq I; try congruence; cbn; rewrite ?EL, ?upd_neq by assumption; auto.
Qed.

Lemma cstep_finv : forall cap s w c s', winv cap s -> finv s -> cstep cap s w c = Some s' -> finv s'.
Proof.
  intros cap s w c s' I F H E. destruct (failed s) eqn:EF; [exact (proj2 (proj2 (cstep_dead cap s w c s' I H (F EF))))|].
  clear F. unfold atLock. cases H; lkq I; cbn in *; try congruence. rewrite HLk, upd_eq. reflexivity.
Qed.

(** labels other than the steps of calls *)
Lemma wstep_other : forall cap s l s', winv cap s -> wstep cap s l = Some s' -> (forall w c, l <> WStep w c) ->
  wire s' = wire s /\ failed s' = failed s /\ lock s' = lock s /\ wq s' = wq s /\ rs s' = rs s /\ enq s' = enq s /\
  (forall w, pc s w <> QIdle -> pc s' w = pc s w) /\ (forall A d (h : wpc -> A), atLock d h s' = atLock d h s) /\
  (forall w, pc s' w <> QIdle -> pc s' w = QEnq \/ pc s' w = pc s w).
Proof.
  intros cap s l s' I H NS.
  assert (ST : forall w, pc s w = QIdle -> (forall x, pc s x <> QIdle -> upd (pc s) w QEnq x = pc s x) /\ (forall A d (h : wpc -> A), atLock d h (start w s) = atLock d h s) /\
     (forall x, upd (pc s) w QEnq x <> QIdle -> upd (pc s) w QEnq x = QEnq \/ upd (pc s) w QEnq x = pc s x)).
  { intros w EP. assert (NL : lock s <> Some w) by (apply (not_holder cap s w I); rewrite EP; [reflexivity|discriminate]). repeat split.
    - intros x HX. apply upd_neq. congruence.
    - intros. unfold atLock. cbn. destruct (lock s) as [g|]; [rewrite upd_neq by congruence|]; reflexivity.
    - intros x _. destruct (N.eq_dec x w) as [->|NE]; [rewrite upd_eq; auto|rewrite upd_neq by assumption; auto]. }
  destruct l; cbn in H; try (contradiction (NS w c); reflexivity).
  - destruct (isIdle (pc s w)) eqn:E; [|discriminate]. inversion H; subst. destruct (ST w) as (A & B & C); [destruct (pc s w); [reflexivity|discriminate..]|].
    repeat split; auto.
  - destruct (rd s); try discriminate; inversion H; subst; repeat split; auto.
  - destruct (rd s); try discriminate. inversion H; subst. destruct (useCs_late true s) as [v E]. rewrite E. repeat split; auto.
  - destruct (rd s); try discriminate. destruct (clsd s || ctxD s)%bool; [|discriminate]. inversion H; subst. destruct (tryFree_eq (w_rd RQuit s)) as [v E]. rewrite E. repeat split; auto.
  - destruct (untr s); [discriminate|]. inversion H; subst. repeat split; auto.
  - destruct (utch s); [|discriminate]. inversion H; subst. repeat split; auto.
  - destruct (clsd s); [|discriminate]. inversion H; subst. repeat split; auto.
  - inversion H; subst. repeat split; auto.
  - destruct (untr s); [discriminate|]. inversion H; subst. repeat split; auto.
  - destruct (kcb s); [discriminate|]. destruct (kicking s && isIdle (pc s w))%bool eqn:E; [|discriminate]. inversion H; subst. apply andb_prop in E. destruct E as [_ E].
    destruct (ST w) as (A & B & C); [destruct (pc s w); [reflexivity|discriminate..]|]. repeat split; auto.
  - destruct (kcb s); [|discriminate]. destruct (pc s n); try discriminate. inversion H; subst. repeat split; auto.
  - destruct (kcb s); [discriminate|]. destruct (kicking s); [|discriminate]. inversion H; subst. repeat split; auto.
Qed.

Lemma label_dec : forall l, (exists w c, l = WStep w c) \/ (forall w c, l <> WStep w c).
Proof. destruct l; try (right; discriminate). left. eauto. Qed.

Lemma wstep_finv : forall cap s l s', winv cap s -> finv s -> wstep cap s l = Some s' -> finv s'.
Proof.
  intros cap s l s' I F H. destruct (label_dec l) as [(w & c & ->)|NS]; [eapply cstep_finv; eassumption|].
  destruct (wstep_other cap s l s' I H NS) as (_ & A & _ & _ & _ & _ & _ & B & _). intros E. rewrite B. apply F. congruence.
Qed.

Lemma finv_reachable : forall cap s, reachable (wstep cap) winit s -> winv cap s /\ finv s.
Proof.
  intros cap s HR. apply (reachable_inv (wstep cap) (fun s => winv cap s /\ finv s) winit).
  - split; [apply winv_init|discriminate].
  - intros t l t' [I F] H. split; [eapply wstep_inv; eassumption|eapply wstep_finv; eassumption].
  - assumption.
Qed.

Lemma dead_run : forall cap ls s s', winv cap s -> atLock false dead s = true -> run (wstep cap) s ls = Some s' -> wire s' = wire s.
Proof.
  intros cap. induction ls as [|l ls IH]; intros s s' I D H; cbn in H; [congruence|].
  destruct (wstep cap s l) as [t|] eqn:E; [|discriminate].
  assert (J : winv cap t) by (eapply wstep_inv; eassumption).
  destruct (label_dec l) as [(w & c & ->)|NS].
  - destruct (cstep_dead cap s w c t I E D) as (A & _ & B). rewrite (IH t s' J B H). assumption.
  - destruct (wstep_other cap s l t I E NS) as (A & _ & _ & _ & _ & _ & _ & B & _). rewrite (IH t s' J (eq_trans (B _ _ _) D) H). assumption.
Qed.

(** *** A call takes boundedly many steps *)
Definition wt (cap : nat) (p : wpc) : nat :=
  match p with
  | QIdle | QDone _ => 0
  | QEnq => 15 + 2 * cap
  | QSel => 14 + 2 * cap
  | QHold => 13 + 2 * cap
  | QRel => 2 | QRecv => 1
  | QInf => 12 + 2 * cap
  | QBack => 2 | QStuck => 1
  | QColl i k => 11 + length k + 2 * (cap - i)
  | QWrite k => 10 + length k
  | QErr k _ => 9 + length k
  | QUntr k _ => 8 + length k
  | QWaitU k _ => 7 + length k
  | QCls k _ => 6 + length k
  | QCan k _ => 5 + length k
  | QAns a _ => 4 + length a
  | QWait _ => 3 | QFree _ _ => 2 | QUnl _ => 1
  end%nat.

Lemma failAns_len : forall k n, length (failAns k n) = length k.
Proof. intros. rewrite <- (fst_failAns k n) at 2. rewrite map_length. reflexivity. Qed.

Lemma cstep_wt : forall cap s w c s', cstep cap s w c = Some s' -> (wt cap (pc s' w) < wt cap (pc s w))%nat.
Proof.
  intros cap s w c s' H. cases H; cbn [pc go put w_pc w_rs w_wq w_lock w_enq w_late w_infl w_wire w_failed w_utch w_untr w_clsd w_ctxD w_released]; rewrite upd_eq; cbn [wt];
    rewrite ?failAns_len, ?map_length, ?app_length; cbn [length map]; rewrite ?map_length; try lia.
Qed.

Fixpoint steps (w : N) (ls : list wlabel) : nat :=
  match ls with
  | [] => 0
  | WStep x _ :: ls => if (x =? w)%N then S (steps w ls) else steps w ls
  | _ :: ls => steps w ls
  end.

Lemma steps_wt : forall cap ls s s' w, winv cap s -> pc s w <> QIdle -> run (wstep cap) s ls = Some s' -> (steps w ls + wt cap (pc s' w) <= wt cap (pc s w))%nat.
Proof.
  intros cap. induction ls as [|l ls IH]; intros s s' w I NI H; cbn in H; [inversion H; subst; cbn; lia|].
  destruct (wstep cap s l) as [t|] eqn:E; [|discriminate].
  assert (J : winv cap t) by (eapply wstep_inv; eassumption).
  destruct (label_dec l) as [(x & c & ->)|NS].
  - cbn in E. cbn. destruct (N.eqb_spec x w) as [->|NE].
    + pose proof (cstep_wt cap s w c t E). assert (NT : pc t w <> QIdle). { apply (cs_calls cap s w c t E). assumption. } specialize (IH t s' w J NT H). lia.
    + pose proof (cstep_pc cap s x c t w E ltac:(congruence)) as EQ. rewrite <- EQ. apply IH; auto. congruence.
  - destruct (wstep_other cap s l t I E NS) as (_ & _ & _ & _ & _ & _ & A & _). specialize (A w NI). rewrite <- A.
    replace (steps w (l :: ls)) with (steps w ls) by (destruct l; try reflexivity; contradiction (NS w0 c); reflexivity). apply IH; auto. congruence.
Qed.

Lemma steps_idle : forall cap ls s s' w, winv cap s -> pc s w = QIdle -> run (wstep cap) s ls = Some s' -> (steps w ls + wt cap (pc s' w) <= 15 + 2 * cap)%nat.
Proof.
  intros cap. induction ls as [|l ls IH]; intros s s' w I EI H; cbn in H; [inversion H; subst; rewrite EI; cbn; lia|].
  destruct (wstep cap s l) as [t|] eqn:E; [|discriminate].
  assert (J : winv cap t) by (eapply wstep_inv; eassumption).
  destruct (label_dec l) as [(x & c & ->)|NS].
  - cbn in E. cbn. destruct (N.eqb_spec x w) as [->|NE]; [unfold cstep in E; rewrite EI in E; discriminate|].
    pose proof (cstep_pc cap s x c t w E ltac:(congruence)) as EQ. apply (IH t s' w J); congruence.
  - replace (steps w (l :: ls)) with (steps w ls) by (destruct l; try reflexivity; contradiction (NS w0 c); reflexivity).
    destruct (wstep_other cap s l t I E NS) as (_ & _ & _ & _ & _ & _ & _ & _ & A).
    assert (D : pc t w = QIdle \/ pc t w <> QIdle) by (destruct (pc t w); auto; right; discriminate). destruct D as [D|D]; [apply (IH t s' w J D H)|].
    destruct (A w D) as [B|B]; [|congruence]. pose proof (steps_wt cap ls t s' w J D H) as K. rewrite B in K. cbn [wt] in K. lia.
Qed.

(** *** Progress *)

(** the running holder of the lock is blocked only in two places *)
Lemma crit_enabled : forall cap s w, winv cap s -> crit (pc s w) = true ->
  (pc s w = QStuck -> ctxD s = true) -> (forall k n, pc s w = QWaitU k n -> utch s = true) ->
  exists c s', cstep cap s w c = Some s' /\ (failed s = false -> failed s' = false).
Proof.
  intros cap s w I HC H1 H2. destruct (pc s w) eqn:EP; try discriminate HC.
  - exists CGo. unfold cstep. rewrite EP. destruct (rs s w); eexists; split; reflexivity || auto.
  - exists CGo. unfold cstep. rewrite EP. eexists; split; reflexivity || auto.
  - exists CGo. unfold cstep. rewrite EP. cbn. destruct (_ =? 1)%Z; eexists; split; reflexivity || auto.
  - exists CGo. unfold cstep. rewrite EP. eexists; split; reflexivity || auto.
  - exists CCtx. unfold cstep. rewrite EP, H1 by reflexivity. eexists; split; reflexivity || auto.
  - destruct (i <? cap)%nat eqn:EI.
    + destruct (wq s) as [|x q] eqn:EQ.
      * destruct (ctxD s) eqn:EC.
        -- exists CCtx. unfold cstep. rewrite EP, EC, EI. eexists; split; reflexivity || auto.
        -- exists CDefault. unfold cstep. rewrite EP, EI, EQ, EC. eexists; split; reflexivity || auto.
      * exists (CKeep false). unfold cstep. rewrite EP, EQ, EI. eexists; split; reflexivity || auto.
    + exists CDefault. unfold cstep. rewrite EP, EI. eexists; split; reflexivity || auto.
  - destruct k as [|x k].
    + exists CGo. unfold cstep. rewrite EP. eexists; split; reflexivity || auto.
    + exists CWriteOk. unfold cstep. rewrite EP. eexists; split; reflexivity || auto.
  - exists CGo. unfold cstep. rewrite EP. destruct (untr s); eexists; split; reflexivity || auto.
  - exists CGo. unfold cstep. rewrite EP. destruct (untr s); eexists; split; reflexivity || auto.
  - exists CGo. unfold cstep. rewrite EP, (H2 k n) by reflexivity. eexists; split; reflexivity || auto.
  - exists CGo. unfold cstep. rewrite EP. destruct (clsd s); eexists; split; reflexivity || auto.
  - exists CGo. unfold cstep. rewrite EP. eexists; split; reflexivity || auto.
  - exists CGo. unfold cstep. rewrite EP. destruct a as [|[x r] a]; [eexists; split; reflexivity || auto|].
    assert (X : rs s x = None). { apply (v_in cap s I x). unfold Hd, atLock. rewrite (v_crit cap s I w) by (rewrite EP; reflexivity). rewrite EP. cbn. apply in_or_app. right. left. reflexivity. }
    rewrite X. eexists; split; reflexivity || auto.
  - exists CGo. unfold cstep. rewrite EP. pose proof (v_own cap s I w) as O. unfold own, has in O. rewrite EP in O.
    destruct (rs s w); [|congruence]. eexists; split; reflexivity || auto.
  - exists CGo. unfold cstep. rewrite EP. eexists; split; [reflexivity|]. destruct (tryFree_eq s) as [v E]. rewrite E. auto.
  - exists CGo. unfold cstep. rewrite EP. eexists; split; reflexivity || auto.
Qed.

Definition finished (p : wpc) : bool := match p with QIdle | QDone _ => true | _ => false end.

(** once the context is done, every call can go on by itself *)
Lemma ctx_enabled : forall cap s w, winv cap s -> ctxD s = true -> (utch s = true \/ failed s = false) -> finished (pc s w) = false ->
  exists c s', cstep cap s w c = Some s' /\ (failed s = false -> failed s' = false).
Proof.
  intros cap s w I HC HU NF. destruct (crit (pc s w)) eqn:EC.
  - apply crit_enabled; auto. intros k n EP. destruct HU as [HU|HU]; [assumption|]. pose proof (v_why cap s I w) as Y. unfold whyNot in Y. rewrite EP in Y. congruence.
  - destruct (pc s w) eqn:EP; try discriminate.
    + exists CCtx. unfold cstep. rewrite EP, HC. eexists; split; reflexivity || auto.
    + exists CCtx. unfold cstep. rewrite EP, HC. eexists; split; reflexivity || auto.
    + exists CGo. unfold cstep. rewrite EP. pose proof (v_own cap s I w) as O. unfold own, has in O. rewrite EP in O.
      destruct (rs s w); [|congruence]. eexists; split; reflexivity || auto.
Qed.

(** a call whose frame was queued returned without a result only if the context is done *)
Definition ninv (s : wst) : Prop := forall w, match pc s w with QDone None | QFree _ None | QUnl None => ctxD s = true | _ => True end.
Lemma wstep_ctx : forall cap s l s', wstep cap s l = Some s' -> ctxD s = true -> ctxD s' = true.
Proof.
  intros cap s l s' H C. destruct l; cbn in H; try (apply (cstep_flags cap s w c s' H); assumption);
    try match type of H with context [tryFree ?t] => let v := fresh "n" in let E := fresh "EF" in destruct (tryFree_eq t) as [v E]; rewrite E in H; clear E end;
    unfold useCs in H;
    repeat match type of H with context [match ?x with _ => _ end] => destruct x; try discriminate H end; inversion H; subst; auto.
Qed.
Lemma cstep_ninv : forall cap s w c s', ninv s -> cstep cap s w c = Some s' -> ninv s'.
Proof.
  intros cap s w c s' N H x. pose proof (wstep_ctx cap s (WStep w c) s' H) as M. destruct (N.eq_dec x w) as [->|NE].
  - pose proof (N w) as Y. cases H; cbn in *; rewrite ?upd_eq; auto; rewrite ?EP in Y; auto; try (destruct r; auto).
    apply andb_prop in Heqb. tauto.
  - rewrite (cstep_pc cap s w c s' x H NE). specialize (N x). destruct (pc s x); auto; destruct r; auto.
Qed.
Lemma wstep_ninv : forall cap s l s', winv cap s -> ninv s -> wstep cap s l = Some s' -> ninv s'.
Proof.
  intros cap s l s' I N H. destruct (label_dec l) as [(w & c & ->)|NS]; [eapply cstep_ninv; eassumption|].
  intros x. pose proof (wstep_ctx cap s l s' H) as M. destruct (wstep_other cap s l s' I H NS) as (_ & _ & _ & _ & _ & _ & _ & _ & A).
  specialize (A x). specialize (N x). destruct (pc s' x) eqn:E; auto; (destruct A as [A|A]; [discriminate|discriminate|]); rewrite <- A in N; destruct r; auto.
Qed.

Lemma all_reachable : forall cap s, reachable (wstep cap) served s -> winv cap s /\ sinv s /\ ninv s.
Proof.
  intros cap s HR. apply (reachable_inv (wstep cap) (fun s => winv cap s /\ sinv s /\ ninv s) served).
  - split; [|split; [apply sinv_served|intros w; exact Logic.I]]. exact (wstep_inv cap winit EServe served (winv_init cap) (served_step cap)).
  - intros t l t' (I & S & N) H. split; [eapply wstep_inv; eassumption|]. split; [eapply wstep_sinv; eassumption|eapply wstep_ninv; eassumption].
  - assumption.
Qed.

(** up, or down with the context done: as long as no write has failed, an unfinished call means an enabled step *)
Lemma no_deadlock : forall cap s w, (1 <= cap)%nat -> winv cap s -> sinv s -> ninv s -> failed s = false -> (clsd s = true -> ctxD s = true) ->
  finished (pc s w) = false -> exists x c s', cstep cap s x c = Some s' /\ failed s' = false.
Proof.
  intros cap s w HC I S N HF HX NF.
  destruct (ctxD s) eqn:ED.
  { destruct (ctx_enabled cap s w I ED (or_intror HF) NF) as (c & s' & A & B). exists w, c, s'. auto. }
  assert (CL : clsd s = false) by (destruct (clsd s); [specialize (HX eq_refl); discriminate|reflexivity]).
  assert (RR : running s = true). { destruct (running s) eqn:E; [reflexivity|]. destruct (r_quit s S E); congruence. }
  assert (UP : ~ down s) by (unfold down; rewrite CL, ED, HF; intros [A|[A|A]]; discriminate).
  destruct (lock s) as [g|] eqn:EL.
  - destruct (v_lock cap s I g EL) as [A|[_ A]]; [|contradiction].
    destruct (crit_enabled cap s g I A) as (c & s' & B & C).
    + intros E. pose proof (r_back s S g (or_intror E)). congruence.
    + intros k n E. pose proof (v_why cap s I g) as Y. unfold whyNot in Y. rewrite E in Y. congruence.
    + exists g, c, s'. auto.
  - assert (SEL : forall x, pc s x = QSel -> exists y c s', cstep cap s y c = Some s' /\ failed s' = false).
    { intros x E. exists x, CLock. unfold cstep. rewrite E, EL. eexists. split; [reflexivity|assumption]. }
    destruct (pc s w) eqn:EP; try discriminate NF; try (pose proof (v_crit cap s I w ltac:(rewrite EP; reflexivity)); congruence).
    + destruct (length (wq s) <? cap)%nat eqn:EW.
      * exists w, CSend. unfold cstep. rewrite EP, EW. eexists. split; [reflexivity|assumption].
      * destruct (wq s) as [|x q] eqn:EQ; [apply Nat.ltb_ge in EW; cbn [length] in EW; lia|].
        assert (XI : In x (wq s ++ Hd s)) by (rewrite EQ; left; reflexivity). destruct (v_in cap s I x XI) as (A & B & C).
        apply (SEL x). pose proof (v_own cap s I x) as O. unfold own, has in O. specialize (N x).
        destruct (pc s x) eqn:EX; try reflexivity; try (destruct O; contradiction); try contradiction;
          try (pose proof (v_crit cap s I x ltac:(rewrite EX; reflexivity)); congruence).
        destruct r; [contradiction|congruence].
    + apply (SEL w EP).
    + exists w, CGo. unfold cstep. rewrite EP. pose proof (v_own cap s I w) as O. unfold own, has in O. rewrite EP in O.
      destruct (rs s w); [|congruence]. eexists. split; [reflexivity|assumption].
Qed.

(** the sum of the weights over all calls *)
Definition total (cap : nat) (s : wst) : nat := list_sum (map (fun w => wt cap (pc s w)) (calls s)).

Lemma sum_le : forall (f g : N -> nat) l, (forall x, In x l -> (f x <= g x)%nat) -> (list_sum (map f l) <= list_sum (map g l))%nat.
Proof.
  intros f g. unfold list_sum. induction l as [|y l IH]; intros HL; cbn; [lia|].
  pose proof (HL y (or_introl eq_refl)). specialize (IH (fun x A => HL x (or_intror A))). lia.
Qed.
Lemma sum_lt : forall (f g : N -> nat) l w, In w l -> (forall x, In x l -> (f x <= g x)%nat) -> (f w < g w)%nat -> (list_sum (map f l) < list_sum (map g l))%nat.
Proof.
  intros f g. induction l as [|y l IH]; intros w HI HL HW; [contradiction|].
  pose proof (sum_le f g l (fun x A => HL x (or_intror A))) as HLe. unfold list_sum in *. cbn.
  destruct HI as [->|HI]; [lia|]. pose proof (HL y (or_introl eq_refl)). specialize (IH w HI (fun x A => HL x (or_intror A)) HW). lia.
Qed.

Lemma cstep_total : forall cap s w c s', winv cap s -> cstep cap s w c = Some s' -> (total cap s' < total cap s)%nat.
Proof.
  intros cap s w c s' I H. destruct (cs_calls cap s w c s' H) as (A & _). unfold total. rewrite A. apply (sum_lt _ _ _ w).
  - apply (v_calls cap s I). intros E. unfold cstep in H. rewrite E in H. discriminate.
  - intros x _. destruct (N.eq_dec x w) as [->|NE]; [pose proof (cstep_wt cap s w c s' H); lia|]. rewrite (cstep_pc cap s w c s' x H NE). lia.
  - apply (cstep_wt cap s w c s' H).
Qed.

Definition isStep (l : wlabel) : bool := match l with WStep _ _ => true | _ => false end.

Lemma run_total : forall cap ls s s', winv cap s -> forallb isStep ls = true -> run (wstep cap) s ls = Some s' -> (length ls + total cap s' <= total cap s)%nat.
Proof.
  intros cap. induction ls as [|l ls IH]; intros s s' I HS H; cbn in H; [inversion H; subst; cbn; lia|]. cbn in HS. apply andb_prop in HS. destruct HS as [HS HS'].
  destruct (wstep cap s l) as [t|] eqn:E; [|discriminate]. destruct l; try discriminate. cbn in E.
  pose proof (cstep_total cap s w c t I E). specialize (IH t s' (cstep_inv cap s w c t I E) HS' H). cbn. lia.
Qed.

Lemma total_bound : forall cap s, (total cap s <= length (calls s) * (15 + 2 * cap) + list_sum (map (fun w => length (held (pc s w))) (calls s)))%nat.
Proof.
  intros cap s. unfold total, list_sum. induction (calls s) as [|x l IH]; cbn; [lia|].
  assert (wt cap (pc s x) <= 15 + 2 * cap + length (held (pc s x)))%nat; [|lia].
  destruct (pc s x); cbn [wt held]; rewrite ?map_length; cbn [length]; lia.
Qed.
