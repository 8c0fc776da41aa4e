(** Invariants of the write-combining machine (Model/WriteCombine.v). *)
From Verif Require Import Model.GoBase Model.Machine Model.WriteCombine Spec.OrderSpec.
From Coq Require Import Sorting.Permutation ZifyBool ZifyNat ZifyN.
Open Scope N_scope.

Definition held (p : wpc) : list N :=
  match p with
  | QColl _ k | QWrite k | QErr k _ | QUntr k _ | QWaitU k _ | QCls k _ | QCan k _ => k
  | QAns a _ => map fst a
  | _ => []
  end.
Definition unwritten (p : wpc) : list N := match p with QColl _ k | QWrite k => k | _ => [] end.
Definition crit (p : wpc) : bool :=
  match p with QIdle | QEnq | QSel | QRecv | QDone _ => false | _ => true end.
Definition noRes (p : wpc) : Prop :=
  match p with QFree _ (Some _) | QUnl (Some _) | QDone (Some _) => False | _ => True end.

Definition atLock {A} (d : A) (h : wpc -> A) (s : wst) : A := match lock s with Some g => h (pc s g) | None => d end.
Definition Hd (s : wst) : list N := atLock [] held s.
Definition Un (s : wst) : list N := atLock [] unwritten s.

Definition lost (s : wst) : Prop :=
  ctxD s = true /\ exists g, lock s = Some g /\ (pc s g = QFree false None \/ pc s g = QDone None).
Definition has (s : wst) (w : N) : Prop := rs s w <> None.

(** what a call can count on, by where it is *)
Definition own (cap : nat) (s : wst) (w : N) : Prop :=
  match pc s w with
  | QIdle | QEnq => rs s w = None /\ ~ In w (enq s)
  | QSel => has s w \/ In w (wq s ++ Hd s) \/ lost s
  | QHold => has s w \/ In w (wq s)
  | QRel | QRecv => has s w
  | QInf => In w (wq s)
  | QColl i k => has s w \/ In w k \/ exists a b, wq s = a ++ w :: b /\ (length a + i < cap)%nat
  | QWrite k | QErr k _ | QUntr k _ | QWaitU k _ | QCls k _ | QCan k _ => has s w \/ In w k
  | QAns a _ => has s w \/ In w (map fst a)
  | QWait _ => has s w
  | _ => True
  end.

(** a result is told truly: ok if and only if the frame is on the wire *)
Definition okw (s : wst) (r : wr) (x : N) : Prop := match r with ROk => In x (wire s) | _ => ~ In x (wire s) end.
Definition resok (s : wst) (w : N) : Prop :=
  match pc s w with
  | QDone (Some r) | QFree _ (Some r) | QUnl (Some r) => okw s r w
  | QAns a _ => forall x r, In (x, r) a -> okw s r x
  | QErr k n | QUntr k n | QWaitU k n | QCls k n | QCan k n => forall x r, In (x, r) (failAns k n) -> okw s r x
  | _ => True
  end.

(** a call that will not give the lock back, and why *)
Definition down (s : wst) : Prop := clsd s = true \/ ctxD s = true \/ failed s = true.
Definition whyNot (s : wst) (w : N) : Prop :=
  match pc s w with
  | QErr _ _ | QUntr _ _ | QWaitU _ _ => failed s = true
  | QCls _ _ => failed s = true /\ utch s = true
  | QCan _ _ => failed s = true /\ clsd s = true
  | QAns _ false | QWait false | QFree false _ => down s
  | _ => True
  end.

Record winv (cap : nat) (s : wst) : Prop := mkWinv {
  v_own : forall w, own cap s w;
  v_crit : forall w, crit (pc s w) = true -> lock s = Some w;
  v_lock : forall g, lock s = Some g -> crit (pc s g) = true \/ ((exists r, pc s g = QDone r) /\ down s);
  v_nodup : NoDup (wq s ++ Hd s);
  v_in : forall w, In w (wq s ++ Hd s) -> rs s w = None /\ noRes (pc s w) /\ In w (enq s);
  v_rs : forall w, has s w -> In w (enq s);
  v_done : forall w, noRes (pc s w) \/ In w (enq s);
  v_enq : NoDup (enq s);
  v_len : (length (wq s) <= cap)%nat;
  v_ord : subseq (wire s ++ Un s ++ wq s) (enq s);
  v_okrs : forall w r, rs s w = Some r -> okw s r w;
  v_resok : forall w, resok s w;
  v_why : forall w, whyNot s w;
  v_cls : clsd s = true -> utch s = true;
  v_utch : utch s = true -> untr s = true;
  v_kick : kicking s = true -> untr s = true /\ utch s = false;
  v_kcb : forall w, kcb s = Some w -> kicking s = true /\ In w (calls s);
  v_calls : forall w, In w (calls s) <-> pc s w <> QIdle;
  v_ncalls : NoDup (calls s) }.

Lemma winv_init : forall cap, winv cap winit.
Proof.
  intros cap. split; cbn; unfold own, resok, whyNot, has; cbn; intros; try discriminate; try contradiction; try constructor; auto; try tauto; try lia; try congruence.
Qed.

(** *** Steps of a call *)

Lemma useCs_late : forall st s, exists v, useCs st s = w_late v s.
Proof. intros st s. unfold useCs. destruct (_ && _)%bool; [exists true|exists (late s)]; destruct s; reflexivity. Qed.
Lemma tryFree_eq : forall s, exists n, tryFree s = w_released n (w_infl (infl s - 1)%Z s).
Proof. intros s. unfold tryFree. cbn. destruct (_ =? _)%Z; [eexists|exists (released s)]; destruct s; reflexivity. Qed.

Ltac cases H :=
  match type of H with cstep _ ?s ?w ?c = _ => unfold cstep in H; destruct (pc s w) eqn:EP; destruct c end; try discriminate H;
  repeat match type of H with
    | context [match ?x with _ => _ end] => destruct x eqn:?; try discriminate H
    end;
  try match type of H with context [useCs ?st ?t] => let v := fresh "v" in let E := fresh "EU" in destruct (useCs_late st t) as [v E]; rewrite E in H; clear E end;
  try match type of H with context [tryFree ?t] => let v := fresh "n" in let E := fresh "EF" in destruct (tryFree_eq t) as [v E]; rewrite E in H; clear E end;
  inversion H; subst; clear H.

(** Facts about the lock from where w is. *)
Lemma crit_Hd : forall cap s w, winv cap s -> crit (pc s w) = true -> Hd s = held (pc s w) /\ Un s = unwritten (pc s w) /\ lock s = Some w.
Proof. intros cap s w I HC. pose proof (v_crit cap s I w HC) as E. unfold Hd, Un, atLock. rewrite E. auto. Qed.

Lemma not_holder : forall cap s w, winv cap s -> crit (pc s w) = false -> (forall r, pc s w <> QDone r) -> lock s <> Some w.
Proof. intros cap s w I HC HD E. destruct (v_lock cap s I w E) as [A|[[r A] _]]; [congruence|]. exact (HD r A). Qed.

Lemma free_Hd : forall s, lock s = None -> Hd s = [] /\ Un s = [].
Proof. intros s E. unfold Hd, Un, atLock. rewrite E. auto. Qed.

Lemma fst_pair : forall (r : wr) k, map fst (map (fun y : N => (y, r)) k) = k.
Proof. intros. rewrite map_map. cbn. apply map_id. Qed.
Lemma fst_failAns : forall k n, map fst (failAns k n) = k.
Proof. intros. unfold failAns. rewrite map_app, !fst_pair. apply firstn_skipn. Qed.

Section Step.
  Variables (cap : nat) (s : wst) (w : N) (c : choice) (s' : wst).
  Hypothesis I : winv cap s.
  Hypothesis H : cstep cap s w c = Some s'.

  Ltac lk :=
    match goal with
    | EP : pc s w = ?p |- _ =>
      let b := eval cbn in (crit p) in
      match b with
      | true => let A := fresh in assert (A : crit (pc s w) = true) by (rewrite EP; reflexivity);
                destruct (crit_Hd cap s w I A) as (HHd & HUn & HLk); clear A; rewrite EP in HHd, HUn; cbn in HHd, HUn
      | false => let A := fresh in let B := fresh in assert (A : crit (pc s w) = false) by (rewrite EP; reflexivity);
                 assert (B : forall r, pc s w <> QDone r) by (rewrite EP; discriminate);
                 pose proof (not_holder cap s w I A B) as HLk; clear A B
      end
    end.

  Lemma cs_crit : forall x, crit (pc s' x) = true -> lock s' = Some x.
  Proof.
    intros x HC. pose proof (v_crit cap s I x) as VX. cases H; lk; cbn in *;
      (destruct (N.eq_dec x w) as [->|NE]; [rewrite ?upd_eq in HC; cbn in HC; try discriminate HC; auto|rewrite upd_neq in HC by assumption; specialize (VX HC); congruence]).
  Qed.

  Lemma cs_down : down s -> down s'.
  Proof. unfold down. cases H; cbn; intuition congruence. Qed.

  Lemma cs_ctx : ctxD s = true -> ctxD s' = true.
  Proof. cases H; cbn; intros; (congruence || auto). Qed.

  Lemma cs_lock : forall g, lock s' = Some g -> crit (pc s' g) = true \/ ((exists r, pc s' g = QDone r) /\ down s').
  Proof.
    intros g HL. pose proof (v_lock cap s I g) as VX. pose proof cs_down as DN. pose proof (v_why cap s I w) as WY.
    unfold whyNot, down in *.
    cases H; lk; cbn in *; (destruct (N.eq_dec g w) as [->|NE]; [rewrite ?upd_eq; cbn; auto|rewrite ?upd_neq by assumption; try congruence; auto]);
      rewrite ?EP in *; try congruence; eauto.
    all: try (right; split; [eauto|]; rewrite ?Heqb; tauto).
    all: destruct (VX HL) as [A|[A B]]; [left; exact A|right; split; [exact A|rewrite ?Heqb; tauto]].
  Qed.

  (** the calls in the queue or with the holder: where they can come from *)
  Lemma cs_from : forall x, In x (wq s' ++ Hd s') -> In x (wq s ++ Hd s) \/ (x = w /\ pc s w = QEnq /\ pc s' w = QSel).
  Proof.
    intros x HI.
    unfold Hd, atLock in HI; cases H; lk; cbn in *; rewrite ?HLk in HI; cbn in HI; rewrite ?upd_eq in HI; cbn in HI; unfold Hd in *;
      rewrite ?fst_failAns, ?fst_pair in HI; rewrite ?HHd; cbn; auto;
      try (destruct (lock s) as [g|] eqn:EL; [rewrite upd_neq in HI by congruence|]; unfold atLock; rewrite ?EL; auto; fail);
      try (rewrite ?Heqo in *; cbn in *; rewrite ?upd_eq in HI; auto; fail);
      try (left; rewrite in_app_iff in *; cbn in *; rewrite ?in_app_iff in *; cbn in *; tauto).
    - rewrite upd_eq. unfold atLock. assert (In x (wq s) \/ x = w \/ In x (match lock s with Some g => held (pc s g) | None => [] end)) as [A|[A|A]].
      { rewrite <- app_assoc in HI. apply in_app_or in HI. destruct HI as [HI|[HI|HI]]; auto. destruct (lock s) as [g|] eqn:EL; [|contradiction].
        rewrite upd_neq in HI by congruence. auto. }
      + left. apply in_or_app. auto.
      + auto.
      + left. apply in_or_app. auto.
    - left. rewrite ?Heql in *. assumption.
  Qed.

  Lemma cs_nodup : NoDup (wq s' ++ Hd s').
  Proof.
    pose proof (v_nodup cap s I) as ND. pose proof (v_in cap s I) as VI. pose proof (v_own cap s I w) as OW.
    unfold Hd, atLock, own in *.
    cases H; lk; cbn in *; rewrite ?HLk in *; cbn in *; rewrite ?upd_eq, ?EP, ?fst_failAns, ?fst_pair in *; cbn in *; auto;
      try (destruct (lock s) as [g|] eqn:EL; [rewrite upd_neq by congruence|]; auto; fail).
    all: try (rewrite ?Heqo in *; cbn in *; rewrite ?upd_eq, ?EP in *; cbn in *; auto; fail).
    - assert (E : match lock s with Some g => held (upd (pc s) w QSel g) | None => [] end = match lock s with Some g => held (pc s g) | None => [] end).
      { destruct (lock s) as [g|] eqn:EL; [rewrite upd_neq by congruence|]; auto. }
      rewrite E. rewrite <- app_assoc. apply NoDup_Add with (a := w) (l := wq s ++ match lock s with Some g => held (pc s g) | None => [] end).
      + apply Add_app.
      + split; [assumption|]. intros HI. apply VI in HI. destruct HI as (_ & _ & HI). tauto.
    - eapply subseq_nodup; [|exact ND]. apply subseq_app; [apply subseq_refl|constructor].
    - apply NoDup_cons_iff in ND; destruct ND as [ND1 ND]. rewrite app_assoc. apply (Permutation_NoDup (l := n :: l ++ k)); [|apply NoDup_cons_iff; split; assumption].
      apply Permutation_cons_append.
    - apply NoDup_cons_iff in ND; destruct ND as [ND1 ND]. assumption.
    - apply NoDup_cons_iff in ND; destruct ND as [ND1 ND]. assumption.
    - rewrite Heql in *. assumption.
    - rewrite fst_pair. assumption.
    - rewrite fst_pair. assumption.
    - rewrite fst_failAns. assumption.
    - rewrite fst_failAns. assumption.
    - rewrite fst_failAns. assumption.
    - apply NoDup_remove_1 in ND. assumption.
  Qed.

  Lemma cs_ord : subseq (wire s' ++ Un s' ++ wq s') (enq s').
  Proof.
    pose proof (v_ord cap s I) as ND. unfold Un, atLock in *.
    cases H; lk; cbn in *; rewrite ?HLk in *; cbn in *; rewrite ?upd_eq, ?EP in *; cbn in *; auto;
      try (destruct (lock s) as [g|] eqn:EL; [rewrite upd_neq by congruence|]; auto; fail);
      try (rewrite ?Heqo in *; cbn in *; rewrite ?upd_eq, ?EP in *; cbn in *; auto; fail).
    - assert (E : match lock s with Some g => unwritten (upd (pc s) w QSel g) | None => [] end = match lock s with Some g => unwritten (pc s g) | None => [] end).
      { destruct (lock s) as [g|] eqn:EL; [rewrite upd_neq by congruence|]; auto. }
      rewrite E. rewrite !app_assoc. apply subseq_app; [|apply subseq_refl]. rewrite <- !app_assoc. assumption.
    - eapply subseq_trans; [exact ND|]. apply subseq_drop_mid.
    - rewrite <- app_assoc. assumption.
    - eapply subseq_trans; [exact ND|]. rewrite !app_assoc. apply (subseq_drop_mid _ (wire s ++ k) [n] l).
    - eapply subseq_trans; [exact ND|]. rewrite !app_assoc. apply (subseq_drop_mid _ (wire s ++ k) [n] l).
    - rewrite Heql in *. assumption.
    - eapply subseq_trans; [exact ND|]. apply (subseq_drop_mid _ (wire s) (n :: l) (wq s)).
    - rewrite <- app_assoc. assumption.
    - rewrite <- app_assoc. eapply subseq_trans; [exact ND|]. apply subseq_app; [apply subseq_refl|].
      apply (subseq_app _ (firstn n (n0 :: l)) (n0 :: l)); [apply subseq_firstn|apply subseq_refl].
  Qed.

  Lemma cs_enq : forall x, In x (enq s') -> In x (enq s) \/ (x = w /\ pc s w = QEnq /\ pc s' w = QSel).
  Proof. intros x. cases H; cbn; auto. rewrite in_app_iff, upd_eq. cbn. intuition. Qed.
  Lemma cs_enq_mono : forall x, In x (enq s) -> In x (enq s').
  Proof. intros x. cases H; cbn; auto. rewrite in_app_iff. auto. Qed.

  (** w only receives from its own channel; the lock holder only sends to calls it took from the queue *)
  Lemma cs_has : forall x, x <> w -> has s x -> has s' x.
  Proof.
    intros x NE. unfold has. cases H; cbn; auto; try (rewrite upd_neq by assumption; auto; fail).
    - intros A. destruct (N.eq_dec x n) as [->|NN]; [rewrite upd_eq; discriminate|rewrite upd_neq by assumption; assumption].
    - intros A. destruct (N.eq_dec x n) as [->|NN]; [rewrite upd_eq; discriminate|rewrite upd_neq by assumption; assumption].
    - intros A. destruct (N.eq_dec x n) as [->|NN]; [rewrite upd_eq; discriminate|rewrite upd_neq by assumption; assumption].
  Qed.

  Lemma in_nd : forall (a b : list N) x, NoDup (a ++ x :: b) -> ~ In x (a ++ b).
  Proof. intros a b x ND. apply NoDup_remove_2 in ND. assumption. Qed.

  Lemma cs_rs_new : forall x r, rs s' x = Some r ->
    rs s x = Some r \/ (In x (wq s ++ Hd s) /\ rs s x = None /\ ~ In x (wq s' ++ Hd s') /\
      ((r <> ROk /\ In x (wq s)) \/ exists a ok, pc s w = QAns a ok /\ In (x, r) a)).
  Proof.
    intros x r. pose proof (v_nodup cap s I) as ND.
    unfold Hd, atLock in *. cases H; lk; cbn in *; auto; rewrite ?HLk in *; cbn in *; rewrite ?upd_eq, ?EP in *; cbn in *.
    all: try (intros A; destruct (N.eq_dec x w) as [->|NN]; [rewrite upd_eq in A; discriminate|rewrite upd_neq in A by assumption; auto]; fail).
    - intros A. destruct (N.eq_dec x n) as [->|NN]; [rewrite upd_eq in A; inversion A; subst|rewrite upd_neq in A by assumption; auto].
      right. repeat split; auto. + inversion ND; assumption. + left. split; [discriminate|auto].
    - intros A. destruct (N.eq_dec x n) as [->|NN]; [rewrite upd_eq in A; inversion A; subst|rewrite upd_neq in A by assumption; auto].
      right. repeat split; auto. + inversion ND; assumption. + left. split; [discriminate|auto].
    - intros A. destruct (N.eq_dec x n) as [->|NN]; [rewrite upd_eq in A; inversion A; subst|rewrite upd_neq in A by assumption; auto].
      right. repeat split; auto.
      + apply in_or_app. right. left. reflexivity.
      + apply in_nd. assumption.
      + right. exists ((n, r) :: l), ok. split; [reflexivity|left; reflexivity].
  Qed.

  Lemma cs_keep : forall x, In x (wq s ++ Hd s) -> In x (wq s' ++ Hd s') \/ has s' x \/ lost s'.
  Proof.
    intros x. unfold Hd, atLock, has, lost in *. cases H; lk; cbn in *; auto; rewrite ?HLk in *; cbn in *; rewrite ?upd_eq, ?EP, ?fst_failAns, ?fst_pair in *; cbn in *; auto.
    all: try (destruct (lock s) as [g|] eqn:EL; [rewrite upd_neq by congruence|]; auto; fail).
    all: try (rewrite ?Heqo in *; cbn in *; rewrite ?upd_eq, ?EP in *; cbn in *; auto; fail).
    - intros A. left. rewrite <- app_assoc. apply in_app_or in A. apply in_or_app. destruct A as [A|A]; [auto|]. right. right.
      destruct (lock s) as [g|] eqn:EL; [rewrite upd_neq by congruence|]; assumption.
    - intros _. right. right. apply andb_prop in Heqb. split; [tauto|]. exists w. rewrite upd_eq. auto.
    - intros A. left. rewrite !in_app_iff in *. cbn. tauto.
    - intros [->|A]; [right; left; rewrite upd_eq; discriminate|auto].
    - intros [->|A]; [right; left; rewrite upd_eq; discriminate|auto].
    - intros A. left. apply in_or_app. auto.
    - rewrite fst_pair. auto.
    - rewrite fst_pair. auto.
    - rewrite fst_failAns. auto.
    - rewrite fst_failAns. auto.
    - rewrite fst_failAns. auto.
    - rewrite !in_app_iff. cbn. intros [A|[->|A]]; [auto|right; left; rewrite upd_eq; discriminate|auto].
  Qed.

  Lemma cs_lost : lost s -> lost s'.
  Proof.
    intros (A & g & B & C). split; [apply cs_ctx; assumption|]. exists g.
    cases H; lk; cbn in *; try congruence;
      (destruct (N.eq_dec g w) as [E|NE]; [subst g; rewrite ?upd_eq; try (destruct C; congruence)|rewrite ?upd_neq by assumption; try congruence; auto]).
    split; [assumption|]. rewrite EP in C. destruct C as [C|C]; inversion C; subst. auto.
  Qed.

  (** *** The invariant after the step *)

  Lemma cs_done : forall x, noRes (pc s' x) \/ In x (enq s').
  Proof.
    intros x. pose proof (v_done cap s I x) as VD. pose proof (v_rs cap s I x) as VR. unfold has in VR.
    cases H; cbn; (destruct (N.eq_dec x w) as [->|NE]; [rewrite ?upd_eq; rewrite ?EP in VD; cbn in *|rewrite ?upd_neq by assumption]); auto;
      try (right; apply VR; congruence); try (destruct VD; [left|right]; assumption); try (rewrite in_app_iff; cbn; tauto).
  Qed.

  Lemma cs_in : forall x, In x (wq s' ++ Hd s') -> rs s' x = None /\ noRes (pc s' x) /\ In x (enq s').
  Proof.
    intros x HI. pose proof (v_own cap s I w) as OW. unfold own in OW. destruct (cs_from x HI) as [A|(-> & A & B)].
    - destruct (v_in cap s I x A) as (R & N & E). split; [|split; [|apply cs_enq_mono; assumption]].
      + destruct (rs s' x) as [r|] eqn:ER; [|reflexivity]. destruct (cs_rs_new x r ER) as [C|(_ & _ & C & _)]; [congruence|contradiction].
      + clear HI. cases H; cbn; (destruct (N.eq_dec x w) as [->|NE]; [rewrite ?upd_eq; rewrite ?EP in N; cbn in *|rewrite ?upd_neq by assumption]); auto; try congruence.
    - rewrite A in OW. destruct OW as [O1 O2]. rewrite B. split; [|split; [exact Logic.I|]].
      + destruct (rs s' w) as [r|] eqn:ER; [|reflexivity]. destruct (cs_rs_new w r ER) as [C|(C & _)]; [congruence|].
        apply (v_in cap s I) in C. tauto.
      + clear HI. cases H; cbn in *; try congruence. apply in_or_app. right. left. reflexivity. all: rewrite upd_eq in B; discriminate.
  Qed.

  Lemma cs_rs : forall x, has s' x -> In x (enq s').
  Proof.
    intros x HX. unfold has in HX. destruct (rs s' x) as [r|] eqn:ER; [|congruence]. apply cs_enq_mono.
    destruct (cs_rs_new x r ER) as [C|(C & _)]; [apply (v_rs cap s I); unfold has; congruence|apply (v_in cap s I) in C; tauto].
  Qed.

  Lemma cs_nenq : NoDup (enq s').
  Proof.
    pose proof (v_enq cap s I) as V. pose proof (v_own cap s I w) as OW. unfold own in OW. cases H; cbn; auto.
    rewrite <- (app_nil_r (enq s ++ [w])), <- app_assoc. cbn. apply NoDup_Add with (a := w) (l := enq s ++ []); [apply Add_app|]. rewrite app_nil_r. tauto.
  Qed.

  Lemma cs_len : (length (wq s') <= cap)%nat.
  Proof.
    pose proof (v_len cap s I) as V. cases H; cbn in *; auto; try lia.
    all: rewrite ?Heql in *; cbn in *; try lia.
    rewrite app_length. cbn. destruct cap; [discriminate|]. lia.
  Qed.

  (** frames written by the step come from calls that have had no result *)
  Lemma cs_wire : forall x, In x (wire s') -> In x (wire s) \/ (In x (Hd s) /\ exists k, pc s w = QWrite k /\ In x k).
  Proof.
    intros x. unfold Hd, atLock. cases H; lk; cbn; auto; rewrite HLk, EP; cbn; rewrite in_app_iff.
    - intros [A|A]; [auto|]. right. split; [exact A|]. eexists. split; [reflexivity|exact A].
    - intros [A|A]; [auto|]. apply (subseq_in _ _ _ (subseq_firstn _ n (n0 :: l))) in A. right. split; [exact A|]. eexists. split; [reflexivity|exact A].
  Qed.
  Lemma cs_wire_mono : forall x, In x (wire s) -> In x (wire s').
  Proof. intros x. cases H; cbn; auto; rewrite in_app_iff; auto. Qed.

  Lemma cs_okw : forall x r, ~ In x (Hd s) -> okw s r x -> okw s' r x.
  Proof.
    intros x r NI. unfold okw. destruct r; [apply cs_wire_mono| |]; intros A B; destruct (cs_wire x B) as [C|[C _]]; tauto.
  Qed.

  Lemma nowire : forall x, In x (Un s ++ wq s) -> ~ In x (wire s).
  Proof.
    intros x HI HW. pose proof (subseq_nodup _ _ _ (v_ord cap s I) (v_enq cap s I)) as ND.
    apply in_split in HW. destruct HW as (a & b & E). rewrite E in ND. rewrite <- app_assoc in ND. cbn in ND. apply in_nd in ND. apply ND.
    apply in_or_app. right. apply in_or_app. right. assumption.
  Qed.

  Lemma cs_okrs : forall x r, rs s' x = Some r -> okw s' r x.
  Proof.
    intros x r ER. destruct (cs_rs_new x r ER) as [C|(C & D & E & [[F G]|(a & ok & F & G)])].
    - apply cs_okw; [|apply (v_okrs cap s I); assumption]. intros HI. destruct (v_in cap s I x) as (A & _); [apply in_or_app; auto|congruence].
    - assert (NW : ~ In x (wire s)) by (apply nowire; apply in_or_app; auto).
      assert (NW' : ~ In x (wire s')).
      { intros B. destruct (cs_wire x B) as [B'|(B' & _)]; [contradiction|]. pose proof (v_nodup cap s I) as ND. apply in_split in G.
        destruct G as (u & v & G). rewrite G, <- app_assoc in ND. cbn in ND. apply in_nd in ND. apply ND. apply in_or_app. right. apply in_or_app. auto. }
      unfold okw. destruct r; [congruence|assumption|assumption].
    - pose proof (v_resok cap s I w) as VR. unfold resok in VR. rewrite F in VR. specialize (VR x r G).
      assert (W : wire s' = wire s). { clear - H F. cases H; congruence || reflexivity. }
      unfold okw in *. rewrite W. assumption.
  Qed.

  Lemma cs_resok : forall x, resok s' x.
  Proof.
    intros x. pose proof (v_resok cap s I x) as VR. pose proof (v_okrs cap s I x) as VO.
    assert (KR : forall r, (~ noRes (pc s x)) -> okw s r x -> okw s' r x).
    { intros r A. apply cs_okw. intros HI. destruct (v_in cap s I x) as (_ & B & _); [apply in_or_app; auto|contradiction]. }
    assert (KO : forall r, rs s x = Some r -> okw s' r x).
    { intros r A. apply cs_okw; [|auto]. intros HI. destruct (v_in cap s I x) as (B & _); [apply in_or_app; auto|congruence]. }
    destruct (N.eq_dec x w) as [->|NE].
    - assert (WS : forall r y, (forall k, pc s w <> QWrite k) -> okw s r y -> okw s' r y).
      { intros r y A. destruct r; [apply cs_wire_mono| |]; intros B C; destruct (cs_wire y C) as [D|(_ & k & D & _)]; try contradiction; exact (A k D). }
      pose proof (v_ord cap s I) as VO2. pose proof nowire as NW. unfold Un, atLock in NW.
      unfold resok in *. clear VO2. cases H; lk; cbn; rewrite ?upd_eq; auto; rewrite ?HLk, ?EP in *; cbn in *;
        try (intros y q HI; apply WS; [discriminate|]; auto; fail).
      + intros y q HI. assert (E : q = RErr /\ In y (n :: l)).
        { destruct HI as [HI|HI]; [inversion HI; subst; split; [reflexivity|left; reflexivity]|]. apply in_map_iff in HI. destruct HI as (z & A & B). inversion A; subst. split; [reflexivity|right; assumption]. }
        destruct E as [-> E]. unfold okw. cbn. apply NW. cbn. destruct E as [->|E]; [auto|]. right. apply in_or_app. auto.
      + intros y q HI. assert (E : q = ROk /\ In y (n :: l)).
        { destruct HI as [HI|HI]; [inversion HI; subst; split; [reflexivity|left; reflexivity]|]. apply in_map_iff in HI. destruct HI as (z & A & B). inversion A; subst. split; [reflexivity|right; assumption]. }
        destruct E as [-> E]. unfold okw. cbn [wire go w_wire w_pc]. apply in_or_app. right. exact E.
      + intros y q HI. pose proof (v_nodup cap s I) as ND. rewrite HHd in ND. unfold failAns in HI. apply in_app_or in HI. destruct HI as [HI|HI]; apply in_map_iff in HI; destruct HI as (z & A & B); inversion A; subst.
        * unfold okw. cbn [wire go w_wire w_pc w_failed]. apply in_or_app. right. exact B.
        * unfold okw. cbn [wire go w_wire w_pc w_failed]. intros C. apply in_app_or in C. destruct C as [C|C].
          -- apply (NW y); [|exact C]. change (In y ((n0 :: l) ++ wq s)). apply in_or_app. left. rewrite <- (firstn_skipn n (n0 :: l)). apply in_or_app. right. exact B.
          -- rewrite <- (firstn_skipn n (n0 :: l)), app_assoc in ND. apply in_split in B. destruct B as (u & v & B). rewrite B in ND.
             rewrite app_assoc in ND. apply in_nd in ND. apply ND. apply in_or_app. left. apply in_or_app. left. apply in_or_app. right. exact C.
    - assert (EP' : pc s' x = pc s x).
      { clear - H NE. cases H; cbn; rewrite ?upd_neq by assumption; reflexivity. }
      assert (WS : crit (pc s x) = true -> wire s' = wire s).
      { intros A. apply (v_crit cap s I) in A. clear - H A NE I. cases H; lk; cbn; congruence || reflexivity. }
      unfold resok in *. rewrite EP'. unfold okw in *. destruct (pc s x) eqn:EX; auto; try (rewrite (WS eq_refl); exact VR; fail);
        destruct r as [r|]; auto; apply (KR r (fun f => f) VR).
  Qed.

  Lemma cs_why : forall x, whyNot s' x.
  Proof.
    intros x. pose proof (v_why cap s I x) as VR. pose proof cs_down as DN.
    assert (FM : failed s = true -> failed s' = true). { clear - H. cases H; cbn; auto. }
    assert (UM : utch s = true -> utch s' = true). { clear - H. cases H; cbn; auto. }
    assert (CM : clsd s = true -> clsd s' = true). { clear - H. cases H; cbn; auto. }
    destruct (N.eq_dec x w) as [->|NE].
    - unfold whyNot in *. cases H; cbn; rewrite ?upd_eq; auto; rewrite ?EP in *; unfold down in *; cbn in *; auto; try (destruct ok; auto; fail); try tauto.
      apply andb_prop in Heqb. tauto.
    - assert (EP' : pc s' x = pc s x).
      { clear - H NE. cases H; cbn; rewrite ?upd_neq by assumption; reflexivity. }
      unfold whyNot in *. rewrite EP'. destruct (pc s x); auto; try (destruct VR; split; auto; fail); destruct ok; auto.
  Qed.

  Lemma cs_flags : (clsd s' = true -> utch s' = true) /\ (utch s' = true -> untr s' = true) /\
    (kicking s' = true -> untr s' = true /\ utch s' = false).
  Proof.
    pose proof (v_cls cap s I) as B. pose proof (v_utch cap s I) as C. pose proof (v_kick cap s I) as D.
    pose proof (v_why cap s I w) as W. unfold whyNot in W. cases H; cbn; repeat split; intros; auto; try congruence; try (apply D; assumption);
      try tauto.
    all: try (rewrite C in Heqb by assumption; discriminate); try (destruct D as [D1 D2]; [assumption|congruence]); try (specialize (C ltac:(assumption)); discriminate).
  Qed.

  Lemma cs_calls : calls s' = calls s /\ (forall x, pc s' x <> QIdle <-> pc s x <> QIdle) /\ kcb s' = kcb s /\ kicking s' = kicking s.
  Proof.
    cases H; cbn; repeat split; auto; intros A; (destruct (N.eq_dec x w) as [->|NE]; [rewrite ?upd_eq in *; try congruence; try discriminate|rewrite ?upd_neq in * by assumption; auto]).
    all: destruct ok; discriminate.
  Qed.

  Lemma own_other : forall x, x <> w -> own cap s' x.
  Proof.
    intros x NE. pose proof (v_own cap s I x) as O.
    assert (EP' : pc s' x = pc s x).
    { clear - H NE. cases H; cbn; rewrite ?upd_neq by assumption; reflexivity. }
    assert (Q : lock s = Some x -> exists b, wq s' = wq s ++ b).
    { intros L. clear - L H I NE. cases H; lk; cbn; try congruence; try (exists []; rewrite app_nil_r; reflexivity). exists [w]. reflexivity. }
    assert (QI : lock s = Some x -> forall y, In y (wq s) -> In y (wq s')).
    { intros L y HI. destruct (Q L) as [b E]. rewrite E. apply in_or_app. auto. }
    pose proof (v_crit cap s I x) as VC. pose proof (cs_has x NE) as HH.
    unfold own in *. rewrite EP'. destruct (pc s x) eqn:EX; cbn in VC; try (specialize (VC eq_refl)); auto; try (destruct O as [O|O]; auto; fail).
    - destruct O as [O1 O2]. split.
      + destruct (rs s' x) as [r|] eqn:ER; [|reflexivity]. destruct (cs_rs_new x r ER) as [C|(C & _)]; [congruence|apply (v_in cap s I) in C; tauto].
      + intros HI. destruct (cs_enq x HI) as [A|(A & _)]; contradiction.
    - destruct O as [O1 O2]. split.
      + destruct (rs s' x) as [r|] eqn:ER; [|reflexivity]. destruct (cs_rs_new x r ER) as [C|(C & _)]; [congruence|apply (v_in cap s I) in C; tauto].
      + intros HI. destruct (cs_enq x HI) as [A|(A & _)]; contradiction.
    - destruct O as [O|[O|O]]; [auto| |right; right; apply cs_lost; assumption]. destruct (cs_keep x O) as [A|[A|A]]; auto.
    - destruct O as [O|[O|(a & b & O1 & O2)]]; [auto|auto|]. right. right. destruct (Q VC) as [b' E]. exists a, (b ++ b'). rewrite E, O1, <- app_assoc. auto.
  Qed.

  Lemma own_self : own cap s' w.
  Proof.
    pose proof (v_own cap s I w) as O. pose proof (v_len cap s I) as VL. pose proof cs_from as CF. unfold own, has in *.
    cases H; lk; cbn in *; rewrite ?upd_eq; cbn; auto; rewrite ?EP in *; try congruence; rewrite ?fst_failAns, ?fst_pair; auto.
    - right. left. apply in_or_app. left. apply in_or_app. right. left. reflexivity.
    - destruct O as [O|[O|(_ & g & O & _)]]; [auto| |congruence]. right. rewrite (proj1 (free_Hd s Heqo)), app_nil_r in O. assumption.
    - destruct O as [O|O]; [congruence|assumption].
    - right. right. apply in_split in O. destruct O as (a & b & O). exists a, b. split; [assumption|]. rewrite O, app_length in VL. cbn in VL. lia.
    - destruct O as [O|[O|(a & b & O1 & O2)]]; [auto|right; left; apply in_or_app; auto|]. try rewrite Heql in O1. destruct a as [|z a].
      + inversion O1; subst. right. left. apply in_or_app. right. left. reflexivity.
      + inversion O1; subst. right. right. exists a, b. split; [reflexivity|]. cbn in O2. lia.
    - destruct (N.eq_dec w n) as [->|NE]; [left; rewrite upd_eq; discriminate|rewrite upd_neq by assumption].
      destruct O as [O|[O|(a & b & O1 & O2)]]; [auto|auto|]. try rewrite Heql in O1. destruct a as [|z a]; inversion O1; subst; [congruence|].
      right. right. exists a, b. split; [reflexivity|]. cbn in O2. lia.
    - destruct (N.eq_dec w n) as [->|NE]; [left; rewrite upd_eq; discriminate|rewrite upd_neq by assumption].
      destruct O as [O|[O|(a & b & O1 & O2)]]; [auto|auto|]. try rewrite Heql in O1. destruct a as [|z a]; inversion O1; subst; [congruence|].
      right. right. exists a, b. split; [reflexivity|]. cbn in O2. lia.
    - destruct O as [O|[O|(a & b & O1 & O2)]]; [auto|auto|]. try rewrite Heql in O1. destruct a; discriminate.
    - destruct O as [O|[O|(a & b & O1 & O2)]]; [auto|auto|]. exfalso. destruct cap; [lia|]. lia.
    - destruct O as [O|[]]; assumption.
    - destruct O as [O|[]]; assumption.
    - destruct (N.eq_dec w n) as [->|NE]; [left; rewrite upd_eq; discriminate|rewrite upd_neq by assumption]. destruct O as [O|[O|O]]; [auto|congruence|auto].
  Qed.

  Theorem cstep_inv : winv cap s'.
  Proof.
    destruct cs_flags as (F2 & F3 & F4). destruct cs_calls as (C1 & C2 & C3 & C4). split.
    - intros x. destruct (N.eq_dec x w) as [->|NE]; [apply own_self|apply own_other; assumption].
    - apply cs_crit.
    - apply cs_lock.
    - apply cs_nodup.
    - apply cs_in.
    - apply cs_rs.
    - apply cs_done.
    - apply cs_nenq.
    - apply cs_len.
    - apply cs_ord.
    - apply cs_okrs.
    - apply cs_resok.
    - apply cs_why.
    - assumption.
    - assumption.
    - assumption.
    - rewrite C3, C4, C1. apply (v_kcb cap s I).
    - intros x. rewrite C1, (v_calls cap s I x). symmetry. apply C2.
    - rewrite C1. apply (v_ncalls cap s I).
  Qed.
End Step.

(** *** The other labels *)

Lemma winv_start : forall cap s w, winv cap s -> pc s w = QIdle -> winv cap (start w s).
Proof.
  intros cap s w I EP. assert (NL : lock s <> Some w).
  { apply (not_holder cap s w I); rewrite EP; [reflexivity|discriminate]. }
  assert (HH : forall A d (h : wpc -> A), atLock d h (start w s) = atLock d h s).
  { intros. unfold atLock. cbn. destruct (lock s) as [g|]; [rewrite upd_neq by congruence|]; reflexivity. }
  assert (LO : lost (start w s) <-> lost s).
  { unfold lost. cbn. split; intros (A & g & B & C); (split; [assumption|]); exists g; rewrite upd_neq in * by congruence; auto. }
  destruct I. split; unfold Hd, Un in *; rewrite ?HH; cbn; auto.
  - intros x. specialize (v_own0 x). unfold own in *. unfold Hd in *. unfold has in *. cbn [pc rs wq enq start go w_pc w_calls]. destruct (N.eq_dec x w) as [->|NE].
    + rewrite upd_eq. rewrite EP in v_own0. assumption.
    + rewrite upd_neq by assumption. destruct (pc s x); auto. rewrite HH, LO. assumption.
  - intros x. destruct (N.eq_dec x w) as [->|NE]; [rewrite upd_eq; discriminate|rewrite upd_neq by assumption; auto].
  - intros g HL. rewrite upd_neq by congruence. apply v_lock0; assumption.
  - intros x HI. destruct (v_in0 x HI) as (A & B & C). split; [assumption|]. split; [|assumption].
    destruct (N.eq_dec x w) as [->|NE]; [rewrite upd_eq; exact Logic.I|rewrite upd_neq by assumption; assumption].
  - intros x. destruct (N.eq_dec x w) as [->|NE]; [rewrite upd_eq; left; exact Logic.I|rewrite upd_neq by assumption; auto].
  - intros x. specialize (v_resok0 x). unfold resok in *. cbn. unfold okw in *. cbn.
    destruct (N.eq_dec x w) as [->|NE]; [rewrite upd_eq; exact Logic.I|rewrite upd_neq by assumption; assumption].
  - intros x. specialize (v_why0 x). unfold whyNot, down in *. cbn.
    destruct (N.eq_dec x w) as [->|NE]; [rewrite upd_eq; exact Logic.I|rewrite upd_neq by assumption; assumption].
  - intros x HX. destruct (v_kcb0 x HX). auto.
  - intros x. specialize (v_calls0 x). destruct (N.eq_dec x w) as [->|NE]; [rewrite upd_eq; split; [discriminate|auto]|rewrite upd_neq by assumption].
    rewrite <- v_calls0. split; [intros [A|A]; [congruence|assumption]|auto].
  - constructor; [|assumption]. intros HI. apply v_calls0 in HI. congruence.
Qed.

(** labels that touch only the flags *)
Lemma winv_flags : forall cap s s', winv cap s ->
  wq s' = wq s -> lock s' = lock s -> rs s' = rs s -> pc s' = pc s -> wire s' = wire s -> enq s' = enq s -> calls s' = calls s -> failed s' = failed s ->
  (ctxD s = true -> ctxD s' = true) -> (clsd s = true -> clsd s' = true) -> (utch s = true -> utch s' = true) ->
  (clsd s' = true -> utch s' = true) -> (utch s' = true -> untr s' = true) ->
  (kicking s' = true -> untr s' = true /\ utch s' = false) -> (forall w, kcb s' = Some w -> kicking s' = true /\ In w (calls s)) ->
  winv cap s'.
Proof.
  intros cap s s' I E1 E2 E3 E4 E5 E6 E7 E8 M1 M2 M3 F2 F3 F4 F5. destruct I.
  assert (HH : forall A d (h : wpc -> A), atLock d h s' = atLock d h s) by (intros; unfold atLock; rewrite E2, E4; reflexivity).
  assert (LO : lost s -> lost s'). { intros (A & g & B). split; [auto|]. exists g. rewrite E2, E4. assumption. }
  assert (DN : down s -> down s') by (unfold down; rewrite E8; tauto).
  split; unfold Hd, Un in *; rewrite ?HH, ?E1, ?E2, ?E3, ?E4, ?E5, ?E6, ?E7; auto.
  - intros x. specialize (v_own0 x). unfold own, has, Hd in *. rewrite E1, E3, E4, E6, HH. destruct (pc s x); auto. destruct v_own0 as [A|[A|A]]; auto.
  - intros g HL. destruct (v_lock0 g HL) as [A|[A B]]; auto.
  - intros x. specialize (v_rs0 x). unfold has in *. rewrite E3. assumption.
  - intros x r HX. specialize (v_okrs0 x r HX). unfold okw in *. rewrite E5. assumption.
  - intros x. specialize (v_resok0 x). unfold resok, okw in *. rewrite E4, E5. assumption.
  - intros x. specialize (v_why0 x). unfold whyNot in *. rewrite E4, E8. destruct (pc s x); auto; try (destruct v_why0; split; auto; fail); destruct ok; auto.
Qed.

Lemma wstep_inv : forall cap s l s', winv cap s -> wstep cap s l = Some s' -> winv cap s'.
Proof.
  intros cap s l s' I H. destruct l; cbn in H.
  - destruct (isIdle (pc s w)) eqn:E; [|discriminate]. inversion H; subst. apply winv_start; [assumption|]. destruct (pc s w); [reflexivity|discriminate..].
  - eapply cstep_inv; eassumption.
  - destruct (rd s); try discriminate. inversion H; subst. apply (winv_flags cap s _ I); destruct I; cbn; auto.
  - destruct (rd s); try discriminate. inversion H; subst. destruct (useCs_late true s) as [v E]. rewrite E. apply (winv_flags cap s _ I); destruct I; cbn; auto.
  - destruct (rd s); try discriminate. destruct (clsd s || ctxD s)%bool eqn:EC; [|discriminate]. inversion H; subst. destruct (tryFree_eq (w_rd RQuit s)) as [v E]. rewrite E.
    apply (winv_flags cap s _ I); destruct I; cbn; auto.
  - destruct (untr s) eqn:EU; [discriminate|]. inversion H; subst. apply (winv_flags cap s _ I); destruct I; cbn; auto.
    + intros A. destruct (v_kick0 A). congruence.
  - destruct (utch s) eqn:EU; [|discriminate]. inversion H; subst. apply (winv_flags cap s _ I); destruct I; cbn; auto.
  - destruct (clsd s) eqn:EU; [|discriminate]. inversion H; subst. apply (winv_flags cap s _ I); destruct I; cbn; auto; rewrite EU in *; auto.
  - inversion H; subst. apply (winv_flags cap s _ I); destruct I; cbn; auto.
  - destruct (untr s) eqn:EU; [discriminate|]. inversion H; subst. apply (winv_flags cap s _ I); destruct I; cbn; auto.
    + intros _. split; [reflexivity|]. destruct (utch s) eqn:EX; [|reflexivity]. specialize (v_utch0 eq_refl). congruence.
    + intros x A. destruct (v_kcb0 x A). auto.
  - destruct (kcb s) eqn:EK; [discriminate|]. destruct (kicking s && isIdle (pc s w))%bool eqn:E; [|discriminate]. inversion H; subst. apply andb_prop in E.
    destruct E as [E1 E2]. assert (J : winv cap (start w s)) by (apply winv_start; [assumption|destruct (pc s w); [reflexivity|discriminate..]]).
    apply (winv_flags cap (start w s) _ J); destruct J; cbn in *; auto. intros x A. inversion A; subst. auto.
  - destruct (kcb s) eqn:EK; [|discriminate]. destruct (pc s n); try discriminate. inversion H; subst. apply (winv_flags cap s _ I); destruct I; cbn; auto. discriminate.
  - destruct (kcb s) eqn:EK; [discriminate|]. destruct (kicking s) eqn:E; [|discriminate]. inversion H; subst. apply (winv_flags cap s _ I); destruct I; cbn; auto; try discriminate.
    + intros _. apply v_kick0. assumption.
    + intros x A. congruence.
Qed.

Lemma winv_reachable : forall cap s, reachable (wstep cap) winit s -> winv cap s.
Proof. intros cap s H. exact (reachable_inv (wstep cap) (winv cap) winit (winv_init cap) (wstep_inv cap) s H). Qed.
