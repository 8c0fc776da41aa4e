(** C34: Shutdown and OnShutdown. *)
From Coq Require Import ZifyBool ZifyNat ZifyN.
From Verif Require Import Model.GoBase Model.Machine Model.Shutdown.
Open Scope nat_scope.

Definition occ (l : list N) (f : N) : nat := count_occ N.eq_dec l f.
Arguments occ : simpl never.

(** functions still to be called by a Shutdown call in progress *)
Definition todoOf (fs : list N) (p : shutPhase) : list N :=
  match p with ShClose => fs | ShRun l => l | ShWait => [] end.

Record shinv (s : shst) : Prop := {
  h_nd : done s = false -> shutters s = [] /\ late s = [] /\ chanClosed s = false /\ forall f, ran s f = 0 /\ occ (funcs s) f = regs s f;
  h_d : done s = true -> exists p, shutters s = [p] /\ (chanClosed s = match p with ShClose => false | _ => true end) /\
        forall f, ran s f + occ (todoOf (funcs s) p) f + occ (late s) f = regs s f;
  h_p : panicked s = false }.

Lemma occ_app : forall a b f, occ (a ++ b) f = occ a f + occ b f.
Proof. intros. unfold occ. apply count_occ_app. Qed.
Lemma occ_cons : forall a l f, occ (a :: l) f = (if N.eqb a f then 1 else 0) + occ l f.
Proof.
  intros. unfold occ. cbn. destruct (N.eq_dec a f) as [->|H]; [rewrite N.eqb_refl; reflexivity|].
  destruct (N.eqb_spec a f); [contradiction|reflexivity].
Qed.
Lemma occ_del : forall l k f g, nth_error l k = Some f -> occ l g = (if N.eqb f g then 1 else 0) + occ (delNth l k) g.
Proof.
  induction l as [|x l IH]; intros [|k] f g H; cbn in H; try discriminate.
  - inversion H; subst. cbn [delNth]. apply occ_cons.
  - cbn [delNth]. rewrite !occ_cons. rewrite (IH k f g H). lia.
Qed.
Lemma upd_S : forall (m : N -> nat) f g, upd m f (S (m f)) g = (if N.eqb f g then 1 else 0) + m g.
Proof.
  intros. unfold upd. rewrite (N.eqb_sym f g). destruct (N.eqb_spec g f) as [->|]; reflexivity.
Qed.

Lemma shinv_init : forall ls, shinv (shinit ls).
Proof. intro ls. split; cbn; [auto|discriminate|reflexivity]. Qed.

Lemma shinv_step : forall s l s', shinv s -> shstep s l = Some s' -> shinv s'.
Proof.
  intros s l s' [HN HD HP] H. unfold shstep in H. rewrite HP in H. destruct l as [bad|k|f|k|i add].
  - destruct (done s) eqn:D.
    + inversion H; subst; clear H. split; cbn; auto.
    + destruct (HN eq_refl) as (A & B & C & E). destruct (closeListeners 0 (listeners s) bad) as [ls err]. destruct err.
      * inversion H; subst; clear H. split; cbn; auto; congruence.
      * inversion H; subst; clear H. split; cbn; [discriminate| |reflexivity || assumption].
        intros _. exists ShClose. rewrite A, B. split; [reflexivity|]. split; [assumption|].
        intro f. destruct (E f) as [E1 E2]. cbn [todoOf]. change (occ [] f) with 0. lia.
  - destruct (done s) eqn:D.
    2:{ destruct (HN eq_refl) as (A & _). rewrite A in H. destruct k; discriminate. }
    destruct (HD eq_refl) as (p & A & B & E). rewrite A in H. destruct k as [|k]; [|destruct k; discriminate]. cbn in H.
    destruct p as [|[|f fs]|]; inversion H; subst; clear H.
    + split; cbn; [congruence| |first [reflexivity|assumption]]. intros _. exists (ShRun (funcs s)). repeat split; try assumption.
    + split; cbn; [congruence| |first [reflexivity|assumption]]. intros _. exists ShWait. repeat split; try assumption.
    + split; cbn; [congruence| |first [reflexivity|assumption]]. intros _. exists (ShRun fs). repeat split; try assumption.
      intro g. specialize (E g). cbn [todoOf] in *. rewrite occ_cons in E. rewrite upd_S. lia.
  - destruct (done s) eqn:D; inversion H; subst; clear H.
    + destruct (HD eq_refl) as (p & A & B & E). split; cbn; [congruence| |first [reflexivity|assumption]]. intros _. exists p. repeat split; try assumption.
      intro g. specialize (E g). rewrite occ_app, occ_cons, upd_S. change (occ [] g) with 0. lia.
    + destruct (HN eq_refl) as (A & B & C & E). split; cbn; [|congruence|first [reflexivity|assumption]]. intros _. repeat split; try assumption; [apply E|].
      rewrite occ_app, occ_cons, upd_S. destruct (E f0) as [_ E2]. change (occ [] f0) with 0. lia.
  - destruct (nth_error (late s) k) as [f|] eqn:EL; [|discriminate]. inversion H; subst; clear H.
    destruct (done s) eqn:D.
    + destruct (HD eq_refl) as (p & A & B & E). split; cbn; [congruence| |first [reflexivity|assumption]]. intros _. exists p. repeat split; try assumption.
      intro g. specialize (E g). rewrite (occ_del _ _ _ g EL) in E. rewrite upd_S. lia.
    + destruct (HN eq_refl) as (A & B & C & E). rewrite B in EL. destruct k; discriminate.
  - inversion H; subst; clear H. split; cbn; auto.
Qed.

Lemma shreach : forall ls s, reachable shstep (shinit ls) s -> shinv s.
Proof. intros ls s R. exact (reachable_inv shstep shinv _ (shinv_init ls) shinv_step s R). Qed.

(** Every function runs at most as often as it was registered; never before Shutdown succeeded in closing
    the listeners; and exactly as often once the Shutdown call in progress and the late OnShutdown calls
    are past their calls.  With distinct registrations this is "exactly once". *)
Theorem C34_exactly_once :
  forall ls s, reachable shstep (shinit ls) s ->
  (forall f, ran s f <= regs s f) /\
  (done s = false -> forall f, ran s f = 0) /\
  (done s = true -> late s = [] -> Forall (fun p => p = ShWait) (shutters s) -> forall f, ran s f = regs s f).
Proof.
  intros ls s R. destruct (shreach ls s R) as [HN HD HP]. repeat split.
  - intro f. destruct (done s).
    + destruct (HD eq_refl) as (p & A & B & E). specialize (E f). lia.
    + destruct (HN eq_refl) as (_ & _ & _ & E). destruct (E f). lia.
  - intros D f. destruct (HN D) as (_ & _ & _ & E). apply E.
  - intros D HL HF f. destruct (HD D) as (p & A & B & E). rewrite A in HF. inversion HF; subst. specialize (E f).
    rewrite HL in E. cbn [todoOf] in E. change (occ [] f) with 0 in E. lia.
Qed.
Print Assumptions C34_exactly_once.

(** However many goroutines call Shutdown, doneChan is closed once: no panic. *)
Theorem C34_no_panic : forall ls s, reachable shstep (shinit ls) s -> panicked s = false.
Proof. intros ls s R. apply (shreach ls s R). Qed.
Print Assumptions C34_no_panic.

(** The calls in progress can always finish: every registered function gets its call. *)
Lemma finish_run : forall fs s, panicked s = false -> (exists l, shutters s = [ShRun l] /\ l = fs) ->
  exists ks s', run shstep s ks = Some s' /\ shutters s' = [ShWait] /\ late s' = late s /\ done s' = done s /\ panicked s' = false.
Proof.
  induction fs as [|f fs IH]; intros s HP (l & A & ->).
  - eexists [LShutStep 0], _. unfold run, shstep. rewrite HP, A. cbn. repeat split; assumption.
  - assert (E : exists s1, shstep s (LShutStep 0) = Some s1 /\ shutters s1 = [ShRun fs] /\ late s1 = late s /\ done s1 = done s /\ panicked s1 = false).
    { eexists. unfold shstep. rewrite HP, A. cbn. repeat split; assumption. }
    destruct E as (s1 & E1 & E2 & E3 & E4 & E5).
    destruct (IH s1 E5 (ex_intro _ fs (conj E2 eq_refl))) as (ks & s' & R & S1 & S2 & S3 & S4).
    exists (LShutStep 0 :: ks), s'. cbn [run]. rewrite E1. split; [assumption|]. split; [assumption|]. split; [congruence|]. split; [congruence|assumption].
Qed.

Lemma finish_late : forall fs s, panicked s = false -> late s = fs ->
  exists ks s', run shstep s ks = Some s' /\ late s' = [] /\ shutters s' = shutters s /\ done s' = done s /\ panicked s' = false.
Proof.
  induction fs as [|f fs IH]; intros s HP HL; [exists [], s; auto|].
  assert (E : exists s1, shstep s (LLate 0) = Some s1 /\ late s1 = fs /\ shutters s1 = shutters s /\ done s1 = done s /\ panicked s1 = false).
  { eexists. unfold shstep. rewrite HP, HL. cbn. repeat split; assumption. }
  destruct E as (s1 & E1 & E2 & E3 & E4 & E5). destruct (IH s1 E5 E2) as (ks & s' & R & S1 & S2 & S3 & S4).
  exists (LLate 0 :: ks), s'. cbn [run]. rewrite E1. split; [assumption|]. split; [assumption|]. split; [congruence|]. split; [congruence|assumption].
Qed.

Theorem C34_can_finish :
  forall ls s, reachable shstep (shinit ls) s -> done s = true ->
  exists ks s', run shstep s ks = Some s' /\ late s' = [] /\ Forall (fun p => p = ShWait) (shutters s') /\
    forall f, ran s' f = regs s' f.
Proof.
  intros ls s R D. pose proof (shreach ls s R) as [HN HD HP]. destruct (HD D) as (p & A & B & E).
  assert (G : exists ks s1, run shstep s ks = Some s1 /\ shutters s1 = [ShWait] /\ done s1 = true /\ panicked s1 = false).
  { destruct p as [|l|].
    - assert (E1 : exists s1, shstep s (LShutStep 0) = Some s1 /\ shutters s1 = [ShRun (funcs s)] /\ done s1 = true /\ panicked s1 = false).
      { eexists. unfold shstep. rewrite HP, A. cbn. repeat split; assumption. }
      destruct E1 as (s1 & E1 & E2 & E3 & E4).
      destruct (finish_run (funcs s) s1 E4 (ex_intro _ _ (conj E2 eq_refl))) as (ks & s2 & R2 & S1 & S2 & S3 & S4).
      exists (LShutStep 0 :: ks), s2. cbn [run]. rewrite E1. repeat split; congruence.
    - destruct (finish_run l s HP (ex_intro _ _ (conj A eq_refl))) as (ks & s2 & R2 & S1 & S2 & S3 & S4).
      exists ks, s2. repeat split; congruence.
    - exists [], s. repeat split; assumption. }
  destruct G as (ks & s1 & R1 & S1 & D1 & P1). destruct (finish_late (late s1) s1 P1 eq_refl) as (ks2 & s2 & R2 & L2 & S2 & D2 & P2).
  exists (ks ++ ks2), s2. rewrite run_app, R1. split; [assumption|]. split; [assumption|].
  assert (HF : Forall (fun p => p = ShWait) (shutters s2)) by (rewrite S2, S1; repeat constructor).
  split; [assumption|].
  assert (R' : reachable shstep (shinit ls) s2).
  { destruct R as [a Ra]. exists (a ++ ks ++ ks2). rewrite run_app, Ra, run_app, R1. assumption. }
  destruct (C34_exactly_once ls s2 R') as (_ & _ & X). apply X; [congruence|assumption|assumption].
Qed.
Print Assumptions C34_can_finish.

Lemma closeListeners_ok : forall ls i, snd (closeListeners i ls None) = false.
Proof.
  induction ls as [|l ls IH]; intro i; [reflexivity|]. cbn. destruct (negb l).
  - specialize (IH (S i)). destruct (closeListeners (S i) ls None). assumption.
  - specialize (IH (S i)). destruct (closeListeners (S i) ls None). assumption.
Qed.

Lemma closeListeners_all : forall ls i, Forall (fun l => l = false) (fst (closeListeners i ls None)) /\ length (fst (closeListeners i ls None)) = length ls.
Proof.
  induction ls as [|l ls IH]; intro i; [split; [constructor|reflexivity]|]. cbn. destruct (IH (S i)) as [A B].
  destruct l; cbn; destruct (closeListeners (S i) ls None); cbn in *; (split; [constructor; auto|congruence]).
Qed.

Lemma closeListeners_bad : forall ls i bad l', closeListeners i ls bad = (l', true) ->
  exists b, bad = Some (i + b) /\ nth_error ls b = Some true /\ length l' = length ls /\
    (forall j, j < b -> nth_error l' j = Some false) /\ (forall j, b <= j -> nth_error l' j = nth_error ls j).
Proof.
  induction ls as [|l ls IH]; intros i bad l' H; cbn in H; [discriminate|].
  assert (REC : forall r, closeListeners (S i) ls bad = (r, true) -> l' = false :: r ->
    exists b, bad = Some (i + b) /\ nth_error (l :: ls) b = Some true /\ length l' = length (l :: ls) /\
    (forall j, j < b -> nth_error l' j = Some false) /\ (forall j, b <= j -> nth_error l' j = nth_error (l :: ls) j)).
  { intros r E ->. destruct (IH _ _ _ E) as (b & B1 & B2 & B3 & B4 & B5). exists (S b). split; [rewrite B1; f_equal; lia|]. split; [assumption|].
    split; [cbn; congruence|]. split; [intros [|j] J; [reflexivity|apply B4; lia]|intros [|j] J; [lia|apply B5; lia]]. }
  destruct l; cbn in H.
  - destruct (match bad with Some b => b =? i | None => false end) eqn:EB.
    + inversion H; subst. destruct bad as [b|]; [|discriminate]. apply Nat.eqb_eq in EB. subst. exists 0. rewrite Nat.add_0_r.
      repeat split; auto. intros j J. lia.
    + destruct (closeListeners (S i) ls bad) as [r e] eqn:E. inversion H; subst. apply (REC r); reflexivity.
  - destruct (closeListeners (S i) ls bad) as [r e] eqn:E. inversion H; subst. apply (REC r); reflexivity.
Qed.

(** A listener that fails to close: nothing was run, doneChan is open, that listener and those after it are kept, the ones before
    are closed, and Shutdown can be retried and then succeeds when the listeners close; none is left. *)
Theorem C34_retry_after_listener_error :
  forall ls s bad s', reachable shstep (shinit ls) s -> done s = false ->
  shstep s (LShutdown bad) = Some s' -> failures s' = S (failures s) ->
  done s' = false /\ chanClosed s' = false /\ (forall f, ran s' f = 0) /\ funcs s' = funcs s /\
  (exists b, bad = Some b /\ nth_error (listeners s) b = Some true /\ length (listeners s') = length (listeners s) /\
    (forall j, j < b -> nth_error (listeners s') j = Some false) /\
    (forall j, b <= j -> nth_error (listeners s') j = nth_error (listeners s) j)) /\
  exists s2, shstep s' (LShutdown None) = Some s2 /\ done s2 = true /\ shutters s2 = [ShClose] /\
    Forall (fun l => l = false) (listeners s2) /\ length (listeners s2) = length (listeners s).
Proof.
  intros ls s bad s' R D H HF.
  assert (R' : reachable shstep (shinit ls) s') by (eapply reachable_step; eassumption).
  pose proof (shreach ls s' R') as [HN' HD' HP']. pose proof (shreach ls s R) as [HN HD HP].
  unfold shstep in H. rewrite HP, D in H. destruct (closeListeners 0 (listeners s) bad) as [l' err] eqn:EC. destruct err.
  2:{ inversion H; subst. cbn in HF. lia. }
  inversion H; subst; clear H. cbn in *. destruct (HN D) as (A & B & C & E).
  split; [reflexivity|]. split; [assumption|]. split; [apply E|]. split; [reflexivity|].
  destruct (closeListeners_bad _ _ _ _ EC) as (b & B1 & B2 & B3 & B4 & B5). split; [exists b; cbn in B1; repeat split; auto|].
  unfold shstep. cbn [panicked done listeners]. pose proof (closeListeners_ok l' 0) as HO. destruct (closeListeners_all l' 0) as [HA HL].
  destruct (closeListeners 0 l' None) as [l2 e2]. cbn in HO, HA, HL. subst e2. eexists. split; [reflexivity|]. cbn. split; [reflexivity|].
  cbn. rewrite A. split; [reflexivity|]. split; [assumption|congruence].
Qed.
Print Assumptions C34_retry_after_listener_error.

(** two functions before, one failing Shutdown, two concurrent Shutdowns, one late registration *)
Example C34_example :
  match run shstep (shinit [true; true])
    [LOnShutdown 1%N; LOnShutdown 2%N; LShutdown (Some 1); LShutdown None; LOnShutdown 3%N; LShutStep 0; LShutdown None; LShutStep 0; LLate 0; LShutStep 0; LShutStep 0] with
  | Some s => done s = true /\ late s = [] /\ shutters s = [ShWait] /\ waiters s = 1 /\ failures s = 1 /\
      map (ran s) [1;2;3;4]%N = [1;1;1;0] /\ listeners s = [false; false]
  | None => False
  end.
Proof. vm_compute. repeat split. Qed.
