(** C89: the counter of failed writes. *)
From Verif Require Import Model.GoBase Model.Machine Model.WriteCombine Proofs.WriteCombineP Proofs.WriteCombineQ Model.WriteMetrics.
Open Scope N_scope.

(** no EndWrite call is running *)
Definition quiet (s : wst) : Prop := forall w, pc s w = QIdle \/ exists r, pc s w = QDone r.

(** A connection on which a write has failed counts once, any other does not *)
Definition C89_statement : Prop := forall cap ls m, (1 <= cap)%nat -> run (mstep cap) minit ls = Some m -> quiet (conn m) ->
  length (counted m) = if failed (conn m) then 1%nat else 0%nat.

(** Calls 1 and 2 are written in one batch by call 1; the write fails after its own frame: nothing is counted *)
Definition otherFails : list wlabel :=
  [EServe; WStart 1; WStep 1 CSend; WStart 2; WStep 2 CSend; WStep 1 CLock; WStep 1 CGo; WStep 1 CGo; WStep 1 (CKeep true); WStep 1 (CKeep true); WStep 1 CDefault;
   WStep 1 (CWriteErr 1); WStep 1 CGo; WStep 1 CGo; WStep 1 CGo; WStep 1 CGo; WStep 1 CGo; WStep 1 CGo; WStep 1 CGo; WStep 1 CGo; WStep 1 CGo; WStep 2 CResult].
Lemma otherFails_run : match run (mstep 2) minit otherFails with
  Some m => failed (conn m) = true /\ counted m = [] /\ pc (conn m) 1 = QDone (Some ROk) /\ pc (conn m) 2 = QDone (Some RErr) /\ calls (conn m) = [2; 1] | None => False end.
Proof. vm_compute. auto. Qed.

(** The frame of call 1 is refused, its stream being over: this is counted, although nothing failed on the connection *)
Definition refused : list wlabel :=
  [EServe; WStart 1; WStep 1 CSend; WStep 1 CLock; WStep 1 CGo; WStep 1 CGo; WStep 1 (CReject RErr true); WStep 1 CDefault; WStep 1 CGo; WStep 1 CGo; WStep 1 CGo; WStep 1 CGo].
Lemma refused_run : match run (mstep 2) minit refused with
  Some m => failed (conn m) = false /\ ctxD (conn m) = false /\ counted m = [1] /\ pc (conn m) 1 = QDone (Some RErr) /\ calls (conn m) = [1] | None => False end.
Proof. vm_compute. auto. Qed.

(** the steps of the connection *)
Lemma conn_run : forall cap ls m m', run (mstep cap) m ls = Some m' -> run (wstep cap) (conn m) ls = Some (conn m').
Proof.
  intros cap ls. induction ls as [|l ls IH]; intros m m' R; cbn [run] in *; [injection R as <-; reflexivity|].
  destruct (mstep cap m l) as [m1|] eqn:H; [|discriminate R]. unfold mstep in H. destruct (wstep cap (conn m) l) as [s|]; [|discriminate H]. injection H as <-.
  apply IH in R. exact R.
Qed.
Lemma minv : forall cap ls m, run (mstep cap) minit ls = Some m -> winv cap (conn m).
Proof. intros cap ls m R. apply winv_reachable. exists ls. apply conn_run in R. exact R. Qed.

Lemma quiet_of : forall cap ls m, run (mstep cap) minit ls = Some m -> (forall w, In w (calls (conn m)) -> exists r, pc (conn m) w = QDone r) -> quiet (conn m).
Proof.
  intros cap ls m R H w. pose proof (minv _ _ _ R) as I. pose proof (v_calls _ _ I w) as C.
  destruct (pc (conn m) w) eqn:E; auto; right; rewrite <- E; apply H, C; congruence.
Qed.

Theorem C89_refuted : ~ C89_statement.
Proof.
  intro H. pose proof otherFails_run as K. destruct (run (mstep 2) minit otherFails) as [m|] eqn:R; [|contradiction]. destruct K as (A & B & C & D & E).
  specialize (H 2%nat otherFails m ltac:(lia) R). rewrite A, B in H. cbn in H. assert (0 = 1)%nat as X; [|discriminate X]. apply H.
  apply (quiet_of _ _ _ R). rewrite E. intros w [<-|[<-|[]]]; eauto.
Qed.
Print Assumptions C89_refuted.

(** ... in the other direction too: counted without a failed write *)
Theorem C89_counts_refused : exists ls m, run (mstep 2) minit ls = Some m /\ quiet (conn m) /\ failed (conn m) = false /\ ctxD (conn m) = false /\ length (counted m) = 1%nat.
Proof.
  pose proof refused_run as K. destruct (run (mstep 2) minit refused) as [m|] eqn:R; [|contradiction]. destruct K as (A & B & C & D & E).
  exists refused, m. split; [exact R|]. split; [|rewrite C; auto]. apply (quiet_of _ _ _ R). rewrite E. intros w [<-|[]]. eauto.
Qed.
Print Assumptions C89_counts_refused.

(** an error, of the context or of the frame *)
Definition errorResult (r : option wr) : Prop := r = None \/ r = Some RErr.
Lemma isErr_spec : forall r, isErr r = true <-> errorResult r.
Proof. intro r. unfold errorResult. destruct r as [[]|]; cbn; split; intro H; auto; try discriminate H; destruct H as [H|H]; discriminate H. Qed.
(** the call has returned, or is about to return, an error *)
Definition returnsErr (p : wpc) : Prop := exists r, errorResult r /\ (p = QUnl r \/ p = QDone r).

(** where the other calls are does not change *)
Lemma others : forall cap s w c s' x, cstep cap s w c = Some s' -> x <> w -> pc s' x = pc s x.
Proof. intros cap s w c s' x H N. cases H; cbn; apply upd_neq; exact N. Qed.
Lemma from_free : forall cap s w c s' ok r, cstep cap s w c = Some s' -> pc s w = QFree ok r -> pc s' w = (if ok then QUnl r else QDone r).
Proof. intros cap s w c s' ok r H E. unfold cstep in H. rewrite E in H. destruct c; try discriminate H. injection H as <-. cbn. unfold tryFree. destruct (infl _ =? 0)%Z; cbn; apply upd_eq. Qed.
Lemma from_ret : forall cap s w c s', cstep cap s w c = Some s' -> returnsErr (pc s w) -> returnsErr (pc s' w).
Proof.
  intros cap s w c s' H (r & E & [P|P]); unfold cstep in H; rewrite P in H; destruct c; try discriminate H. injection H as <-. exists r. split; [exact E|right]. cbn. apply upd_eq.
Qed.
(** the steps that are not a call's leave all calls that have begun where they are, and the lock, and a failed write *)
Lemma env : forall cap s l s', wstep cap s l = Some s' -> (forall w c, l <> WStep w c) ->
  (forall x, pc s x <> QIdle -> pc s' x = pc s x) /\ lock s' = lock s /\ failed s' = failed s.
Proof.
  assert (U : forall st s, pc (useCs st s) = pc s /\ lock (useCs st s) = lock s /\ failed (useCs st s) = failed s) by (intros st s; unfold useCs; destruct (_ && _)%bool; auto).
  assert (T : forall s, pc (tryFree s) = pc s /\ lock (tryFree s) = lock s /\ failed (tryFree s) = failed s) by (intro s; unfold tryFree; cbn; destruct (_ =? _)%Z; auto).
  assert (ST : forall s w, isIdle (pc s w) = true -> forall x, pc s x <> QIdle -> upd (pc s) w QEnq x = pc s x).
  { intros s w A x N. apply upd_neq. intros ->. destruct (pc s w); try discriminate A. congruence. }
  intros cap s l s' H NW. destruct l as [w|w c| | | | | | | | |w| |]; cbn [wstep] in H; [|destruct (NW w c eq_refl)|..].
  - destruct (isIdle (pc s w)) eqn:E; [|discriminate H]. injection H as <-. cbn. auto.
  - destruct (rd s); try discriminate H. injection H as <-. auto.
  - destruct (rd s); try discriminate H. injection H as <-. destruct (U true s) as (-> & -> & ->). auto.
  - destruct (rd s); try discriminate H. destruct (clsd s || ctxD s)%bool; [|discriminate H]. injection H as <-. destruct (T (w_rd RQuit s)) as (-> & -> & ->). auto.
  - destruct (untr s); [discriminate H|]. injection H as <-. auto.
  - destruct (utch s); [|discriminate H]. injection H as <-. auto.
  - destruct (clsd s); [|discriminate H]. injection H as <-. auto.
  - injection H as <-. auto.
  - destruct (untr s); [discriminate H|]. injection H as <-. auto.
  - destruct (kcb s); [discriminate H|]. destruct (kicking s); [|discriminate H]. cbn in H. destruct (isIdle (pc s w)) eqn:E; [|discriminate H]. injection H as <-. cbn. auto.
  - destruct (kcb s) as [w|]; [|discriminate H]. destruct (pc s w); try discriminate H. injection H as <-. auto.
  - destruct (kcb s); [discriminate H|]. destruct (kicking s); [|discriminate H]. injection H as <-. auto.
Qed.

(** Each count is made by another EndWrite call, and this call returns an error *)
Theorem C89_errors_partial : forall cap ls m, run (mstep cap) minit ls = Some m ->
  NoDup (counted m) /\ forall w, In w (counted m) -> returnsErr (pc (conn m) w).
Proof.
  intros cap ls m R. eapply (@run_inv _ _ (mstep cap) (fun m => NoDup (counted m) /\ forall w, In w (counted m) -> returnsErr (pc (conn m) w))); [| |exact R].
  - clear. intros [s k] l m' [D A] H. unfold mstep in H. cbn [conn counted] in *. destruct (wstep cap s l) as [s'|] eqn:W; [|discriminate H]. injection H as <-. cbn [conn counted].
    assert (NI : forall x, returnsErr (pc s x) -> pc s x <> QIdle) by (intros x (r & _ & [P|P]); rewrite P; discriminate).
    destruct l as [w|w c| | | | | | | | |w| |];
      try (split; [exact D|]; intros x X; rewrite (proj1 (env _ _ _ _ W ltac:(intros ? ? Y; discriminate Y)) x (NI x (A x X))); apply A, X).
    cbn [wstep] in W.
    assert (OLD : forall x, In x k -> returnsErr (pc s' x)).
    { intros x X. destruct (N.eq_dec x w) as [->|N]; [apply (from_ret _ _ _ _ _ W), A, X|rewrite (others _ _ _ _ _ x W N); apply A, X]. }
    destruct (pc s w) eqn:P; auto. destruct (isErr r) eqn:E; auto. split.
    + constructor; [|exact D]. intro X. destruct (A w X) as (r' & _ & [Q|Q]); rewrite P in Q; discriminate Q.
    + intros x [<-|X]; [|auto]. exists r. split; [apply isErr_spec, E|]. rewrite (from_free _ _ _ _ _ _ _ W P). destruct ok; auto.
  - split; [constructor|intros w []].
Qed.
Print Assumptions C89_errors_partial.

(** the call that had the failed write, before its deferred function *)
Definition failing (p : wpc) : Prop :=
  match p with QErr _ _ | QUntr _ _ | QWaitU _ _ | QCls _ _ | QCan _ _ | QAns _ false | QWait false | QFree false _ => True | _ => False end.
Definition overP (p : wpc) : Prop := exists r, p = QDone r.

(** a failed write is some call's, which keeps the lock *)
Definition finv (s : wst) : Prop := failed s = true -> exists h, lock s = Some h /\ (failing (pc s h) \/ overP (pc s h)).

Lemma failing_step : forall cap s h c s', winv cap s -> lock s = Some h -> cstep cap s h c = Some s' -> failing (pc s h) ->
  lock s' = Some h /\ (failing (pc s' h) \/ (exists r, pc s h = QFree false r) /\ overP (pc s' h)).
Proof.
  intros cap s h c s' I L H F. destruct (pc s h) eqn:P; cbn [failing] in F; try contradiction; try (destruct ok; [contradiction|]).
  all: revert H; unfold cstep; rewrite P; intro H; destruct c; try discriminate H.
  all: repeat match type of H with context[match ?y with _ => _ end] => destruct y eqn:?; try discriminate H end.
  all: try match type of H with context[tryFree ?t] => let v := fresh "n" in let E := fresh "E" in destruct (tryFree_eq t) as [v E]; rewrite E in H; clear E end.
  all: injection H as <-; cbn; rewrite upd_eq; split; try exact L; cbn [failing]; auto.
  right. split; [eauto|eexists; reflexivity].
Qed.
Lemma over_step : forall cap s h c s', cstep cap s h c = Some s' -> overP (pc s h) -> False.
Proof. intros cap s h c s' H [r P]. unfold cstep in H. rewrite P in H. destruct c; discriminate H. Qed.
Lemma other_step : forall cap s h w c s', winv cap s -> lock s = Some h -> w <> h -> cstep cap s w c = Some s' -> lock s' = Some h /\ failed s' = failed s /\ (forall ok r, pc s w <> QFree ok r).
Proof.
  intros cap s h w c s' I L N H. assert (NC : crit (pc s w) = false) by (destruct (crit (pc s w)) eqn:C; [apply (v_crit _ _ I) in C; congruence|reflexivity]).
  destruct (pc s w) eqn:P; cbn [crit] in NC; try discriminate NC; revert H; unfold cstep; rewrite P; intro H; destruct c; try discriminate H;
  repeat match type of H with context[match ?y with _ => _ end] => destruct y eqn:?; try discriminate H end; injection H as <-; cbn; (split; [first [exact L|congruence]|split; [reflexivity|discriminate]]).
Qed.

Lemma finv_step : forall cap s l s', winv cap s -> finv s -> wstep cap s l = Some s' -> finv s'.
Proof.
  intros cap s l s' I F H.
  assert (KEEP : forall h, failing (pc s h) \/ overP (pc s h) -> pc s h <> QIdle) by (intros h [A|[r A]] E; rewrite E in A; [exact A|discriminate A]).
  destruct (match l with WStep w c => true | _ => false end) eqn:SL.
  - destruct l as [|w c| | | | | | | | | | |]; try discriminate SL. cbn [wstep] in H. intro FS. destruct (failed s) eqn:FA.
    + destruct (F FA) as (h & L & K). destruct (N.eq_dec w h) as [->|N].
      * destruct K as [K|K]; [|destruct (over_step _ _ _ _ _ H K)]. destruct (failing_step _ _ _ _ _ I L H K) as [L' [X|[_ X]]]; eauto.
      * destruct (other_step _ _ _ _ _ _ I L N H) as (L' & _ & _). exists h. split; [exact L'|]. rewrite (others _ _ _ _ _ h H) by congruence. exact K.
    + assert (X : exists k n, pc s w = QWrite k /\ pc s' w = QErr k n).
      { clear I. cases H; cbn in FS; try congruence. do 2 eexists. split; [reflexivity|cbn; apply upd_eq]. }
      destruct X as (k & n & X & Y). exists w. rewrite Y. split; [|left; exact Logic.I]. assert (C : crit (pc s w) = true) by (rewrite X; reflexivity). apply (v_crit _ _ I) in C.
      clear - H C X. unfold cstep in H. rewrite X in H. destruct k; destruct c; try discriminate H; repeat match type of H with context[match ?y with _ => _ end] => destruct y eqn:?; try discriminate H end; injection H as <-; exact C.
  - assert (NW : forall w c, l <> WStep w c) by (intros w c ->; discriminate SL). destruct (env _ _ _ _ H NW) as (A & B & C). intro FS. rewrite C in FS. destruct (F FS) as (h & L & K).
    exists h. rewrite B, (A h (KEEP h K)). auto.
Qed.

(** once a write has failed, there is at most one more count *)
Definition ginv (cap n : nat) (h : N) (m : mst) : Prop :=
  winv cap (conn m) /\ lock (conn m) = Some h /\ (failing (pc (conn m) h) /\ (length (counted m) <= n)%nat \/ overP (pc (conn m) h) /\ (length (counted m) <= S n)%nat).
Lemma ginv_step : forall cap n h m l m', ginv cap n h m -> mstep cap m l = Some m' -> ginv cap n h m'.
Proof.
  intros cap n h [s k] l m' (I & L & K) H. unfold mstep in H. cbn [conn counted] in *. destruct (wstep cap s l) as [s'|] eqn:W; [|discriminate H]. injection H as <-.
  pose proof (wstep_inv _ _ _ _ I W) as I'. unfold ginv. cbn [conn counted]. split; [exact I'|].
  destruct (match l with WStep w c => true | _ => false end) eqn:SL.
  - destruct l as [|w c| | | | | | | | | | |]; try discriminate SL. cbn [wstep] in W. destruct (N.eq_dec w h) as [->|N].
    + destruct K as [[K C]|[K C]]; [|destruct (over_step _ _ _ _ _ W K)]. destruct (failing_step _ _ _ _ _ I L W K) as [L' [X|[[r X] Y]]]; (split; [exact L'|]).
      * left. split; [exact X|]. destruct (pc s h) eqn:P; auto. exfalso. rewrite (from_free _ _ _ _ _ _ _ W P) in X. cbn in K. destruct ok; [contradiction|]. exact X.
      * right. split; [exact Y|]. rewrite X. destruct (isErr r); cbn; lia.
    + destruct (other_step _ _ _ _ _ _ I L N W) as (L' & _ & Q). split; [exact L'|]. rewrite (others _ _ _ _ _ h W) by congruence. destruct (pc s w); auto. destruct (Q ok r eq_refl).
  - assert (NW : forall w c, l <> WStep w c) by (intros w c ->; discriminate SL). destruct (env _ _ _ _ W NW) as (A & B & C). rewrite B, A.
    + split; [exact L|]. destruct l; try exact K. discriminate SL.
    + intro E. rewrite E in K. destruct K as [[K _]|[[r K] _]]; [exact K|discriminate K].
Qed.

Theorem C89_once_partial : forall cap ls1 m ls2 m', run (mstep cap) minit ls1 = Some m -> failed (conn m) = true -> run (mstep cap) m ls2 = Some m' ->
  (length (counted m') <= S (length (counted m)))%nat.
Proof.
  intros cap ls1 m ls2 m' R1 F R2.
  assert (FI : finv (conn m) /\ winv cap (conn m)).
  { eapply (@run_inv _ _ (mstep cap) (fun m => finv (conn m) /\ winv cap (conn m))); [| |exact R1].
    - intros a l b [A B] H. unfold mstep in H. destruct (wstep cap (conn a) l) as [s'|] eqn:W; [|discriminate H]. injection H as <-. cbn [conn]. split; [apply (finv_step _ _ _ _ B A W)|apply (wstep_inv _ _ _ _ B W)].
    - split; [intro X; discriminate X|apply winv_init]. }
  destruct FI as [FI I]. destruct (FI F) as (h & L & K).
  assert (G : ginv cap (length (counted m)) h m') .
  { destruct K as [K|K].
    - eapply (@run_inv _ _ (mstep cap) (ginv cap (length (counted m)) h)); [apply ginv_step| |exact R2]. split; [exact I|]. split; [exact L|]. left. auto.
    - eapply (@run_inv _ _ (mstep cap) (ginv cap (length (counted m)) h)); [apply ginv_step| |exact R2]. split; [exact I|]. split; [exact L|]. right. auto. }
  destruct G as (_ & _ & [[_ G]|[_ G]]); lia.
Qed.
Print Assumptions C89_once_partial.

(** The call whose write failed keeps the lock; it is counted exactly if its own EndWrite returns an error *)
Definition jinv (cap : nat) (m : mst) : Prop := winv cap (conn m) /\ finv (conn m) /\
  (failed (conn m) = true -> forall h r, lock (conn m) = Some h -> pc (conn m) h = QDone r -> isErr r = true -> In h (counted m)).
Lemma jinv_step : forall cap m l m', jinv cap m -> mstep cap m l = Some m' -> jinv cap m'.
Proof.
  intros cap [s k] l m' (I & F & J) H. unfold mstep in H. cbn [conn counted] in *. destruct (wstep cap s l) as [s'|] eqn:W; [|discriminate H]. injection H as <-.
  unfold jinv. cbn [conn counted]. split; [apply (wstep_inv _ _ _ _ I W)|]. split; [apply (finv_step _ _ _ _ I F W)|]. intros FS h r L P E.
  destruct (match l with WStep w c => true | _ => false end) eqn:SL.
  - destruct l as [|w c| | | | | | | | | | |]; try discriminate SL. cbn [wstep] in W. destruct (failed s) eqn:FA.
    + destruct (F FA) as (g & L0 & K). destruct (N.eq_dec w g) as [->|N].
      * destruct K as [K|K]; [|destruct (over_step _ _ _ _ _ W K)]. destruct (failing_step _ _ _ _ _ I L0 W K) as [L' X]. rewrite L in L'. injection L' as <-.
        rewrite P in X. destruct X as [X|[[r' X] _]]; [destruct X|]. pose proof (from_free _ _ _ _ _ _ _ W X) as Y. rewrite P in Y. injection Y as <-. rewrite X, E. left. reflexivity.
      * destruct (other_step _ _ _ _ _ _ I L0 N W) as (L' & _ & Q). rewrite L in L'. injection L' as <-. rewrite (others _ _ _ _ _ h W) in P by congruence.
        destruct (pc s w) eqn:PW; try (apply (J eq_refl h r); assumption). destruct (Q ok r0 eq_refl).
    + exfalso. assert (X : exists k0 n, pc s w = QWrite k0 /\ pc s' w = QErr k0 n).
      { clear I F. cases W; cbn in FS; try congruence. do 2 eexists. split; [reflexivity|cbn; apply upd_eq]. }
      destruct X as (k0 & n & X & Y). assert (C : crit (pc s' w) = true) by (rewrite Y; reflexivity).
      apply (v_crit _ _ (wstep_inv cap s (WStep w c) s' I W)) in C. rewrite L in C. injection C as ->. congruence.
  - assert (NW : forall w c, l <> WStep w c) by (intros w c ->; discriminate SL). destruct (env _ _ _ _ W NW) as (A & B & C). rewrite C in FS. rewrite B in L.
    destruct (F FS) as (g & L0 & K). rewrite L in L0. injection L0 as <-.
    assert (NI : pc s h <> QIdle) by (intro X; rewrite X in K; destruct K as [K|[q K]]; [exact K|discriminate K]). rewrite (A h NI) in P.
    destruct l; try (apply (J FS h r); assumption). discriminate SL.
Qed.
Theorem C89_own_error_partial : forall cap ls m h r, run (mstep cap) minit ls = Some m -> failed (conn m) = true -> lock (conn m) = Some h -> pc (conn m) h = QDone r ->
  (In h (counted m) <-> errorResult r).
Proof.
  intros cap ls m h r R F L P. split.
  - intro X. destruct (proj2 (C89_errors_partial _ _ _ R) h X) as (r' & E & [Q|Q]); rewrite P in Q; [discriminate Q|injection Q as <-; exact E].
  - assert (J : jinv cap m).
    { eapply (@run_inv _ _ (mstep cap) (jinv cap)); [apply jinv_step| |exact R]. split; [apply winv_init|]. split; intro X; discriminate X. }
    destruct J as (_ & _ & J). intro E. apply (J F h r L P), isErr_spec, E.
Qed.
Print Assumptions C89_own_error_partial.

(** The hypotheses are met: the write of a single frame fails and is counted once; a later call is not counted *)
Example C89_case :
  option_map (fun m => (failed (conn m), counted m, pc (conn m) 1, pc (conn m) 2)) (run (mstep 2) minit
    [EServe; WStart 1; WStep 1 CSend; WStep 1 CLock; WStep 1 CGo; WStep 1 CGo; WStep 1 (CKeep true); WStep 1 CDefault; WStep 1 (CWriteErr 0);
     WStep 1 CGo; WStep 1 CGo; WStep 1 CGo; WStep 1 CGo; WStep 1 CGo; WStep 1 CGo; WStep 1 CGo; WStep 1 CGo; WStart 2; WStep 2 CSend; WStep 2 CCtx])
  = Some (true, [1], QDone (Some RErr), QDone None).
Proof. vm_compute. reflexivity. Qed.
