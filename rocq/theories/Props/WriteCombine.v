(** C30, C31, C51: concurrent EndWrite calls on a server connection, the release of its streams, and the kick. *)
From Verif Require Import Model.GoBase Model.Machine Model.WriteCombine Spec.OrderSpec Proofs.WriteCombineP Proofs.WriteCombineQ.
From Coq Require Import ZifyBool ZifyNat ZifyN.
Open Scope N_scope.

(** *** Specification vocabulary *)

(** EndWrite call w has been made *)
Definition called (s : wst) (w : N) : Prop := pc s w <> QIdle.
(** it has returned; [None]: without a result, with the context's error *)
Definition returned (s : wst) (w : N) (r : option wr) : Prop := pc s w = QDone r.
(** it is writing to the connection *)
Definition writing (s : wst) (w : N) : Prop := exists k, pc s w = QWrite k.
(** it is between addAndCheckInflight and tryFreeStreams: it may use the streams *)
Definition usesStreams (s : wst) (w : N) : Prop := sect (pc s w) = true.
(** the connection has not been closed, its context not cancelled, and no write has failed *)
Definition isUp (s : wst) : Prop := clsd s = false /\ ctxD s = false /\ failed s = false.
(** some call can take a step that is not a failing write *)
Definition canGo (cap : nat) (s : wst) : Prop := exists w c s', wstep cap s (WStep w c) = Some s' /\ failed s' = failed s.

(** *** More lemmas *)

Lemma cstep_up : forall cap s w c s', winv cap s -> failed s = false -> cstep cap s w c = Some s' -> clsd s' = clsd s /\ ctxD s' = ctxD s.
Proof.
  intros cap s w c s' I F H. pose proof (v_why cap s I w) as Y. unfold whyNot in Y. cases H; cbn; auto; destruct Y; congruence.
Qed.

Lemma reach_run : forall cap i s ls s', reachable (wstep cap) i s -> run (wstep cap) s ls = Some s' -> reachable (wstep cap) i s'.
Proof. intros cap i s ls s' [l0 H0] H. exists (l0 ++ ls). rewrite run_app, H0. assumption. Qed.

Lemma served_reachable : forall cap s, reachable (wstep cap) served s -> reachable (wstep cap) winit s.
Proof. intros cap s [ls H]. exists (EServe :: ls). exact H. Qed.

Lemma run_keeps_failed : forall cap ls s s', forallb isStep ls = true -> run (wstep cap) s ls = Some s' -> failed s = true -> failed s' = true.
Proof.
  intros cap. induction ls as [|l ls IH]; intros s s' HS H F; cbn in *; [congruence|]. apply andb_prop in HS. destruct HS as [A B].
  destruct (wstep cap s l) as [t|] eqn:E; [|discriminate]. apply (IH t s' B H). destruct l; try discriminate. apply (cstep_flags cap s w c t E). assumption.
Qed.

Lemma run_up : forall cap ls s s', winv cap s -> forallb isStep ls = true -> run (wstep cap) s ls = Some s' -> failed s' = false ->
  failed s = false /\ clsd s' = clsd s /\ ctxD s' = ctxD s.
Proof.
  intros cap ls s s' I HS H F. assert (F0 : failed s = false). { destruct (failed s) eqn:E; [|reflexivity]. rewrite (run_keeps_failed cap ls s s' HS H E) in F. discriminate. }
  split; [assumption|]. revert s I H F0. induction ls as [|l ls IH]; intros s I H F0; cbn in *; [inversion H; auto|].
  apply andb_prop in HS. destruct HS as [A B]. destruct (wstep cap s l) as [t|] eqn:E; [|discriminate]. destruct l; try discriminate. cbn in E.
  assert (FT : failed t = false). { destruct (failed t) eqn:X; [|reflexivity]. rewrite (run_keeps_failed cap ls t s' B H X) in F. discriminate. }
  destruct (IH B t (cstep_inv cap s w c t I E) H FT) as [X Y]. destruct (cstep_up cap s w c t I F0 E). split; congruence.
Qed.

(** every call can be brought to its end, when no write fails *)
Lemma complete : forall cap, (1 <= cap)%nat -> forall n s, (total cap s <= n)%nat -> winv cap s -> sinv s -> ninv s -> failed s = false -> (clsd s = true -> ctxD s = true) ->
  exists ls s', forallb isStep ls = true /\ run (wstep cap) s ls = Some s' /\ failed s' = false /\ forall w, finished (pc s' w) = true.
Proof.
  intros cap HC. induction n as [n IH] using lt_wf_ind. intros s HT I S N F X.
  assert (D : (forall w, In w (calls s) -> finished (pc s w) = true) \/ exists w, finished (pc s w) = false).
  { clear. induction (calls s) as [|x l IH]; [left; contradiction|]. destruct (finished (pc s x)) eqn:E; [|right; eauto].
    destruct IH as [IH|IH]; [left; intros w [A|A]; [congruence|auto]|right; assumption]. }
  destruct D as [D|[w D]].
  - exists [], s. repeat split; auto. intros w. destruct (finished (pc s w)) eqn:E; [reflexivity|]. rewrite D in E; [discriminate|].
    apply (v_calls cap s I). intros A. rewrite A in E. discriminate.
  - destruct (no_deadlock cap s w HC I S N F X D) as (x & c & t & H & FT).
    destruct (cstep_up cap s x c t I F H) as [U1 U2].
    pose proof (cstep_total cap s x c t I H) as TT.
    destruct (IH (total cap t) ltac:(lia) t (le_n _) (cstep_inv cap s x c t I H) (cstep_sinv cap s x c t I S H) (cstep_ninv cap s x c t N H) FT) as (ls & s' & A1 & A2 & A3 & A4).
    { rewrite U1, U2. assumption. }
    exists (WStep x c :: ls), s'. repeat split; auto. cbn. rewrite H. assumption.
Qed.

(** *** C30 *)

(** One goroutine at a time writes. *)
Theorem C30_one_writer : forall cap s w w', reachable (wstep cap) winit s -> writing s w -> writing s w' -> w = w'.
Proof.
  intros cap s w w' HR [k HW] [k' HW']. pose proof (winv_reachable cap s HR) as I.
  pose proof (v_crit cap s I w ltac:(rewrite HW; reflexivity)). pose proof (v_crit cap s I w' ltac:(rewrite HW'; reflexivity)). congruence.
Qed.

(** Frames reach the wire in the order they were queued, each at most once. *)
Theorem C30_wire_order : forall cap s, reachable (wstep cap) winit s -> subseq (wire s) (enq s) /\ NoDup (wire s).
Proof.
  intros cap s HR. pose proof (winv_reachable cap s HR) as I.
  assert (A : subseq (wire s) (enq s)). { eapply subseq_trans; [apply (v_ord cap s I)|]. rewrite <- (app_nil_r (wire s)) at 1. apply subseq_app; [apply subseq_refl|constructor]. }
  split; [assumption|]. eapply subseq_nodup; [eassumption|apply (v_enq cap s I)].
Qed.

(** A call returns a nil result for a frame that was to be sent exactly when the whole frame is on the wire, an error only if it is not. *)
Theorem C30_result_true : forall cap s w r, reachable (wstep cap) winit s -> returned s w (Some r) ->
  (r = ROk <-> In w (wire s)) /\ In w (enq s).
Proof.
  intros cap s w r HR HD. pose proof (winv_reachable cap s HR) as I. unfold returned in HD. split.
  - pose proof (v_resok cap s I w) as Y. unfold resok, okw in Y. rewrite HD in Y. destruct r; split; intros; try discriminate; auto; contradiction.
  - destruct (v_done cap s I w) as [A|A]; [rewrite HD in A; contradiction|assumption].
Qed.

(** A call gets one result: once returned, it stays so whatever happens. *)
Theorem C30_one_result : forall cap s w r ls s', reachable (wstep cap) winit s -> returned s w r -> run (wstep cap) s ls = Some s' -> returned s' w r.
Proof.
  intros cap s w r ls s' HR HD H. pose proof (winv_reachable cap s HR) as I. clear HR. unfold returned in *. revert s I HD H.
  induction ls as [|l ls IH]; intros s I HD H; cbn in H; [congruence|]. destruct (wstep cap s l) as [t|] eqn:E; [|discriminate].
  apply (IH t (wstep_inv cap s l t I E)); [|assumption]. destruct (label_dec l) as [(x & c & ->)|NS].
  - destruct (N.eq_dec w x) as [->|NE]; [cbn in E; unfold cstep in E; rewrite HD in E; discriminate|]. rewrite (cstep_pc cap s x c t w E NE). assumption.
  - destruct (wstep_other cap s l t I E NS) as (_ & _ & _ & _ & _ & _ & A & _). rewrite A by congruence. assumption.
Qed.

(** No call spins: in every execution a call takes at most 15 + 2 * WriteFrameChSize steps of its own, those
    of collecting, writing and answering a whole batch for others included. *)
Theorem C30_bounded : forall cap ls s w, run (wstep cap) winit ls = Some s -> (steps w ls <= 15 + 2 * cap)%nat.
Proof. intros cap ls s w H. pose proof (steps_idle cap ls winit s w (winv_init cap) eq_refl H). lia. Qed.

(** The holder of the write lock never waits, neither for its own result nor to answer others, except in two places: where
    it gave up because the reader seems to have quit, and where it closes the connection and another goroutine is about to do so. *)
Theorem C30_holder_goes_on : forall cap s w, reachable (wstep cap) winit s -> lock s = Some w -> (forall r, ~ returned s w r) ->
  pc s w <> QStuck -> (forall k n, pc s w <> QWaitU k n) -> exists c s', wstep cap s (WStep w c) = Some s'.
Proof.
  intros cap s w HR HL HD H1 H2. pose proof (winv_reachable cap s HR) as I.
  destruct (v_lock cap s I w HL) as [A|[[r A] _]]; [|contradiction (HD r)].
  destruct (crit_enabled cap s w I A) as (c & s' & B & _); [congruence|intros k n E; contradiction (H2 k n)|]. exists c, s'. assumption.
Qed.

(** After a write has failed, nothing more is written: no frame follows a torn one. *)
Theorem C30_nothing_after_failure : forall cap s ls s', reachable (wstep cap) winit s -> failed s = true -> run (wstep cap) s ls = Some s' -> wire s' = wire s.
Proof. intros cap s ls s' HR F H. destruct (finv_reachable cap s HR) as [I D]. exact (dead_run cap ls s s' I (D F) H). Qed.

(** A batch takes everything that was queued when it began: from the first to the last step of collecting (of call g), whatever
    the others queue meanwhile, what has been taken (a) covers the queue as it was then. *)
Lemma past_closed : forall cap s g l t, winv cap s -> wstep cap s l = Some t ->
  match pc s g with QColl _ _ | QInf | QHold | QSel | QEnq | QIdle => False | _ => True end ->
  match pc t g with QColl _ _ | QInf | QHold | QSel | QEnq | QIdle => False | _ => True end.
Proof.
  intros cap s g l t I H P. destruct (label_dec l) as [(x & c & ->)|NS].
  - destruct (N.eq_dec g x) as [->|NE]; [|rewrite (cstep_pc cap s x c t g H NE); assumption]. cbn in H.
    cases H; cbn; rewrite ?upd_eq; auto.
  - destruct (wstep_other cap s l t I H NS) as (_ & _ & _ & _ & _ & _ & A & _). rewrite A; [assumption|]. intros E. rewrite E in P. contradiction.
Qed.
Lemma past_run : forall cap ls s t g, winv cap s -> run (wstep cap) s ls = Some t ->
  match pc s g with QColl _ _ | QInf | QHold | QSel | QEnq | QIdle => False | _ => True end ->
  match pc t g with QColl _ _ | QInf | QHold | QSel | QEnq | QIdle => False | _ => True end.
Proof.
  intros cap. induction ls as [|l ls IH]; intros s t g I H P; cbn in H; [inversion H; subst; assumption|].
  destruct (wstep cap s l) as [u|] eqn:E; [|discriminate]. apply (IH u t g (wstep_inv cap s l u I E) H). eapply past_closed; eassumption.
Qed.

Lemma coll_run : forall cap ls s t g i0 k0 i k, winv cap s -> run (wstep cap) s ls = Some t -> pc s g = QColl i0 k0 -> pc t g = QColl i k ->
  exists a b, a ++ wq t = wq s ++ b /\ (i0 + length a = i)%nat.
Proof.
  intros cap. induction ls as [|l ls IH]; intros s t g i0 k0 i k I H P0 P1; cbn in H.
  - inversion H; subst. exists [], []. rewrite app_nil_r. split; [reflexivity|]. rewrite P0 in P1. inversion P1. cbn. lia.
  - destruct (wstep cap s l) as [u|] eqn:E; [|discriminate]. pose proof (wstep_inv cap s l u I E) as J.
    destruct (label_dec l) as [(x & c & ->)|NS].
    + destruct (N.eq_dec g x) as [<-|NE].
      * pose proof (past_run cap ls u t g J H) as PR. rewrite P1 in PR. cbn in E.
        assert (GO : pc u g = QColl (S i0) k0 /\ (exists n, wq s = n :: wq u) \/ (exists n, pc u g = QColl (S i0) (k0 ++ [n]) /\ wq s = n :: wq u) \/ pc u g = QWrite k0 \/ pc u g = QFree false None).
        { clear - E P0. unfold cstep in E. rewrite P0 in E. destruct c; try discriminate E;
            repeat match type of E with context [match ?x with _ => _ end] => destruct x eqn:?; try discriminate E end;
            try match type of E with context [useCs ?st ?t] => let v := fresh "v" in let X := fresh "EU" in destruct (useCs_late st t) as [v X]; rewrite X in E; clear X end;
            inversion E; subst; cbn; rewrite upd_eq; eauto 6. }
        assert (GO' : exists k1 n, pc u g = QColl (S i0) k1 /\ wq s = n :: wq u).
        { destruct GO as [(A & n & B)|[(n & A & B)|[A|A]]]; [exists k0, n; auto|exists (k0 ++ [n]), n; auto| |]; rewrite A in PR; contradiction (PR Logic.I). }
        destruct GO' as (k1 & n & A1 & A2).
        destruct (IH u t g (S i0) k1 i k J H A1 P1) as (a & b & A & B). exists (n :: a), b. rewrite A2. cbn. rewrite A. split; [reflexivity|lia].
      * pose proof (cstep_pc cap s x c u g E NE) as PE.
        destruct (IH u t g i0 k0 i k J H ltac:(congruence) P1) as (a & b & A & B).
        assert (QB : exists d, wq u = wq s ++ d).
        { pose proof (v_crit cap s I g ltac:(rewrite P0; reflexivity)) as LG. clear - E LG NE I. cbn in E. cases E; lkq I; cbn; try congruence; try (exists []; rewrite app_nil_r; reflexivity). exists [x]. reflexivity. }
        destruct QB as [d QB]. exists a, (d ++ b). rewrite A, QB, app_assoc. auto.
    + destruct (wstep_other cap s l u I E NS) as (_ & _ & _ & QQ & _ & _ & A & _).
      destruct (IH u t g i0 k0 i k J H ltac:(rewrite A; congruence) P1) as (a & b & B & C). exists a, b. rewrite <- QQ. auto.
Qed.

Theorem C30_batch_takes_queue : forall cap s g ls t i k t', reachable (wstep cap) winit s ->
  pc s g = QColl 0 [] -> run (wstep cap) s ls = Some t -> pc t g = QColl i k -> wstep cap t (WStep g CDefault) = Some t' ->
  exists a b, a ++ wq t' = wq s ++ b /\ (length (wq s) <= length a)%nat.
Proof.
  intros cap s g ls t i k t' HR P0 H P1 E. pose proof (winv_reachable cap s HR) as I.
  destruct (coll_run cap ls s t g 0 [] i k I H P0 P1) as (a & b & A & B). cbn in E. unfold cstep in E. rewrite P1 in E.
  destruct (i <? cap)%nat eqn:EI.
  - destruct (wq t) eqn:EQ; [|discriminate]. destruct (ctxD t); [discriminate|]. inversion E; subst. cbn. rewrite EQ. exists a, b. split; [assumption|].
    rewrite app_nil_r in A. rewrite A, app_length. lia.
  - inversion E; subst. cbn. exists a, b. split; [assumption|]. pose proof (v_len cap s I). apply Nat.ltb_ge in EI. cbn in EI. lia.
Qed.

(** The full statement: while the connection is up, as long as some call has not returned, some call can go on. *)
Definition C30_statement : Prop := forall cap s w, (1 <= cap)%nat -> reachable (wstep cap) winit s -> isUp s -> called s w -> (forall r, ~ returned s w r) -> canGo cap s.

(** It is false: the connection is visible to WalkConn from newConn on, and an EndWrite call made before serve has set
    sc.inflight finds the count at 0, takes it that the reader has quit, and keeps the lock. *)
Definition early : list wlabel := [WStart 0; WStep 0 CSend; WStep 0 CLock; WStep 0 CGo; WStep 0 CGo; WStep 0 CGo; EServe].

Lemma early_facts : forall s, run (wstep 1) winit early = Some s ->
  pc s 0 = QStuck /\ lock s = Some 0 /\ ctxD s = false /\ clsd s = false /\ failed s = false /\ rd s = RRun /\ forall w, w <> 0 -> pc s w = QIdle /\ rs s w = None.
Proof. intros s E. vm_compute in E. inversion E; subst; clear E. repeat (split; [vm_compute; reflexivity|]). intros [|p] NE; [contradiction NE; reflexivity|split; vm_compute; reflexivity]. Qed.
Example early_runs : exists s, run (wstep 1) winit early = Some s.
Proof. eexists. vm_compute. reflexivity. Qed.

Theorem C30_refuted : ~ C30_statement.
Proof.
  destruct early_runs as [s E]. destruct (early_facts s E) as (P & L & D & C & F & _ & O).
  intros ST. destruct (ST 1%nat s 0 (le_n _)) as (w & c & s' & H & _).
  - exists early. exact E.
  - repeat split; assumption.
  - unfold called. congruence.
  - intros r. unfold returned. congruence.
  - cbn [wstep] in H. unfold cstep in H. destruct (N.eq_dec w 0) as [->|NE]; [rewrite P, D in H; destruct c; discriminate|].
    rewrite (proj1 (O w NE)) in H. discriminate.
Qed.

(** And that call, with every call made after it, waits until the connection is closed. *)
Theorem C30_early_write_hangs : forall s ls s', run (wstep 1) winit early = Some s -> run (wstep 1) s ls = Some s' -> ~ In ECancel ls -> ~ In EStop ls -> forall w r, ~ returned s' w r.
Proof.
  assert (G : forall ls s s', winv 1 s -> lock s = Some 0 -> pc s 0 = QStuck -> ctxD s = false -> (forall w, w <> 0 -> (pc s w = QIdle \/ pc s w = QEnq \/ pc s w = QSel) /\ rs s w = None) ->
     run (wstep 1) s ls = Some s' -> ~ In ECancel ls -> ~ In EStop ls -> forall w r, ~ returned s' w r).
  { induction ls as [|l ls IH]; intros s s' I L P C O H N1 N2 w r RT; cbn in H.
    - inversion H; subst. unfold returned in RT. destruct (N.eq_dec w 0) as [->|NE]; [congruence|]. destruct (O w NE) as [[A|[A|A]] _]; congruence.
    - destruct (wstep 1 s l) as [t|] eqn:E; [|discriminate]. pose proof (wstep_inv 1 s l t I E) as J.
      refine (IH t s' J _ _ _ _ H (fun A => N1 (or_intror A)) (fun A => N2 (or_intror A)) w r RT).
      all: destruct (label_dec l) as [(x & c & ->)|NS];
        [destruct (N.eq_dec x 0) as [->|NE]; [cbn in E; unfold cstep in E; rewrite P in E; destruct c; try discriminate; rewrite C in E; discriminate|]
        |pose proof (wstep_other 1 s l t I E NS) as (W1 & W2 & W3 & W4 & W5 & W6 & W7 & W8 & W9)].
      + destruct (O x NE) as [OX OR]. cbn in E. clear - E L OX OR C. cases E; cbn; auto; try (destruct OX as [A|[A|A]]; congruence).
      + congruence.
      + rewrite (cstep_pc 1 s x c t 0 E); congruence.
      + rewrite W7; congruence.
      + destruct (O x NE) as [OX OR]. cbn in E. clear - E L OX OR C. cases E; cbn; auto; try (destruct OX as [A|[A|A]]; congruence).
      + clear - E C N1 N2 NS. destruct l; cbn in E; try contradiction (NS w c eq_refl); try (contradiction N1; left; reflexivity); try (contradiction N2; left; reflexivity);
          try match type of E with context [tryFree ?t] => let v := fresh "n" in let X := fresh "EF" in destruct (tryFree_eq t) as [v X]; rewrite X in E; clear X end;
          unfold useCs in E;
          repeat match type of E with context [match ?x with _ => _ end] => destruct x eqn:?; try discriminate E end; inversion E; subst; auto.
      + intros y NY. destruct (N.eq_dec y x) as [->|NX].
        * destruct (O x NE) as [OX OR]. cbn in E. clear - E L OX OR C. cases E; cbn; rewrite ?upd_eq; auto; try (destruct OX as [A|[A|A]]; congruence).
        * rewrite (cstep_pc 1 s x c t y E NX). destruct (O y NY) as [OY OR]. split; [assumption|]. destruct (O x NE) as [OX ORX]. cbn in E. clear - E L OX OR ORX C. cases E; cbn; auto; try (destruct OX as [A|[A|A]]; congruence).
      + intros y NY. destruct (O y NY) as [OY OR]. rewrite W5. split; [|assumption]. assert (DD : pc t y = QIdle \/ pc t y <> QIdle) by (destruct (pc t y); auto; right; discriminate).
        destruct DD as [DD|DD]; [auto|]. destruct (W9 y DD) as [A|A]; [auto|]. rewrite A. assumption. }
  intros s ls s' E H N1 N2. destruct (early_facts s E) as (P & L & D & _ & _ & _ & O). apply (G ls s s'); auto.
  - apply winv_reachable. exists early. exact E.
  - intros w NE. destruct (O w NE). auto.
Qed.

(** What does hold (missing: calls made before serve has started the reader): no deadlock while the connection is up... *)
Theorem C30_no_deadlock_partial : forall cap s w, (1 <= cap)%nat -> reachable (wstep cap) served s -> isUp s -> called s w -> (forall r, ~ returned s w r) -> canGo cap s.
Proof.
  intros cap s w HC HR (U1 & U2 & U3) CA NR. destruct (all_reachable cap s HR) as (I & S & N).
  destruct (no_deadlock cap s w HC I S N U3 ltac:(congruence)) as (x & c & s' & A & B).
  - unfold called, returned in *. destruct (pc s w) eqn:E; auto; congruence.
  - exists x, c, s'. split; [assumption|congruence].
Qed.

(** ... so every schedule of the calls that goes on as long as some call can, without a failing write, is finite and ends with every call
    returned with a result ... *)
Theorem C30_every_schedule_finishes_partial : forall cap s ls s', (1 <= cap)%nat -> reachable (wstep cap) served s -> isUp s ->
  forallb isStep ls = true -> run (wstep cap) s ls = Some s' -> failed s' = false ->
  (length ls <= total cap s)%nat /\ (~ canGo cap s' -> forall w, called s' w -> exists r, returned s' w (Some r)).
Proof.
  intros cap s ls s' HC HR (U1 & U2 & U3) HS H F. destruct (all_reachable cap s HR) as (I & S & N). split.
  - pose proof (run_total cap ls s s' I HS H). lia.
  - intros ND w CA. pose proof (reach_run cap served s ls s' HR H) as HR'. destruct (run_up cap ls s s' I HS H F) as (_ & A & B).
    destruct (all_reachable cap s' HR') as (_ & _ & N'). specialize (N' w).
    destruct (pc s' w) eqn:E; try (contradiction CA; assumption); try (exfalso; apply ND, (C30_no_deadlock_partial cap s' w HC HR'); [repeat split; congruence|assumption|unfold returned; congruence]).
    destruct r as [r|]; [exists r; assumption|congruence].
Qed.

(** ... and there is such a schedule. *)
Theorem C30_completes_partial : forall cap s, (1 <= cap)%nat -> reachable (wstep cap) served s -> isUp s ->
  exists ls s', forallb isStep ls = true /\ run (wstep cap) s ls = Some s' /\ isUp s' /\ forall w, called s' w -> exists r, returned s' w (Some r).
Proof.
  intros cap s HC HR (U1 & U2 & U3). destruct (all_reachable cap s HR) as (I & S & N).
  destruct (complete cap HC (total cap s) s (le_n _) I S N U3 ltac:(congruence)) as (ls & s' & A & B & C & D).
  destruct (run_up cap ls s s' I A B C) as (_ & X & Y). exists ls, s'. repeat split; auto; try congruence.
  intros w CA. destruct (all_reachable cap s' (reach_run cap served s ls s' HR B)) as (_ & _ & N'). specialize (N' w). specialize (D w).
  unfold called, returned in *. destruct (pc s' w) eqn:E; try discriminate; [congruence|]. destruct r as [r|]; [eauto|congruence].
Qed.

(** After the connection has been closed, every call returns by its own steps alone (boundedly many: [C30_bounded]). *)
Theorem C30_after_close : forall cap s w, reachable (wstep cap) winit s -> clsd s = true -> ctxD s = true -> called s w -> (forall r, ~ returned s w r) ->
  exists c s', wstep cap s (WStep w c) = Some s'.
Proof.
  intros cap s w HR HC HD CA NR. pose proof (winv_reachable cap s HR) as I.
  destruct (ctx_enabled cap s w I HD (or_introl (v_cls cap s I HC))) as (c & s' & A & _); [|exists c, s'; assumption].
  unfold called, returned in *. destruct (pc s w) eqn:E; auto; congruence.
Qed.

(** *** C31 *)

(** the streams are released once at most; exactly when the reader has quit and no call is using them; none is used afterwards *)
Definition C31_holds (s : wst) : Prop :=
  (released s <= 1)%nat /\ (released s = 1%nat <-> rd s = RQuit /\ forall w, ~ usesStreams s w) /\ late s = false.
Definition C31_statement : Prop := forall cap s, reachable (wstep cap) winit s -> C31_holds s.

(** False for the same reason: between an early call's adding 1 to the count and taking it away again, serve sets the count to 1. *)
Definition earlyLeak : list wlabel :=
  [WStart 0; WStep 0 CSend; WStep 0 CLock; WStep 0 CGo; WStep 0 CGo; EServe; WStep 0 CGo; EUntrack; ECls; ECancel; ERdQuit; WStep 0 CCtx].
Theorem C31_refuted : ~ C31_statement.
Proof.
  intros ST. destruct (run (wstep 1) winit earlyLeak) as [s|] eqn:E; [|discriminate].
  destruct (ST 1%nat s (ex_intro _ earlyLeak E)) as (_ & [_ A] & _). vm_compute in E. inversion E; subst. cbn in A.
  assert (X : 0%nat = 1%nat); [|discriminate]. apply A. split; [reflexivity|]. intros w. unfold usesStreams. cbn. destruct w; discriminate.
Qed.

(** What does hold (missing: calls made before serve has started the reader). *)
Lemma sect_holder : forall cap s, winv cap s -> (atLock false sect s = true <-> exists w, usesStreams s w).
Proof.
  intros cap s I. unfold usesStreams, atLock. split.
  - destruct (lock s) as [g|]; [eauto|discriminate].
  - intros [w E]. rewrite (v_crit cap s I w (sect_crit _ E)). assumption.
Qed.
Theorem C31_released_once_partial : forall cap s, reachable (wstep cap) served s -> C31_holds s.
Proof.
  intros cap s HR. destruct (both_reachable cap s HR) as [I [S1 S2 S3 S4 S5 S6]]. unfold C31_holds. rewrite S4. unfold running in *.
  pose proof (sect_holder cap s I) as SH. split; [destruct (_ || _)%bool; lia|]. split; [|assumption]. split.
  - destruct (rd s); cbn; try congruence. destruct (atLock false sect s); [discriminate|]. intros _. split; [reflexivity|]. intros w A. assert (false = true) by (apply SH; eauto). discriminate.
  - intros [A B]. rewrite A. cbn. destruct (atLock false sect s); [|reflexivity]. destruct (proj1 SH eq_refl) as [w C]. contradiction (B w).
Qed.

(** And the release does come: once the reader has quit and the connection is closed, the calls using the streams can
    go on by themselves until it is done. *)
Theorem C31_release_comes_partial : forall cap s, reachable (wstep cap) served s -> rd s = RQuit -> clsd s = true ->
  exists ls s', forallb isStep ls = true /\ run (wstep cap) s ls = Some s' /\ released s' = 1%nat.
Proof.
  intros cap s HR HQ HC. destruct (both_reachable cap s HR) as [I S].
  assert (G : forall n s, (total cap s <= n)%nat -> winv cap s -> sinv s -> rd s = RQuit -> clsd s = true -> exists ls s', forallb isStep ls = true /\ run (wstep cap) s ls = Some s' /\ released s' = 1%nat).
  { clear. induction n as [n IH] using lt_wf_ind. intros s HT I S HQ HC. destruct (atLock false sect s) eqn:E.
    - destruct (proj1 (sect_holder cap s I) E) as [w HW].
      destruct (crit_enabled cap s w I (sect_crit _ HW)) as (c & t & H & _).
      + intros A. unfold usesStreams in HW. rewrite A in HW. discriminate.
      + intros k m _. apply (v_cls cap s I HC).
      + pose proof (cstep_total cap s w c t I H) as TT. destruct (cstep_flags cap s w c t H) as (F1 & F2 & _).
        destruct (IH (total cap t) ltac:(lia) t (le_n _) (cstep_inv cap s w c t I H) (cstep_sinv cap s w c t I S H) ltac:(congruence) (F2 HC)) as (ls & s' & A & B & C).
        exists (WStep w c :: ls), s'. repeat split; auto. cbn. rewrite H. assumption.
    - exists [], s. repeat split; auto. rewrite (r_rel s S). unfold running. rewrite HQ, E. reflexivity. }
  exact (G (total cap s) s (le_n _) I S HQ HC).
Qed.

(** *** C51 *)

(** The kick's callback OnKickCB may write to the connection; the full statement: such an EndWrite call can return without the whole listener being stopped. *)
Definition C51_statement : Prop := forall cap s w, (1 <= cap)%nat -> reachable (wstep cap) served s -> kcb s = Some w ->
  exists ls s' r, ~ In EStop ls /\ run (wstep cap) s ls = Some s' /\ returned s' w r.

(** Call g keeps the lock for good while OnKickCB's call w waits for it. *)
Record hung (s : wst) (g w : N) : Prop := mkHung {
  h_lock : lock s = Some g;
  h_g : (exists k n, pc s g = QWaitU k n) \/ (exists r, pc s g = QDone r);
  h_kick : kicking s = true;
  h_kcb : kcb s = Some w;
  h_w : (pc s w = QEnq \/ pc s w = QSel) /\ rs s w = None;
  h_ctx : ctxD s = false }.

Lemma hung_step : forall cap s g w l t, winv cap s -> hung s g w -> wstep cap s l = Some t -> l <> EStop -> hung t g w.
Proof.
  intros cap s g w l t I [L HG HK HB [HP HR] HC] H NE.
  assert (GW : g <> w) by (intros ->; destruct HP as [A|A]; destruct HG as [(k & n & B)|[r B]]; congruence).
  destruct (v_kick cap s I HK) as [_ UT]. assert (CL : clsd s = false) by (destruct (clsd s) eqn:E; [pose proof (v_cls cap s I E); congruence|reflexivity]).
  destruct (label_dec l) as [(x & c & ->)|NS].
  - destruct (N.eq_dec x g) as [->|NG].
    { exfalso. cbn in H. unfold cstep in H. destruct HG as [(k & n & B)|[r B]]; rewrite B in H; [|discriminate]. rewrite UT in H. destruct c; discriminate. }
    assert (NCX : crit (pc s x) = false). { destruct (crit (pc s x)) eqn:E; [|reflexivity]. pose proof (v_crit cap s I x E). congruence. }
    assert (PG : pc t g = pc s g) by (apply (cstep_pc cap s x c t g H); congruence).
    cbn in H. assert (FX : lock t = lock s /\ kicking t = kicking s /\ kcb t = kcb s /\ ctxD t = ctxD s /\ (x <> w -> rs t w = rs s w) /\ (x = w -> (pc t w = QSel) /\ rs t w = rs s w)).
    { clear - H NCX L HP HR HC. cases H; cbn in *; rewrite ?EP in *; try discriminate NCX; try congruence; repeat split; auto; intros; subst; rewrite ?upd_eq, ?upd_neq by congruence; auto; try congruence; try (destruct HP; congruence). }
    destruct FX as (F1 & F2 & F3 & F4 & F5 & F6). split; rewrite ?PG; try assumption; try congruence.
    destruct (N.eq_dec x w) as [->|NW]; [destruct (F6 eq_refl) as [A B]; split; [auto|congruence]|]. rewrite (cstep_pc cap s x c t w H) by congruence. rewrite F5 by assumption. auto.
  - pose proof (wstep_other cap s l t I H NS) as (W1 & W2 & W3 & W4 & W5 & W6 & W7 & W8 & W9).
    assert (PG : pc t g = pc s g) by (apply W7; destruct HG as [(k & n & B)|[r B]]; congruence).
    assert (PW : pc t w = pc s w) by (apply W7; destruct HP; congruence).
    assert (FX : kicking t = true /\ kcb t = Some w /\ ctxD t = false).
    { destruct l; cbn in H; try contradiction (NS w0 c eq_refl); try (contradiction NE; reflexivity);
        try match type of H with context [tryFree ?t] => let v := fresh "n" in let X := fresh "EF" in destruct (tryFree_eq t) as [v X]; rewrite X in H; clear X end;
        unfold useCs in H; rewrite ?HB, ?UT, ?CL in H; try discriminate H.
      all: try (destruct (isIdle (pc s w0)); [|discriminate]; inversion H; subst; auto; fail).
      all: try (destruct (rd s); try discriminate H; try (destruct (_ && _)%bool); try (destruct (_ || _)%bool; [|discriminate]); inversion H; subst; auto; fail).
      all: try (destruct (untr s); [discriminate|]; inversion H; subst; auto; fail).
      destruct HP as [E|E]; rewrite E in H; discriminate. }
    destruct FX as (F1 & F2 & F3). split; rewrite ?PG, ?PW, ?W3, ?W5; auto.
Qed.

Lemma hung_run : forall cap ls s g w t, winv cap s -> hung s g w -> run (wstep cap) s ls = Some t -> ~ In EStop ls -> hung t g w.
Proof.
  intros cap. induction ls as [|l ls IH]; intros s g w t I HH H N; cbn in H; [inversion H; subst; assumption|].
  destruct (wstep cap s l) as [u|] eqn:E; [|discriminate]. apply (IH u g w t (wstep_inv cap s l u I E)); auto; [|intros A; apply N; right; assumption].
  eapply hung_step; try eassumption. intros ->. apply N. left. reflexivity.
Qed.

(** Once so, it is so forever, short of stopping the listener: neither does the call return, nor OnKickCB, nor is the connection closed. *)
Theorem C51_hangs_forever : forall cap s g w ls s', reachable (wstep cap) winit s -> hung s g w -> run (wstep cap) s ls = Some s' -> ~ In EStop ls ->
  (forall r, ~ returned s' w r) /\ kicking s' = true /\ clsd s' = false /\ ctxD s' = false.
Proof.
  intros cap s g w ls s' HR HH H N. pose proof (hung_run cap ls s g w s' (winv_reachable cap s HR) HH H N) as [A B C D [E _] F].
  pose proof (winv_reachable cap s' (reach_run cap winit s ls s' HR H)) as I. destruct (v_kick cap s' I C) as [_ UT].
  repeat split; auto; [intros r G; unfold returned in G; destruct E; congruence|]. destruct (clsd s') eqn:X; [pose proof (v_cls cap s' I X); congruence|reflexivity].
Qed.

(** A writer's write fails just when the connection is kicked: it holds the lock and waits for the kick, whose callback's EndWrite waits for the lock. *)
Definition raceKick : list wlabel :=
  [WStart 0; WStep 0 CSend; WStep 0 CLock; WStep 0 CGo; WStep 0 CGo; WStep 0 (CKeep true); WStep 0 CDefault; WStep 0 (CWriteErr 0); WStep 0 CGo;
   EKick; WStep 0 CGo; EKCall 1; WStep 1 CSend].
(** OnKickCB itself writes twice and the first write fails: the lock is not given back. *)
Definition twiceKick : list wlabel :=
  [EKick; EKCall 0; WStep 0 CSend; WStep 0 CLock; WStep 0 CGo; WStep 0 CGo; WStep 0 (CKeep true); WStep 0 CDefault; WStep 0 (CWriteErr 0); WStep 0 CGo; WStep 0 CGo; WStep 0 CGo;
   WStep 0 CGo; WStep 0 CGo; EKRet; EKCall 1; WStep 1 CSend].

Example raceKick_hung : exists s, run (wstep 1) served raceKick = Some s /\ hung s 0 1.
Proof. destruct (run (wstep 1) served raceKick) as [s|] eqn:E; [|discriminate]. exists s. split; [reflexivity|]. vm_compute in E. inversion E; subst. split; cbn; eauto. Qed.
Example twiceKick_hung : exists s, run (wstep 1) served twiceKick = Some s /\ hung s 0 1.
Proof. destruct (run (wstep 1) served twiceKick) as [s|] eqn:E; [|discriminate]. exists s. split; [reflexivity|]. vm_compute in E. inversion E; subst. split; cbn; eauto. Qed.

Theorem C51_refuted : ~ C51_statement.
Proof.
  intros ST. destruct raceKick_hung as (s & HR & HH). destruct (ST 1%nat s 1 (le_n _) (ex_intro _ raceKick HR) (h_kcb s 0 1 HH)) as (ls & s' & r & N & H & RT).
  destruct (C51_hangs_forever 1 s 0 1 ls s') as [A _]; auto; [|exact (A r RT)]. apply served_reachable. exists raceKick. exact HR.
Qed.

(** What does hold: if no write has failed so far, the callback's call can return, by steps of the calls alone (missing: failed writes). *)
Theorem C51_kick_write_returns_partial : forall cap s w, (1 <= cap)%nat -> reachable (wstep cap) served s -> kcb s = Some w -> failed s = false ->
  exists ls s' r, forallb isStep ls = true /\ run (wstep cap) s ls = Some s' /\ returned s' w r.
Proof.
  intros cap s w HC HR HK F. destruct (all_reachable cap s HR) as (I & S & N).
  destruct (v_kcb cap s I w HK) as [K CA]. destruct (v_kick cap s I K) as [_ UT].
  assert (CL : clsd s = true -> ctxD s = true) by (intros E; pose proof (v_cls cap s I E); congruence).
  destruct (complete cap HC (total cap s) s (le_n _) I S N F CL) as (ls & s' & A & B & C & D).
  specialize (D w). assert (NI : pc s' w <> QIdle).
  { assert (NI0 : pc s w <> QIdle) by (apply (v_calls cap s I); assumption). clear - A B NI0. revert s NI0 B. induction ls as [|l ls IH]; intros s NI B; cbn in *; [congruence|].
    apply andb_prop in A. destruct A as [A1 A2]. destruct (wstep cap s l) as [t|] eqn:E; [|discriminate]. apply (IH A2 t); [|assumption].
    destruct l; try discriminate. apply (cs_calls cap s w0 c t E). assumption. }
  destruct (pc s' w) eqn:E; try discriminate; [congruence|]. exists ls, s', r. repeat split; auto.
Qed.

(** *** Examples *)

(** two calls at once: 0 writes both frames; 1 gets its result from 0 *)
Definition two : list wlabel :=
  [WStart 0; WStart 1; WStep 0 CSend; WStep 0 CLock; WStep 1 CSend; WStep 0 CGo; WStep 0 CGo; WStep 0 (CKeep true); WStep 0 (CKeep true)].
Definition two' : list wlabel :=
  [WStep 0 CDefault; WStep 0 CWriteOk; WStep 0 CGo; WStep 0 CGo; WStep 1 CResult; WStep 0 CGo; WStep 0 CGo; WStep 0 CGo; WStep 0 CGo].
Example two_ok : exists s, run (wstep 2) served (two ++ two') = Some s /\ wire s = [0; 1] /\ returned s 0 (Some ROk) /\ returned s 1 (Some ROk) /\ lock s = None /\ infl s = 1%Z /\ isUp s.
Proof. eexists. split; [vm_compute; reflexivity|]. repeat split. Qed.
(** the same, but the write fails within the second frame, and the reader then quits: released once *)
Definition two'' : list wlabel :=
  [WStep 0 CDefault; WStep 0 (CWriteErr 1); WStep 0 CGo; WStep 0 CGo; WStep 0 CGo; ERdQuit; WStep 0 CGo; WStep 0 CGo; WStep 0 CGo; WStep 0 CGo; WStep 0 CGo; WStep 0 CGo; WStep 1 CResult].
Example two_fail : exists s, run (wstep 2) served (two ++ two'') = Some s /\ wire s = [0] /\ returned s 0 (Some ROk) /\ returned s 1 (Some RErr) /\ lock s = Some 0 /\ released s = 1%nat /\ failed s = true.
Proof. eexists. split; [vm_compute; reflexivity|]. repeat split. Qed.
Example two_open : exists s, run (wstep 2) served two = Some s /\ isUp s /\ called s 1 /\ (forall r, ~ returned s 1 r).
Proof. eexists. split; [vm_compute; reflexivity|]. repeat split; try discriminate. Qed.
Example kick_writes : exists s, run (wstep 1) served [EKick; EKCall 7; WStep 7 CSend] = Some s /\ kcb s = Some 7 /\ failed s = false.
Proof. eexists. split; [vm_compute; reflexivity|]. split; reflexivity. Qed.

Print Assumptions C30_one_writer.
Print Assumptions C30_wire_order.
Print Assumptions C30_result_true.
Print Assumptions C30_one_result.
Print Assumptions C30_bounded.
Print Assumptions C30_holder_goes_on.
Print Assumptions C30_nothing_after_failure.
Print Assumptions C30_batch_takes_queue.
Print Assumptions C30_refuted.
Print Assumptions C30_early_write_hangs.
Print Assumptions C30_no_deadlock_partial.
Print Assumptions C30_every_schedule_finishes_partial.
Print Assumptions C30_completes_partial.
Print Assumptions C30_after_close.
Print Assumptions C31_refuted.
Print Assumptions C31_released_once_partial.
Print Assumptions C31_release_comes_partial.
Print Assumptions C51_hangs_forever.
Print Assumptions C51_refuted.
Print Assumptions C51_kick_write_returns_partial.
