(** C72: ServeAll. *)
From Coq Require Import ZifyBool ZifyNat.
From Verif Require Import Model.GoBase Model.Machine Model.ServeAll Model.Group Props.ServeAll.
Open Scope nat_scope.

Definition returned (g : gst) : Prop := gp g = GRet.
(** An action that the library takes by itself: of Serve (Accept fails only if its listener is closed), of ServeAll, of a
    Shutdown call, or the end of a connection's serve. *)
Definition ownStep (n : nat) (g : gst) : Prop :=
  exists l g', gstep n g l = Some g' /\
    match l with
    | GServeAll => False
    | GEnv (EAccept _) | GEnv (EShutdown _) => False
    | GEnv (EAcceptErr i) => opn (vs g) i = false
    | _ => True
    end.

Definition C72_statement : Prop :=
  forall n g, reachable (gstep n) ginit g ->
  (* when ServeAll has returned, every Serve has, the listeners are closed, and no connection is served *)
  (returned g -> (forall i, i < n -> vp (vs g) i = VGone /\ opn (vs g) i = false) /\ (forall c, ~ serves (vs g) c)) /\
  (* after a Shutdown that closed the listeners, ServeAll is not stuck *)
  (dchan (vs g) = true -> gp g <> GNew -> returned g \/ ownStep n g).

(** *** Invariant *)
Lemma gone_step : forall n s l t i, vstep n s l = Some t -> vp s i = VGone -> vp t i = VGone.
Proof.
  intros n s l t i H G. destruct l; cbn in H;
    repeat match type of H with context [match ?x with _ => _ end] => destruct x eqn:?; try discriminate H end;
    inversion H; subst; clear H; cbn; try assumption;
    (match goal with |- nset _ ?j _ _ = _ => destruct (Nat.eq_dec i j) as [->|NE]; [congruence|rewrite nset_neq by assumption; assumption] end).
Qed.
Lemma finished_le : forall n s t, (forall i, i < n -> vp s i = VGone -> vp t i = VGone) -> finished n s <= finished n t.
Proof.
  intros n s t H. unfold finished.
  assert (G : forall l, (forall i, In i l -> i < n) ->
    length (filter (fun i => match vp s i with VGone => true | _ => false end) l) <=
    length (filter (fun i => match vp t i with VGone => true | _ => false end) l)).
  { induction l as [|x l IH]; intro L; [cbn; lia|]. cbn.
    assert (IH' := IH (fun i Hi => L i (or_intror Hi))).
    destruct (vp s x) eqn:E; cbn; try (destruct (vp t x); cbn; lia).
    rewrite (H x (L x (or_introl eq_refl)) E). cbn. lia. }
  apply G. intros i Hi. apply in_seq in Hi. lia.
Qed.
Lemma filter_le : forall A (f : A -> bool) l, length (filter f l) <= length l.
Proof. induction l as [|x l IH]; cbn; [lia|]. destruct (f x); cbn; lia. Qed.
Lemma filter_full : forall A (f : A -> bool) l, length (filter f l) = length l -> forall x, In x l -> f x = true.
Proof.
  induction l as [|y l IH]; [intros _ x []|]; intros H x [->|HI]; cbn in H.
  - destruct (f x); [reflexivity|]. assert (X := filter_le A f l). lia.
  - apply IH; [|assumption]. assert (X := filter_le A f l). destruct (f y); cbn in H; lia.
Qed.
Lemma finished_all : forall n s, n <= finished n s -> forall i, i < n -> vp s i = VGone.
Proof.
  intros n s H i L. unfold finished in H.
  assert (X := filter_full _ (fun i => match vp s i with VGone => true | _ => false end) (seq 0 n)).
  assert (LE := filter_le _ (fun i => match vp s i with VGone => true | _ => false end) (seq 0 n)).
  rewrite seq_length in *. specialize (X ltac:(lia) i). destruct (vp s i); try reflexivity; discriminate X; apply in_seq; lia.
Qed.
Lemma finished_some : forall n s, 0 < finished n s -> exists i, i < n /\ vp s i = VGone.
Proof.
  intros n s H. unfold finished in H.
  destruct (filter (fun i => match vp s i with VGone => true | _ => false end) (seq 0 n)) as [|i r] eqn:E; [cbn in H; lia|].
  assert (X : In i (filter (fun i => match vp s i with VGone => true | _ => false end) (seq 0 n))) by (rewrite E; left; reflexivity).
  apply filter_In in X. destruct X as [X Y]. apply in_seq in X. exists i. split; [lia|]. destruct (vp s i); try discriminate. reflexivity.
Qed.

Definition ginv (n : nat) (g : gst) : Prop :=
  reachable (vstep n) vinit (vs g) /\
  match gp g with
  | GNew => True
  | GWait => 0 < n
  | GInt k | GIntWg k => k < n /\ got g = 1 /\ 1 <= finished n (vs g)
  | GIntChan _ => False
  | GDrain => 1 <= got g < n /\ got g <= finished n (vs g)
  | GRet => n <= finished n (vs g)
  end.

Lemma ginv_done : forall n s, reachable (vstep n) vinit s -> 0 < finished n s -> done s = true /\ dchan s = true.
Proof.
  intros n s HR H. destruct (finished_some n s H) as (i & _ & G). assert (I := vinv_reachable n s HR).
  assert (D : dchan s = true) by (apply (k_ret n s I i); auto). split; [apply (k_chan n s I D)|assumption].
Qed.

Lemma ginv_step : forall n g l g', ginv n g -> gstep n g l = Some g' -> ginv n g'.
Proof.
  intros n g l g' [HR HP] H. destruct l as [| | | |l]; cbn [gstep] in H.
  - destruct (gp g); try discriminate. inversion H; subst; clear H. split; [exact HR|]. cbn [gp got vs]. destruct (Nat.eqb_spec n 0); cbn [gp got vs]; lia.
  - destruct (gp g) eqn:E; try discriminate. destruct (0 <? finished n (vs g)) eqn:F; [|discriminate]. inversion H; subst; clear H.
    split; [exact HR|]. cbn [gp got vs]. lia.
  - destruct (gp g) as [| |k|k|k| |] eqn:E; try discriminate.
    + destruct HP as (P1 & P2 & P3). destruct (ginv_done n _ HR P3) as [D _]. rewrite D in H. inversion H; subst; clear H.
      split; [exact HR|]. cbn [gp got vs]. auto.
    + contradiction.
    + destruct HP as (P1 & P2 & P3). destruct (conns (vs g)); [|discriminate]. 
      destruct (Nat.eqb_spec (S k) n) as [EN|]; [destruct (Nat.eqb_spec (got g) n)|];
      inversion H; subst g'; clear H; (split; [exact HR|]); cbn [gp got vs]; lia.
  - destruct (gp g) eqn:E; try discriminate. destruct HP as (P1 & P2). destruct (got g <? finished n (vs g)) eqn:F; [|discriminate].
    destruct (Nat.eqb_spec (S (got g)) n);
    inversion H; subst g'; clear H; (split; [exact HR|]); cbn [gp got vs]; lia.
  - assert (HV : exists s, vstep n (vs g) l = Some s /\ g' = mkG s (gp g) (got g)).
    { destruct l; try (destruct (vstep n (vs g) _) as [s|]; [|discriminate H]; inversion H; subst; eauto; fail).
      destruct (gp g); try discriminate H; (destruct (vstep n (vs g) _) as [s|]; [|discriminate H]; inversion H; subst; eauto). }
    destruct HV as (s & HV & ->). split; cbn [vs gp got]; [eapply reachable_step; eassumption|].
    assert (F : finished n (vs g) <= finished n s) by (apply finished_le; intros i _; eapply gone_step; eassumption).
    destruct (gp g); try assumption; lia.
Qed.
Lemma ginv_init : forall n, ginv n ginit.
Proof. intro n. split; [exists []; reflexivity|exact I]. Qed.
Lemma ginv_reach : forall n g, reachable (gstep n) ginit g -> ginv n g.
Proof. intros n g HR. exact (reachable_inv (gstep n) (ginv n) ginit (ginv_init n) (ginv_step n) g HR). Qed.

(** When ServeAll returns, every Serve has returned and every listener is closed; and its interrupt functions always find the
    server shut down already. *)
Theorem C72_all_returned_partial :
  forall n g, reachable (gstep n) ginit g ->
  (returned g -> forall i, i < n -> vp (vs g) i = VGone /\ opn (vs g) i = false) /\
  (forall k, gp g = GInt k -> done (vs g) = true /\ dchan (vs g) = true).
Proof.
  intros n g HR. destruct (ginv_reach n g HR) as [R P]. split.
  - intros E i L. unfold returned in E. rewrite E in P. assert (G := finished_all n (vs g) P i L). split; [assumption|].
    destruct (opn (vs g) i) eqn:O; [|reflexivity]. assert (I := vinv_reachable n _ R).
    destruct (k_opn n _ I i O) as [X|[X|X]]; [|congruence|congruence]. destruct (k_trk n _ I i X) as [_ Y]. rewrite G in Y. contradiction.
  - intros k E. rewrite E in P. apply (ginv_done n); [assumption|lia].
Qed.
Print Assumptions C72_all_returned_partial.

(** A connection accepted just before Shutdown may still be served when ServeAll returns: the interrupt functions find nothing
    to wait for, then the other Serve starts to serve it, and returns. *)
Definition lateSpawn : list glabel :=
  [GServeAll; GEnv (EServe 0); GEnv (EServe 1); GEnv (EAccept 1); GEnv (EShutdown None); GEnv (EShut 0); GEnv (EShut 0);
   GEnv (EAcceptErr 0); GEnv (ECheck 0); GEnv (ERet 0); GEnv (ERet 0); GFirst; GShut; GShut; GShut; GShut;
   GEnv (ESpawn 1); GEnv (EAcceptErr 1); GEnv (ECheck 1); GEnv (ERet 1); GEnv (ERet 1); GNext].
Theorem C72_returns_while_serving : exists g, run (gstep 2) ginit lateSpawn = Some g /\ returned g /\ serves (vs g) 0.
Proof. eexists. split; [vm_compute; reflexivity|]. split; [reflexivity|left; reflexivity]. Qed.
Print Assumptions C72_returns_while_serving.

(** A Serve that registers its listener after Shutdown keeps ServeAll from returning: whatever happens, except that Accept
    fails on the open listener. *)
Definition lateReg : list glabel := [GServeAll; GEnv (EShutdown None); GEnv (EShut 0); GEnv (EShut 0); GEnv (EServe 0)].
Definition stuckInv (g : gst) : Prop := gp g = GWait /\ done (vs g) = true /\ opn (vs g) 0 = true /\
  (vp (vs g) 0 = VWait \/ exists c, vp (vs g) 0 = VGot c) /\ vinv 1 (vs g).
Lemma stuck_step : forall g l g', stuckInv g -> l <> GEnv (EAcceptErr 0) -> gstep 1 g l = Some g' -> stuckInv g'.
Proof.
  intros g l g' (A & B & C & D & I) NE H. destruct l as [| | | |l]; cbn [gstep] in H; rewrite ?A in H; try discriminate H.
  - replace (0 <? finished 1 (vs g)) with false in H; [discriminate H|]. unfold finished. cbn. destruct D as [->|(c & ->)]; reflexivity.
  - assert (HV : exists s, vstep 1 (vs g) l = Some s /\ g' = mkG s GWait (got g)).
    { destruct l; (destruct (vstep 1 (vs g) _) as [s|]; [|discriminate H]; inversion H; subst; rewrite ?A; eauto). }
    destruct HV as (s & HV & ->). unfold stuckInv. cbn [vs gp]. split; [reflexivity|]. assert (I' := vinv_step 1 _ _ _ I HV).
    assert (X : done s = true /\ opn s 0 = true /\ (vp s 0 = VWait \/ exists c, vp s 0 = VGot c)); [|tauto].
    assert (NZ : forall i, vp (vs g) i <> VIdle -> i = 0).
    { intros i X. destruct i; [reflexivity|]. exfalso. apply X. apply (k_idle 1 _ I). lia. }
    destruct l as [i|i|i|i|i|i|i|c|bad|k]; cbn [vstep] in HV.
    + destruct (vp (vs g) i) eqn:E; try discriminate. destruct (i <? 1) eqn:EL; [|discriminate]. 
      assert (i = 0) by lia. subst i. destruct D as [D|(c & D)]; congruence.
    + destruct (vp (vs g) i) eqn:E; try discriminate. assert (i = 0) by (apply NZ; congruence). subst i. rewrite C in HV. inversion HV; subst; clear HV. cbn.
      repeat split; try assumption. right. eexists. reflexivity.
    + destruct (vp (vs g) i) eqn:E; try discriminate. assert (i = 0) by (apply NZ; congruence). subst i. contradiction NE. reflexivity.
    + destruct (vp (vs g) i) eqn:E; try discriminate. assert (i = 0) by (apply NZ; congruence). subst i. destruct D as [D|(c & D)]; congruence.
    + destruct (vp (vs g) i) eqn:E; try discriminate. assert (i = 0) by (apply NZ; congruence). subst i. inversion HV; subst; clear HV. cbn. auto.
    + destruct (vp (vs g) i) eqn:E; try discriminate. assert (i = 0) by (apply NZ; congruence). subst i. inversion HV; subst; clear HV. cbn. auto.
    + destruct (vp (vs g) i) eqn:E; try discriminate; assert (i = 0) by (apply NZ; congruence); subst i; destruct D as [D|(c & D)]; congruence.
    + destruct (existsb _ _); [|discriminate]. inversion HV; subst; clear HV. cbn. auto.
    + rewrite B in HV. inversion HV; subst; clear HV. cbn. auto.
    + destruct (nth_error _ _) as [[]|]; [| |discriminate]; [inversion HV; subst; cbn; auto|]. destruct (conns (vs g)); [|discriminate]. inversion HV; subst. cbn. auto.
Qed.
Lemma stuck_run : forall ls g g', stuckInv g -> run (gstep 1) g ls = Some g' -> ~ In (GEnv (EAcceptErr 0)) ls -> stuckInv g'.
Proof.
  induction ls as [|l ls IH]; intros g g' S0 H NI; cbn [run] in H; [inversion H; subst; assumption|].
  destruct (gstep 1 g l) as [g1|] eqn:E; [|discriminate]. apply (IH g1 g'); [|exact H|intro X; apply NI; right; exact X].
  eapply stuck_step; [exact S0| |exact E]. intros ->. apply NI. left. reflexivity.
Qed.
Lemma stuck_noOwn : forall g, stuckInv g -> vp (vs g) 0 = VWait -> conns (vs g) = [] -> ups (vs g) = [] -> ~ ownStep 1 g.
Proof.
  intros g (A & B & C & D & I) W CE UE (l & g' & H & O). destruct l as [| | | |l]; try contradiction; cbn [gstep] in H; rewrite ?A in H; try discriminate H.
  - replace (0 <? finished 1 (vs g)) with false in H; [discriminate H|]. unfold finished. cbn. rewrite W. reflexivity.
  - assert (HV : exists s, vstep 1 (vs g) l = Some s) by (destruct l; (destruct (vstep 1 (vs g) _) as [s|]; [eauto|discriminate H])).
    destruct HV as (s & HV). clear H.
    assert (NZ : forall i, 0 < i -> vp (vs g) i = VIdle) by (intros i X; apply (k_idle 1 _ I); lia).
    destruct l as [i|i|i|i|i|i|i|c|bad|k]; try contradiction; cbn [vstep] in HV; try (destruct i as [|i]; [rewrite W in HV|rewrite NZ in HV by lia]; try discriminate HV).
    + congruence.
    + rewrite CE in HV. discriminate.
    + rewrite UE in HV. destruct k; discriminate.
Qed.
Theorem C72_never_returns :
  exists g, run (gstep 1) ginit lateReg = Some g /\ okRet (vs g) = 1 /\ ~ ownStep 1 g /\
  forall ls g', run (gstep 1) g ls = Some g' -> ~ In (GEnv (EAcceptErr 0)) ls -> ~ returned g'.
Proof.
  destruct (run (gstep 1) ginit lateReg) as [g|] eqn:E; [|vm_compute in E; discriminate E].
  assert (I : ginv 1 g) by (apply ginv_reach; exists lateReg; exact E).
  assert (F : gp g = GWait /\ done (vs g) = true /\ opn (vs g) 0 = true /\ vp (vs g) 0 = VWait /\ conns (vs g) = [] /\ ups (vs g) = [] /\ okRet (vs g) = 1)
    by (vm_compute in E; inversion E; subst g; repeat split; reflexivity).
  destruct F as (F1 & F2 & F3 & F4 & F5 & F6 & F7).
  assert (S0 : stuckInv g) by exact (conj F1 (conj F2 (conj F3 (conj (or_introl F4) (vinv_reachable 1 _ (proj1 I)))))).
  exists g. split; [reflexivity|]. split; [exact F7|]. split; [apply stuck_noOwn; assumption|].
  intros ls g' H NI. assert (S1 := stuck_run ls g g' S0 H NI). unfold returned. rewrite (proj1 S1). discriminate.
Qed.
Print Assumptions C72_never_returns.

Theorem C72_refuted : ~ C72_statement.
Proof.
  intro H. destruct C72_returns_while_serving as (g & R & E & S). destruct (H 2 g (ex_intro _ _ R)) as [A _].
  destruct (A E) as [_ B]. exact (B 0 S).
Qed.
Print Assumptions C72_refuted.

(** *** When every Serve had registered its listener *)
Definition isGroup (l : glabel) : bool := match l with GFirst | GShut | GNext => true | _ => false end.
Definition gleft (n : nat) (g : gst) : nat :=
  match gp g with
  | GNew | GWait => 3 * n + n + 1
  | GInt k => 3 * (n - k) + n
  | GIntChan k => 3 * (n - k) + n - 1
  | GIntWg k => 3 * (n - k) + n - 2
  | GDrain => n - got g
  | GRet => 0
  end.

(** the server's actions within a schedule *)
Fixpoint vlabels (ls : list glabel) : list vlabel :=
  match ls with [] => [] | GEnv l :: ls => l :: vlabels ls | _ :: ls => vlabels ls end.

Lemma genv_inv : forall n g l g', gstep n g (GEnv l) = Some g' -> exists s, vstep n (vs g) l = Some s /\ g' = mkG s (gp g) (got g).
Proof.
  intros n g l g' H. cbn [gstep] in H.
  destruct l; try (destruct (vstep n (vs g) _) as [s|]; [|discriminate H]; inversion H; subst; eauto; fail).
  destruct (gp g); try discriminate H; (destruct (vstep n (vs g) _) as [s|]; [|discriminate H]; inversion H; subst; eauto).
Qed.

Lemma group_keeps : forall n g l g', ginv n g -> isGroup l = true -> gstep n g l = Some g' -> vs g' = vs g.
Proof.
  intros n g l g' [HR HP] IG H. destruct l as [| | | |l]; try discriminate IG; cbn [gstep] in H.
  - destruct (gp g); try discriminate. destruct (0 <? _); [|discriminate]. inversion H; reflexivity.
  - destruct (gp g) as [| |k|k|k| |]; try discriminate.
    + destruct HP as (P1 & P2 & P3). destruct (ginv_done n _ HR P3) as [D _]. rewrite D in H. inversion H; reflexivity.
    + contradiction.
    + destruct (conns (vs g)); [|discriminate]. inversion H; reflexivity.
  - destruct (gp g); try discriminate. destruct (_ <? _); [|discriminate]. inversion H; reflexivity.
Qed.

Lemma vrun : forall n ls g g', ginv n g -> run (gstep n) g ls = Some g' -> run (vstep n) (vs g) (vlabels ls) = Some (vs g').
Proof.
  intros n. induction ls as [|l ls IH]; intros g g' I H; cbn in H; [inversion H; reflexivity|].
  destruct (gstep n g l) as [g1|] eqn:E; [|discriminate]. assert (I1 := ginv_step n g l g1 I E). specialize (IH g1 g' I1 H).
  destruct l as [| | | |l].
  - cbn in *. destruct (gp g); try discriminate E. inversion E; subst. exact IH.
  - rewrite (group_keeps n g GFirst g1 I eq_refl E) in IH. exact IH.
  - rewrite (group_keeps n g GShut g1 I eq_refl E) in IH. exact IH.
  - rewrite (group_keeps n g GNext g1 I eq_refl E) in IH. exact IH.
  - destruct (genv_inv n g l g1 E) as (s & HV & ->). cbn [vlabels run vs] in *. rewrite HV. exact IH.
Qed.

Lemma gleft_step : forall n g l g', ginv n g -> gstep n g l = Some g' -> (if isGroup l then 1 else 0) + gleft n g' <= gleft n g.
Proof.
  intros n g l g' [HR HP] H. destruct l as [| | | |l].
  - cbn [gstep isGroup] in *. unfold gleft. destruct (gp g); try discriminate. destruct (n =? 0); inversion H; subst g'; clear H; cbn [gp]; lia.
  - cbn [gstep isGroup] in *. unfold gleft. destruct (gp g); try discriminate. destruct (0 <? finished n (vs g)); [|discriminate].
    inversion H; subst g'; clear H. cbn [gp]. lia.
  - cbn [gstep isGroup] in *. unfold gleft. destruct (gp g) as [| |k|k|k| |] eqn:E; try discriminate.
    + destruct HP as (P1 & P2 & P3). destruct (ginv_done n _ HR P3) as [D _]. rewrite D in H. inversion H; subst; clear H. cbn [gp]. lia.
    + contradiction.
    + destruct HP as (P1 & P2 & P3). destruct (conns (vs g)); [|discriminate]. 
      destruct (Nat.eqb_spec (S k) n) as [EN|]; [destruct (Nat.eqb_spec (got g) n)|];
      inversion H; subst g'; clear H; cbn [gp got]; lia.
  - cbn [gstep isGroup] in *. unfold gleft. destruct (gp g); try discriminate. destruct HP as [P1 P2]. destruct (_ <? _); [|discriminate].
    destruct (Nat.eqb_spec (S (got g)) n); inversion H; subst g'; clear H; cbn [gp got]; lia.
  - destruct (genv_inv n g l g' H) as (s & HV & ->). cbn [isGroup]. unfold gleft. cbn [gp got]. lia.
Qed.

(** The state after a Shutdown that closed all listeners, all Serve calls having registered. *)
Definition downAfter (n : nat) (g0 g : gst) : Prop :=
  reachable (gstep n) ginit g0 /\ done (vs g0) = false /\ (forall i, i < n -> vp (vs g0) i <> VIdle) /\
  exists g1 ls, gstep n g0 (GEnv (EShutdown None)) = Some g1 /\ run (gstep n) g1 ls = Some g.

Lemma downAfter_closed : forall n g0 g, downAfter n g0 g -> ginv n g /\ allClosed n (vs g) /\ vinv n (vs g) /\
  ((forall i c, vp (vs g0) i <> VGot c) -> forall i c, vp (vs g) i <> VGot c).
Proof.
  intros n g0 g (HR & D & A & g1 & ls & H & R). assert (I0 := ginv_reach n g0 HR). assert (I1 := ginv_step _ _ _ _ I0 H).
  destruct (genv_inv n g0 _ g1 H) as (s & HV & E1). subst g1. cbn [vs] in *.
  assert (V0 := vinv_reachable n _ (proj1 I0)).
  destruct (shutdown_closes n _ s V0 D A HV) as (B1 & B2 & B3 & B4).
  assert (RV := vrun n ls _ g I1 R). cbn [vs] in RV.
  destruct (closed_run n _ s (vs g) B1 (vinv_step n _ _ s V0 HV) RV) as (C1 & C2 & C3 & C4 & C5).
  split; [|split; [assumption|split; [assumption|]]].
  - apply (run_inv (gstep n) (ginv n) (ginv_step n) ls (mkG s (gp g0) (got g0)) g I1 R).
  - intros NG i c X. apply (NG i c). rewrite <- B4. apply C5. assumption.
Qed.

(** Partial: if all Serve calls have registered their listeners when Shutdown closes them, then ServeAll returns: as long as it
    has not, and no connection is served, ServeAll, a Serve call or the Shutdown has something to do, and ServeAll itself
    has boundedly many actions left whatever happens (and so has each Serve, see C56_serve_returns_partial). *)
Theorem C72_returns_partial :
  forall n g0 g, downAfter n g0 g -> gp g <> GNew ->
  (dchan (vs g) = true -> conns (vs g) = [] -> returned g \/
     exists l g', gstep n g l = Some g' /\ (isGroup l = true \/ exists i v, l = GEnv v /\ i < n /\ ofServe i v = true /\ (forall j, v <> EAccept j))) /\
  (forall ls g', run (gstep n) g ls = Some g' -> length (filter isGroup ls) + gleft n g' <= gleft n g).
Proof.
  intros n g0 g DA NN. destruct (downAfter_closed n g0 g DA) as (I & C & V & _). split.
  - intros DC CE. destruct (gp g) as [| |k|k|k| |] eqn:E; try contradiction.
    + assert (HV : forall i, i < n -> vp (vs g) i = VGone \/ exists l g', gstep n g l = Some g' /\ (isGroup l = true \/ exists i v, l = GEnv v /\ i < n /\ ofServe i v = true /\ (forall j, v <> EAccept j))).
      { intros i L. destruct (vp (vs g) i) eqn:EV; [| | | | | |left; reflexivity]; right.
        - destruct C as (_ & C & _). contradiction (C i L).
        - exists (GEnv (EAcceptErr i)). eexists. split; [cbn; rewrite EV; reflexivity|]. right. exists i, (EAcceptErr i). repeat split; try assumption; [cbn; apply Nat.eqb_refl|discriminate].
        - exists (GEnv (ESpawn i)). eexists. split; [cbn; rewrite EV; reflexivity|]. right. exists i, (ESpawn i). repeat split; try assumption; [cbn; apply Nat.eqb_refl|discriminate].
        - exists (GEnv (ECheck i)). eexists. split; [cbn; rewrite EV; reflexivity|]. right. exists i, (ECheck i). repeat split; try assumption; [cbn; apply Nat.eqb_refl|discriminate].
        - exists (GEnv (ERet i)). eexists. split; [cbn; rewrite EV; reflexivity|]. right. exists i, (ERet i). repeat split; try assumption; [cbn; apply Nat.eqb_refl|discriminate].
        - exists (GEnv (ERet i)). eexists. split; [cbn; rewrite EV; reflexivity|]. right. exists i, (ERet i). repeat split; try assumption; [cbn; apply Nat.eqb_refl|discriminate]. }
      destruct I as [_ P]. rewrite E in P. destruct (HV 0 P) as [G0|X]; [|right; exact X]. right.
      exists GFirst. eexists. split; [|left; reflexivity]. cbn [gstep]. rewrite E.
      replace (0 <? finished n (vs g)) with true; [reflexivity|]. symmetry. apply Nat.ltb_lt. unfold finished. destruct n as [|n]; [lia|].
      cbn [seq filter]. rewrite G0. cbn. lia.
    + right. destruct I as [R P]. rewrite E in P. destruct (ginv_done n _ R ltac:(lia)) as [D _].
      exists GShut. eexists. split; [cbn [gstep]; rewrite E, D; reflexivity|left; reflexivity].
    + destruct I as [R P]. rewrite E in P. contradiction.
    + right. exists GShut. eexists. split; [cbn [gstep]; rewrite E, CE; reflexivity|left; reflexivity].
    + right. destruct I as [R P]. rewrite E in P. destruct P as [P1 P2].
      destruct (Nat.lt_ge_cases (got g) (finished n (vs g))) as [LT|GE].
      * exists GNext. eexists. split; [cbn [gstep]; rewrite E; apply Nat.ltb_lt in LT; rewrite LT; reflexivity|left; reflexivity].
      * assert (EX : exists i, i < n /\ vp (vs g) i <> VGone).
        { assert (LT : finished n (vs g) < length (seq 0 n)) by (rewrite seq_length; lia). unfold finished in LT.
          assert (Q : forall l, length (filter (fun i => match vp (vs g) i with VGone => true | _ => false end) l) < length l -> exists i, In i l /\ vp (vs g) i <> VGone).
          { clear. induction l as [|x l IH]; cbn; [lia|]. intro H. destruct (vp (vs g) x) eqn:EV; cbn in H.
            7: { destruct IH as (i & A & B); [lia|]. eauto. }
            all: exists x; split; [left; reflexivity|congruence]. }
          destruct (Q _ LT) as (i & A & B). apply in_seq in A. exists i. split; [lia|assumption]. }
        destruct EX as (i & L & NG). destruct (vp (vs g) i) eqn:EV; try congruence.
        -- destruct C as (_ & C & _). contradiction (C i L).
        -- exists (GEnv (EAcceptErr i)). eexists. split; [cbn; rewrite EV; reflexivity|]. right. exists i, (EAcceptErr i). repeat split; try assumption; [cbn; apply Nat.eqb_refl|discriminate].
        -- exists (GEnv (ESpawn i)). eexists. split; [cbn; rewrite EV; reflexivity|]. right. exists i, (ESpawn i). repeat split; try assumption; [cbn; apply Nat.eqb_refl|discriminate].
        -- exists (GEnv (ECheck i)). eexists. split; [cbn; rewrite EV; reflexivity|]. right. exists i, (ECheck i). repeat split; try assumption; [cbn; apply Nat.eqb_refl|discriminate].
        -- exists (GEnv (ERet i)). eexists. split; [cbn; rewrite EV; reflexivity|]. right. exists i, (ERet i). repeat split; try assumption; [cbn; apply Nat.eqb_refl|discriminate].
        -- exists (GEnv (ERet i)). eexists. split; [cbn; rewrite EV; reflexivity|]. right. exists i, (ERet i). repeat split; try assumption; [cbn; apply Nat.eqb_refl|discriminate].
    + left. exact E.
  - intro ls. clear DA NN C V. revert g I. induction ls as [|l ls IH]; intros g I g' H; cbn in H; [inversion H; subst; cbn; lia|].
    destruct (gstep n g l) as [g1|] eqn:E; [|discriminate]. assert (X := gleft_step n g l g1 I E).
    specialize (IH g1 (ginv_step n g l g1 I E) g' H). cbn. destruct (isGroup l); cbn; lia.
Qed.
Print Assumptions C72_returns_partial.

(** Partial: if moreover no Accept had just returned a connection, then nothing is served once ServeAll has returned. *)
Theorem C72_nothing_served_partial :
  forall n g0 g, downAfter n g0 g -> gp g0 = GWait -> (forall i c, vp (vs g0) i <> VGot c) ->
  returned g -> forall c, ~ serves (vs g) c.
Proof.
  intros n g0 g DA W NG RT. unfold returned in RT.
  assert (DA' := DA). destruct DA' as (HR & D & A & g1 & ls & H & R).
  assert (X : forall ls g1 g, downAfter n g0 g1 -> run (gstep n) g1 ls = Some g ->
    (match gp g1 with GWait | GInt 0 | GIntWg 0 | GNew => True | _ => conns (vs g1) = [] end) ->
    (match gp g with GWait | GInt 0 | GIntWg 0 | GNew => True | _ => conns (vs g) = [] end)).
  { clear - NG. induction ls as [|l ls IH]; intros g1 g DA H HC; cbn in H; [inversion H; subst; exact HC|].
    destruct (gstep n g1 l) as [g2|] eqn:E; [|discriminate].
    apply (IH g2 g); [|exact H|].
    { destruct DA as (B1 & B2 & B3 & g' & ls' & B4 & B5). split; [exact B1|]. split; [exact B2|]. split; [exact B3|].
      exists g', (ls' ++ [l]). split; [exact B4|]. rewrite run_app, B5. cbn. rewrite E. reflexivity. }
    destruct (downAfter_closed n g0 g1 DA) as (I & C & V & G). specialize (G NG).
    destruct l as [| | | |l].
    - cbn in E. destruct (gp g1) eqn:EP; try discriminate. inversion E; subst; clear E. cbn.
      destruct (Nat.eqb_spec n 0) as [->|]; [|exact Logic.I].
      destruct (conns (vs g1)) as [|c cs] eqn:EC; [reflexivity|]. exfalso.
      destruct DA as (B1 & B2 & B3 & g' & ls' & B4 & B5).
      (* without bindings nothing is ever accepted *)
      assert (Z : forall s, reachable (vstep 0) vinit s -> conns s = []).
      { intros s HRs. refine (proj1 (reachable_inv (vstep 0) (fun s => conns s = [] /\ forall i, vp s i = VIdle) vinit _ _ s HRs)).
        - split; reflexivity.
        - intros s1 l1 s2 [Z1 Z2] ST. destruct l1; cbn in ST; rewrite ?Z2 in ST; try discriminate ST.
          + rewrite Z1 in ST. discriminate.
          + destruct (done s1); [inversion ST; subst; cbn; auto|]. destruct bad as [b|]; [cbn in ST; discriminate|]. inversion ST; subst. cbn. auto.
          + destruct (nth_error _ _) as [[]|]; [| |discriminate]; [inversion ST; subst; cbn; auto|]. destruct (conns s1) eqn:EC1; [|discriminate]. inversion ST; subst. cbn. auto. }
      destruct I as [RI _]. rewrite (Z _ RI) in EC. discriminate.
    - cbn [gstep] in E. destruct (gp g1) eqn:EP; try discriminate. destruct (0 <? _); [|discriminate]. inversion E; subst. cbn. exact Logic.I.
    - rewrite (group_keeps n g1 GShut g2 I eq_refl E). cbn [gstep] in E. destruct (gp g1) as [| |k|k|k| |] eqn:EP; try discriminate.
      + destruct I as [RI P]. rewrite EP in P. destruct (ginv_done n _ RI ltac:(lia)) as [DD _]. rewrite DD in E. inversion E; subst. cbn [gp]. destruct k; exact HC.
      + destruct I as [RI P]. rewrite EP in P. contradiction.
      + destruct (conns (vs g1)) eqn:EC; [|discriminate]. 
        destruct (S k =? n); [destruct (got g1 =? n)|]; inversion E; reflexivity.
    - rewrite (group_keeps n g1 GNext g2 I eq_refl E). cbn [gstep] in E. destruct (gp g1) eqn:EP; try discriminate.
      destruct (_ <? _); [|discriminate]. destruct (_ =? n); inversion E; exact HC.
    - destruct (genv_inv n g1 l g2 E) as (s & HV & ->). cbn [gp vs].
      destruct (closed_step n _ _ s C V HV) as (_ & _ & K & _).
      assert (KE : conns (vs g1) = [] -> conns s = []).
      { intro EC. destruct (conns s) as [|c cs] eqn:ES; [reflexivity|]. exfalso. destruct (K c (or_introl eq_refl)) as [K1|(i & K1)].
        - rewrite EC in K1. contradiction.
        - exact (G i c K1). }
      destruct (gp g1) as [| |[|k]|[|k]|[|k]| |]; auto. }
  assert (DA1 : downAfter n g0 g1).
  { split; [exact HR|]. split; [exact D|]. split; [exact A|]. exists g1, []. split; [exact H|reflexivity]. }
  specialize (X ls g1 g DA1 R). destruct (genv_inv n g0 _ g1 H) as (s & HV & E1).
  rewrite RT in X. unfold serves. intros c. rewrite X; [intros []|]. rewrite E1. cbn [gp]. rewrite W. exact Logic.I.
Qed.
Print Assumptions C72_nothing_served_partial.

(** Concrete case: two bindings, one connection that ends, Shutdown; ServeAll returns. *)
Definition exBefore : list glabel := [GServeAll; GEnv (EServe 0); GEnv (EServe 1); GEnv (EAccept 1); GEnv (ESpawn 1)].
Definition exAfter : list glabel :=
  [GEnv (EAcceptErr 0); GEnv (EShut 0); GEnv (ECheck 0); GEnv (ERet 0); GEnv (ERet 0); GFirst; GShut;
   GEnv (EEnd 0); GShut; GEnv (EAcceptErr 1); GEnv (ECheck 1); GEnv (ERet 1); GShut; GEnv (ERet 1); GShut; GNext].
Example C72_case : exists g0 g1 g, run (gstep 2) ginit exBefore = Some g0 /\ gstep 2 g0 (GEnv (EShutdown None)) = Some g1 /\
  run (gstep 2) g1 exAfter = Some g /\ downAfter 2 g0 g /\ gp g0 = GWait /\ (forall i c, vp (vs g0) i <> VGot c) /\ serves (vs g0) 0 /\ returned g.
Proof.
  destruct (run (gstep 2) ginit exBefore) as [g0|] eqn:E0; [|vm_compute in E0; discriminate E0].
  destruct (gstep 2 g0 (GEnv (EShutdown None))) as [g1|] eqn:E1; [|exfalso; vm_compute in E0; inversion E0; subst g0; vm_compute in E1; discriminate E1].
  destruct (run (gstep 2) g1 exAfter) as [g|] eqn:E2.
  2: { exfalso. vm_compute in E0. inversion E0; subst g0. vm_compute in E1. inversion E1; subst g1. vm_compute in E2. discriminate E2. }
  assert (RT : gp g = GRet).
  { assert (X : match run (gstep 2) ginit (exBefore ++ GEnv (EShutdown None) :: exAfter) with Some g => gp g = GRet | None => False end) by (vm_compute; reflexivity).
    rewrite run_app, E0 in X. cbn [run] in X. rewrite E1, E2 in X. exact X. }
  assert (F : gp g0 = GWait /\ done (vs g0) = false /\ vp (vs g0) 0 = VWait /\ vp (vs g0) 1 = VWait /\ conns (vs g0) = [0])
    by (clear E1; vm_compute in E0; inversion E0; subst g0; repeat split; reflexivity).
  destruct F as (F1 & F2 & F3 & F4 & F5).
  assert (R0 : reachable (gstep 2) ginit g0) by (exists exBefore; exact E0).
  exists g0, g1, g. split; [reflexivity|]. split; [exact E1|]. split; [exact E2|]. split.
  - split; [exact R0|]. split; [exact F2|]. split.
    + intros i L. destruct i as [|[|i]]; [congruence|congruence|lia].
    + exists g1, exAfter. split; assumption.
  - split; [exact F1|]. split; [|split; [unfold serves; rewrite F5; left; reflexivity|exact RT]].
    intros i c. destruct i as [|[|i]]; [congruence|congruence|].
    rewrite (k_idle 2 _ (vinv_reachable 2 _ (proj1 (ginv_reach 2 g0 R0)))) by lia. discriminate.
Qed.
