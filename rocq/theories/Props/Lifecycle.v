(** C32 and C33: connection ids, kicks and close notifications. *)
From Coq Require Import ZifyBool ZifyNat ZifyN.
From Verif Require Import Model.GoBase Model.Machine Model.Lifecycle Proofs.LifecycleP.
Open Scope N_scope.

(** *** C32 *)

(** What C32 says of a state.  [id2 s i]: what GetConnectionInfoByID and WalkConnByID find (server.go:567-586);
    [bound s c]: SetID on c returned; [untr s c]: IsClosed(); [clsd s c]: closed (context cancelled, functions
    notified); [kl s g]: the connections the SetID call of goroutine g kicked so far. *)
Definition idsOk (s : lst) : Prop :=
  (forall i c, id2 s i = Some c -> cid s c = Some i /\ clsd s c = false) /\
  (forall i c, bound s c = true -> cid s c = Some i -> untr s c = false -> id2 s i = Some c) /\
  (forall i c c', bound s c = true -> bound s c' = true -> cid s c = Some i -> cid s c' = Some i -> c <> c' ->
     untr s c = true \/ untr s c' = true) /\
  (forall g, NoDup (kl s g)).

Definition C32_statement : Prop := forall s, reachable lstep linit s -> idsOk s.

(** SetID racing with Close of the same connection (or called after it): the closed connection stays
    registered under the id for ever. *)
Definition staleSched : list llabel :=
  [LSetID 1 1 5; LClose 2 1; LG 2; LG 2; LG 2; LG 2; LG 2; LG 2; LG 2; LG 2; LG 1].

Theorem C32_closed_connection_found :
  exists s, reachable lstep linit s /\ id2 s 5 = Some 1 /\ clsd s 1 = true /\ ctxd s 1 = true /\ lp s 1 = LIdle /\ lp s 2 = LIdle.
Proof. eexists. split; [exists staleSched; vm_compute; reflexivity|]. vm_compute. repeat split. Qed.
Print Assumptions C32_closed_connection_found.

Theorem C32_refuted : ~ C32_statement.
Proof.
  intro H. destruct C32_closed_connection_found as (s & R & A & B & _). destruct (H s R) as (X & _). destruct (X 5 1 A). congruence.
Qed.
Print Assumptions C32_refuted.

(** The next SetID of that id by another connection never returns: goroutine 3 goes round in bindID for as long
    as nobody else acts, and never blocks either. *)
Definition spinning (s : lst) : Prop :=
  id2 s 5 = Some 1 /\ untr s 1 = true /\ utch s 1 = true /\ clsd s 1 = true /\
  (lp s 3 = LBind 2 5 \/ lp s 3 = LCas 1 true (CBind 2 5) \/ lp s 3 = LWaitCh 1 (CBind 2 5) \/ lp s 3 = LLock 1 (CBind 2 5)).

Lemma spin_step : forall s, spinning s -> exists s', lstep s (LG 3) = Some s' /\ spinning s'.
Proof.
  intros s (A & B & C & D & E). cbn [lstep]. unfold gstep. destruct E as [E|[E|[E|E]]]; rewrite E.
  - rewrite A. cbn. eexists. split; [reflexivity|]. unfold spinning. cbn. repeat split; auto.
  - rewrite B. eexists. split; [reflexivity|]. unfold spinning. cbn. repeat split; auto.
  - rewrite C. eexists. split; [reflexivity|]. unfold spinning. cbn. repeat split; auto.
  - rewrite D. eexists. split; [reflexivity|]. unfold spinning. cbn. repeat split; auto.
Qed.

Theorem C32_setid_never_returns :
  exists s, reachable lstep linit s /\ lp s 3 = LBind 2 5 /\ cid s 2 = Some 5 /\ untr s 2 = false /\
  forall n, exists s', run lstep s (repeat (LG 3) n) = Some s' /\ lp s' 3 <> LIdle.
Proof.
  eexists. split; [exists (staleSched ++ [LSetID 3 2 5]); vm_compute; reflexivity|]. split; [reflexivity|]. split; [reflexivity|]. split; [reflexivity|].
  match goal with |- forall n, exists s', run lstep ?s _ = _ /\ _ => assert (SP : spinning s) by (vm_compute; repeat split; auto); generalize dependent s end.
  intros s SP n. revert s SP. induction n as [|n IH]; intros s SP.
  - exists s. split; [reflexivity|]. destruct SP as (_ & _ & _ & _ & [E|[E|[E|E]]]); rewrite E; discriminate.
  - destruct (spin_step s SP) as (s1 & E1 & SP1). destruct (IH s1 SP1) as (s2 & E2 & X). exists s2. cbn [repeat run]. rewrite E1. split; assumption.
Qed.
Print Assumptions C32_setid_never_returns.

(** Closing a connection whose SetID has not bound its id yet removes the binding of another, live connection. *)
Theorem C32_binding_lost :
  exists s, reachable lstep linit s /\ bound s 1 = true /\ cid s 1 = Some 5 /\ untr s 1 = false /\ id2 s 5 = None /\ lp s 1 = LIdle.
Proof.
  eexists. split; [exists [LSetID 1 1 5; LG 1; LSetID 2 2 5; LClose 3 2; LG 3; LG 3; LG 3]; vm_compute; reflexivity|].
  vm_compute. repeat split.
Qed.
Print Assumptions C32_binding_lost.

(** Always, even then: what is found under an id has that id, and a connection is removed from WalkConn before
    it is closed. *)
Theorem C32_found_has_id :
  forall s, reachable lstep linit s ->
  (forall i c, id2 s i = Some c -> cid s c = Some i) /\ (forall c, clsd s c = true -> untr s c = true /\ act s c = false).
Proof.
  intros s R. pose proof (lreach s R) as I. split.
  - intros i c E. apply (i_id s I i c E).
  - intros c E. destruct (i_cl s I c E) as [U _]. apply (i_ut s I c U).
Qed.
Print Assumptions C32_found_has_id.

(** For programs that keep SetID and Close of one connection apart (Close of a connection not between its
    SetID setting and binding the id, SetID not after Close began; kicks by other SetID calls are not
    restricted), everything C32 says holds.  Missing for the full statement: that race. *)
Theorem C32_ids_partial : forall s, reachable lstepR linit s -> idsOk s.
Proof.
  intros s HR. destruct (rreach s HR) as [I R]. split; [|split; [|split]].
  - intros i c E. split; [apply (i_id s I i c E)|]. destruct (clsd s c) eqn:C; [|reflexivity]. exfalso.
    destruct (i_cl s I c C) as [U _]. rewrite (found_open s i c I R E) in U. discriminate.
  - apply (r_2 s R).
  - intros i c c' B B' E E' NE. destruct (untr s c) eqn:U; [auto|]. destruct (untr s c') eqn:U'; [auto|]. exfalso.
    pose proof (r_2 s R i c B E U) as X. pose proof (r_2 s R i c' B' E' U') as Y. congruence.
  - apply (r_6 s R).
Qed.
Print Assumptions C32_ids_partial.

(** SetID terminates, for such programs: each turn of its loop goes after a connection it has not gone after
    before and on which SetID was called with the same id, so with n connections that have the id there are
    fewer than n turns; *)
Theorem C32_setid_turns_partial :
  forall s g c i conns, reachable lstepR linit s -> contOf (lp s g) = CBind c i ->
  (forall d, cid s d = Some i -> In d conns) -> (length (kl s g) < length conns)%nat.
Proof.
  intros s g c i conns HR HC HL. destruct (rreach s HR) as [I R]. pose proof (r_5 s R g) as K. unfold kpc in K. rewrite HC in K.
  pose proof (i_p s I g) as P.
  assert (CC : cid s c = Some i).
  { destruct (lp s g); cbn in HC; try discriminate; try (inversion HC; subst; exact P); subst ct; cbn in P; unfold kok in P; intuition. }
  assert (KL : NoDup (kl s g) /\ forall v, In v (kl s g) -> cid s v = Some i /\ v <> c).
  { split; [apply (r_6 s R)|]. destruct (target (lp s g)) as [v0|].
    - destruct K as (tl & E & _ & A & B & _ & K). rewrite E. intros v [<-|HI]; [auto|]. destruct (K v HI) as (_ & X & Y). auto.
    - destruct K as [_ K]. intros v HI. destruct (K v HI) as (_ & X & Y). auto. }
  destruct KL as [ND KL].
  assert (X : (length (c :: kl s g) <= length conns)%nat).
  { apply NoDup_incl_length; [constructor; [|assumption]|].
    - intro HI. destruct (KL c HI). congruence.
    - intros v [<-|HI]; apply HL; [assumption|apply KL; assumption]. }
  cbn in X. lia.
Qed.
Print Assumptions C32_setid_turns_partial.

(** and a goroutine never waits for ever on untrackedCh: if it has to wait, the goroutine that untracks that
    connection can take its next step (here without the restriction). *)
Theorem C32_untrack_wait :
  forall s g c ct, reachable lstep linit s -> lp s g = LWaitCh c ct -> gstep s g = None ->
  exists g', g' <> g /\ wU c (lp s g') = 1%nat /\ gstep s g' <> None.
Proof.
  intros s g c ct HR HL HN. pose proof (lreach s HR) as I. unfold gstep in HN. rewrite HL in HN. destruct (utch s c) eqn:U; [discriminate|].
  pose proof (i_p s I g) as P. rewrite HL in P. cbn in P. destruct P as [_ P].
  destruct (untracker_exists s c I P U) as (g' & W). exists g'. split; [intros ->; rewrite HL in W; discriminate|]. split; [assumption|].
  unfold gstep. destruct (lp s g'); cbn in W; try discriminate. destruct (cid s c0); discriminate.
Qed.
Print Assumptions C32_untrack_wait.

(** three connections take the same id one after the other; the last SetID kicks *)
Example C32_example :
  match run lstepR linit ([LSetID 1 1 5; LG 1; LReg 7 1 9; LSetID 2 2 5] ++ repeat (LG 2) 12 ++ [LSetID 3 3 5; LG 3; LG 3]) with
  | Some s => id2 s 5 = Some 2 /\ clsd s 1 = true /\ cbs s 1 = 1%nat /\ ran s 1 9 = 1%nat /\ bound s 2 = true /\ kl s 2 = [1] /\
      lp s 3 = LGetID 2 true (CBind 3 5) /\ untr s 2 = true
  | None => False
  end.
Proof. vm_compute. repeat split. Qed.

(** *** C33 *)

(** Goroutine g has no call of a notify function of c left to make. *)
Definition owesNothing (s : lst) (c g : N) : Prop := forall f, wN c f (lp s g) = 0%nat.

(** For every connection c and function f: f is never called more often than it was registered; not at all
    before the connection is closed; and once the connection is closed and no goroutine is in the middle of
    calling functions of c, exactly as often as it was registered, before or after the close. *)
Theorem C33_exactly_once :
  forall s, reachable lstep linit s ->
  (forall c f, (ran s c f <= regs s c f)%nat) /\
  (forall c f, clsd s c = false -> ran s c f = 0%nat) /\
  (forall c, clsd s c = true -> (forall g, owesNothing s c g) -> forall f, ran s c f = regs s c f).
Proof.
  intros s HR. pose proof (lreach s HR) as I. destruct (i_s s I) as (G & C & S). split; [|split].
  - intros c f. destruct (S c) as (_ & _ & _ & X). rewrite X. lia.
  - intros c f E. apply (i_op s I c E).
  - intros c E O f. destruct (S c) as (_ & _ & _ & X). specialize (X f). destruct (i_cl s I c E) as [_ NF]. rewrite NF, occ_nil in X.
    assert (Z : gsum G (fun g => wN c f (lp s g)) = 0%nat).
    { destruct (gsum G (fun g => wN c f (lp s g))) eqn:Z; [reflexivity|]. destruct (gsum_pos G (fun g => wN c f (lp s g))) as (g & _ & W); [lia|].
      cbn in W. rewrite (O g f) in W. lia. }
    lia.
Qed.
Print Assumptions C33_exactly_once.

(** A goroutine that owes calls can always go on, and going on makes the calls: so the hypothesis of the last
    clause is reached by letting the goroutines run. *)
Theorem C33_owing_goroutine_goes_on :
  forall s c f g, reachable lstep linit s -> (1 <= wN c f (lp s g))%nat ->
  exists n s', run lstep s (repeat (LG g) n) = Some s' /\ (forall f', wN c f' (lp s' g) = 0%nat) /\
    (ran s' c f = ran s c f + wN c f (lp s g))%nat.
Proof.
  intros s c f g _ W.
  assert (N : forall todo s ct, lp s g = LNotify c todo ct ->
     exists s', run lstep s (repeat (LG g) (S (length todo))) = Some s' /\ (forall f', wN c f' (lp s' g) = 0%nat) /\ (ran s' c f = ran s c f + occ todo f)%nat).
  { clear. induction todo as [|h todo IH]; intros s ct L.
    - cbn [repeat run lstep length]. unfold gstep. rewrite L. eexists. split; [reflexivity|]. cbn. rewrite upd_eq. split; [|rewrite occ_nil; lia].
      intro f'. apply (resume_w ct c f').
    - cbn [length]. change (repeat (LG g) (S (S (length todo)))) with (LG g :: repeat (LG g) (S (length todo))). cbn [run].
      cbn [lstep]. unfold gstep at 1. rewrite L.
      match goal with |- context [run lstep ?s1 _] => destruct (IH s1 ct) as (s' & R & A & B) end; [cbn; apply upd_eq|].
      exists s'. split; [exact R|]. split; [assumption|]. rewrite B. cbn [ran]. rewrite call_get, N.eqb_refl, occ_cons. lia. }
  destruct (lp s g) as [|d i|d k ct|d k ct|d i k ct|d k ct|d ct|d ct|d ct|d ct|d todo ct|d todo ct|d h] eqn:L; cbn in W; try lia.
  - destruct (N.eqb_spec d c) as [->|]; [|lia]. 
    assert (E : exists s1, lstep s (LG g) = Some s1 /\ lp s1 g = LNotify c todo ct /\ ran s1 = ran s).
    { cbn [lstep]. unfold gstep. rewrite L. eexists. split; [reflexivity|]. cbn. rewrite upd_eq. auto. }
    destruct E as (s1 & E1 & E2 & E3). destruct (N todo s1 ct E2) as (s' & R & A & B). exists (S (S (length todo))), s'.
    change (repeat (LG g) (S (S (length todo)))) with (LG g :: repeat (LG g) (S (length todo))). cbn [run]. rewrite E1. split; [exact R|]. split; [assumption|].
    rewrite B, E3. cbn. rewrite N.eqb_refl. reflexivity.
  - destruct (N.eqb_spec d c) as [->|]; [|lia]. destruct (N todo s ct L) as (s' & R & A & B). exists (S (length todo)), s'.
    split; [exact R|]. split; [assumption|]. rewrite B. cbn. rewrite N.eqb_refl. reflexivity.
  - destruct (N.eqb_spec d c) as [->|]; [|lia]. exists 1%nat. cbn [repeat run lstep]. unfold gstep. rewrite L. eexists. split; [reflexivity|]. cbn. rewrite upd_eq.
    split; [reflexivity|]. rewrite call_get, N.eqb_refl. reflexivity.
Qed.
Print Assumptions C33_owing_goroutine_goes_on.

(** OnKickCB runs at most once per connection, and only for a connection that another connection with the same
    id kicked; Close alone never runs it. *)
Theorem C33_kick_callback :
  forall s, reachable lstep linit s -> forall c,
  (cbs s c <= 1)%nat /\
  ((1 <= cbs s c)%nat -> untr s c = true /\ exists c' i, kickedBy s c = Some c' /\ c' <> c /\ cid s c = Some i /\ cid s c' = Some i).
Proof.
  intros s HR c. pose proof (lreach s HR) as I. destruct (i_s s I) as (G & C & S). destruct (S c) as (_ & K & _).
  split; [unfold some in K; destruct (kickedBy s c); lia|]. intro H. destruct (kickedBy s c) as [c'|] eqn:E; [|cbn in K; lia].
  destruct (i_k s I c c' E) as (U & NE & i & A & B). split; [assumption|]. exists c', i. auto.
Qed.
Print Assumptions C33_kick_callback.

(** A kicked connection gets its callback: once untrackedCh is closed, it has run. *)
Theorem C33_kicked_gets_callback :
  forall s, reachable lstep linit s -> forall c c', kickedBy s c = Some c' -> utch s c = true -> cbs s c = 1%nat.
Proof.
  intros s HR c c' E U. pose proof (lreach s HR) as I. destruct (i_s s I) as (G & C & S). destruct (S c) as (A & K & _).
  rewrite E in K. cbn in K. rewrite U in A. cbn in A.
  assert (Z : gsum G (fun g => wK c (lp s g)) = 0%nat).
  { destruct (gsum G (fun g => wK c (lp s g))) eqn:Z; [reflexivity|]. destruct (gsum_pos G (fun g => wK c (lp s g))) as (g & HI & W); [lia|].
    cbn in W. pose proof (gsum_in G (fun g => wU c (lp s g)) g HI) as X. cbn in X.
    assert (wK c (lp s g) <= wU c (lp s g))%nat by (destruct (lp s g); cbn; try destruct k; lia).
    unfold b2n in A. destruct (untr s c); lia. }
  lia.
Qed.
Print Assumptions C33_kicked_gets_callback.

(** the channel every second closer waits on is closed once *)
Theorem C33_no_panic : forall s, reachable lstep linit s -> dclose s = false.
Proof. intros s HR. apply (i_dc s (lreach s HR)). Qed.
Print Assumptions C33_no_panic.

(** function 8 twice and 9 before, two concurrent closes, 9 again after *)
Example C33_example :
  match run lstep linit ([LReg 4 1 8; LReg 4 1 9; LReg 5 1 8; LClose 2 1; LClose 3 1; LG 2; LG 3] ++ repeat (LG 2) 7 ++ [LG 3; LG 3; LReg 4 1 9] ++ repeat (LG 2) 2) with
  | Some s => clsd s 1 = true /\ map (ran s 1) [8; 9] = [2; 1]%nat /\ map (regs s 1) [8; 9] = [2; 2]%nat /\ lp s 4 = LLate 1 9 /\
      lp s 2 = LIdle /\ lp s 3 = LIdle /\
      match run lstep s [LG 4] with Some s' => map (ran s' 1) [8; 9] = [2; 2]%nat | None => False end
  | None => False
  end.
Proof. vm_compute. repeat split. Qed.
