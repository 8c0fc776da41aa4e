(** C18-C22, C29, C48, C50: streams of one connection. *)
From Coq Require Import ZifyBool ZifyNat ZifyN Sorted.
From Verif Require Import Model.GoBase Model.Machine Model.Qrpc Model.FrameReader Model.Stream
  Proofs.StreamP Proofs.StreamI Proofs.StreamQ Proofs.StreamS Proofs.StreamR.
Open Scope N_scope.

Definition fr (id fl : N) : Frame := mkFrame id fl 7 [].
Definition W (id fl : N) (n : nat) : list slabel := LWrite id fl false :: repeat LWStep n.
Definition Rd (f : Frame) (n : nat) : list slabel := LFrame f :: repeat LRStep n.

(** ** C18 *)
Definition C18_statement : Prop :=
  forall isClient st, reachable (sstep isClient) sinit st -> panicked st = false.

Theorem C18_refuted : ~ C18_statement.
Proof.
  (* our StreamRequest 3; the peer resets it, then sends an ordinary frame 3: close of closed channel *)
  intro H. destruct (reach_ex true (W 3 StreamFlag 2 ++ Rd (fr 3 StreamRstFlag) 4 ++ Rd (fr 3 0) 5) (fun st => panicked st = true)) as (st & R & P);
    [vm_compute; reflexivity|]. rewrite (H true st R) in P. discriminate.
Qed.
Print Assumptions C18_refuted.

(** a reset frame followed, later, by an ordinary frame of the same stream *)
Definition ordinary_after_reset (l : list Frame) : Prop :=
  exists a g b f c, l = a ++ g :: b ++ f :: c /\
    IsRst (fFlags g) = true /\ IsRst (fFlags f) = false /\
    fRequestID g = fRequestID f /\ IsPush (fFlags g) = IsPush (fFlags f).

Theorem C18_no_panic_partial :
  forall isClient st, reachable (sstep isClient) sinit st ->
  ~ ordinary_after_reset (inlog st) -> panicked st = false.
Proof.
  intros c st R H. destruct (panicked st) eqn:EP; [|reflexivity]. elim H.
  destruct (i_pan st (reach_inv c st R) EP) as (a & g & b & f & d & E & G1 & G2 & G3).
  unfold keyOf in G3. exists a, g, b, f, d. inversion G3. auto.
Qed.
Print Assumptions C18_no_panic_partial.

Example C18_example : exists st, reachable (sstep false) sinit st /\
  (panicked st = false /\ inlog st = [fr 3 StreamFlag; fr 3 (N.lor StreamFlag StreamEndFlag); fr 5 StreamRstFlag]).
Proof.
  apply (reach_ex false (Rd (fr 3 StreamFlag) 3 ++ LFrame (fr 3 3) :: repeat LRStep 3 ++ LDeliver :: repeat LRStep 4 ++ Rd (fr 5 4) 1)
    (fun st => panicked st = false /\ inlog st = [fr 3 StreamFlag; fr 3 (N.lor StreamFlag StreamEndFlag); fr 5 StreamRstFlag])).
  vm_compute. repeat split.
Qed.

(** ** C19
    [closedSelf] is what IsSelfClosed reports; [chClosed] says Frame.FrameCh is closed; the stream is
    quiet when neither the reader nor the writer is in the middle of an operation on it. *)
Definition quiet (st : sst) (s : N) : Prop := rtagOf (rpc st) s = R0 /\ wtagOf (wpc st) s = W0.
Definition known (st : sst) (s : N) : Prop := exists p id, tbl st p id = Some s.
Definition forgotten_once (st : sst) (s : N) : Prop :=
  notified (heap st s) = 1%nat /\ cancelled (heap st s) = true /\ fullCh (heap st s) = true /\ ~ known st s.

Definition C19_statement : Prop :=
  forall isClient st s, reachable (sstep isClient) sinit st -> s < next st -> quiet st s ->
  closedSelf (heap st s) = true -> chClosed (heap st s) = true -> forgotten_once st s.

Theorem C19_refuted : ~ C19_statement.
Proof.
  (* the request ended our side; the peer answers with a reset *)
  intro H. destruct (reach_ex true (W 3 0 4 ++ Rd (fr 3 StreamRstFlag) 4)
    (fun st => next st = 1 /\ quiet st 0 /\ closedSelf (heap st 0) = true /\ chClosed (heap st 0) = true /\ notified (heap st 0) = 0%nat)) as (st & R & P1 & P2 & P3 & P4 & P5);
    [vm_compute; repeat split; reflexivity|].
  destruct (H true st 0 R) as (X & _); auto; [lia|]. congruence.
Qed.
Print Assumptions C19_refuted.

Lemma c19_once : forall rel rv wv, forall x, sokx x rel rv wv -> Nat.leb (notified x) 1 = true.
Proof. intros rel rv wv. brute_c. Qed.
Lemma c19_full : forall rel, forall x, closedSelf x = true -> chClosed x = true -> lateRst x = false -> sokx x rel R0 W0 ->
  Nat.eqb (notified x) 1 && cancelled x && fullCh x = true.
Proof. intro rel. brute_c. Qed.

Theorem C19_at_most_once_partial :
  forall isClient st s, reachable (sstep isClient) sinit st -> s < next st ->
  (notified (heap st s) <= 1)%nat /\ (notified (heap st s) = 1%nat -> ~ known st s).
Proof.
  intros c st s R Hs. pose proof (reach_inv c st R) as I. split.
  - pose proof (i_ok st I s Hs) as OK. unfold sok in OK. apply c19_once in OK. apply Nat.leb_le in OK. assumption.
  - intros Hn (p & id & HT). destruct (i_t1 st I _ _ _ HT) as (_ & _ & X). congruence.
Qed.
Print Assumptions C19_at_most_once_partial.

Theorem C19_forgotten_partial :
  forall isClient st s, reachable (sstep isClient) sinit st -> s < next st -> quiet st s ->
  closedSelf (heap st s) = true -> chClosed (heap st s) = true ->
  (forall f, In f (inlog st) -> IsRst (fFlags f) = true -> (IsPush (fFlags f), fRequestID f) <> (spush (heap st s), sid (heap st s))) ->
  forgotten_once st s.
Proof.
  intros c st s R Hs [Q1 Q2] H1 H2 HR. pose proof (reach_inv c st R) as I.
  assert (LR : lateRst (heap st s) = false).
  { destruct (lateRst (heap st s)) eqn:E; [exfalso|reflexivity]. pose proof (o_lr st (reach_o c st R) s Hs E) as X.
    destruct (i_rs st I s Hs X) as (g & G1 & G2 & G3). apply (HR g G1 G2). exact G3. }
  pose proof (i_ok st I s Hs) as OK. unfold sok in OK. rewrite Q1, Q2 in OK. apply c19_full in OK; auto.
  rewrite !andb_true_iff, Nat.eqb_eq in OK. destruct OK as [[O1 O2] O3].
  split; [assumption|]. split; [assumption|]. split; [assumption|].
  apply (C19_at_most_once_partial c st s R Hs). assumption.
Qed.
Print Assumptions C19_forgotten_partial.

Definition wmeas (p : wpc_t) : nat :=
  match p with WIdle | WExit => 0 | WLook _ _ _ => 8 | WR1 _ _ => 6 | WR2 _ _ _ => 5 | WN1 _ _ => 7
     | WN2 _ _ => 6 | WN3 _ _ => 5 | WAd1 _ _ _ => 4 | WAd2 _ _ _ => 3 | WAd3 _ _ _ => 2 | WAd4 _ _ _ => 1 end%nat.
(** the writer never blocks in the middle of a write *)
Theorem C19_writer_finishes_partial :
  forall isClient st, reachable (sstep isClient) sinit st -> panicked st = false ->
  exists n st', (n <= 8)%nat /\ run (sstep isClient) st (repeat LWStep n) = Some st' /\ (wpc st' = WIdle \/ wpc st' = WExit \/ panicked st' = true).
Proof.
  intros c st R HP.
  assert (Hm : (wmeas (wpc st) <= 8)%nat) by (destruct (wpc st); cbn; lia).
  assert (G : forall k st, (wmeas (wpc st) <= k)%nat -> exists n st', (n <= k)%nat /\ run (sstep c) st (repeat LWStep n) = Some st' /\
     (wpc st' = WIdle \/ wpc st' = WExit \/ panicked st' = true)).
  { clear R HP Hm st. induction k as [|k IH]; intros st Hm.
    - exists 0%nat, st. split; [lia|]. split; [reflexivity|]. destruct (wpc st); cbn in Hm; auto; lia.
    - destruct (panicked st) eqn:HP; [exists 0%nat, st; split; [lia|]; auto|].
      destruct (wstep st) as [st1|] eqn:E.
      + assert (Hd : panicked st1 = true \/ (wmeas (wpc st1) <= k)%nat).
        { unfold wstep, createOrGet, wfin in E. destruct (wpc st) eqn:EW; try discriminate E; steps E; cbn in *; auto; right; lia. }
        destruct Hd as [Hd|Hd].
        * exists 1%nat, st1. split; [lia|]. cbn. unfold sstep. rewrite HP, E. auto.
        * destruct (IH st1 Hd) as (n & st' & A & B & C). exists (S n), st'. split; [lia|]. cbn. unfold sstep at 1. rewrite HP, E. auto.
      + exists 0%nat, st. split; [lia|]. split; [reflexivity|]. unfold wstep, createOrGet in E. destruct (wpc st); auto; exfalso; steps E; congruence. }
  destruct (G 8%nat st Hm) as (n & st' & A & B & C). exists n, st'. auto.
Qed.
Print Assumptions C19_writer_finishes_partial.

(** a request answered; the two last frames race: self end stored, peer end stored, both run afterDone *)
Example C19_example : exists st, reachable (sstep false) sinit st /\ (forgotten_once st 0).
Proof.
  apply (reach_ex false (Rd (fr 3 0) 4 ++ [LWrite 3 0 false; LWStep; LWStep; LWStep; LWStep] ++ [LRStep; LRStep; LRStep] ++ repeat LRStep 3 ++ [LWStep])
    (fun st => forgotten_once st 0)).
  vm_compute. repeat split. intros ([] & [|[p|p|]] & X); try discriminate X; destruct p; discriminate X.
Qed.

(** ** C20
    [conforming k l]: in [l] nothing but resets follows, on stream [k], a frame that ends the peer's side. *)
Definition on (k : bool * N) (f : Frame) : Prop := IsPush (fFlags f) = fst k /\ fRequestID f = snd k.
Definition conforming (k : bool * N) (l : list Frame) : Prop :=
  forall a f b, l = a ++ f :: b -> on k f -> IsDone (fFlags f) = true -> Forall (fun g => on k g -> IsRst (fFlags g) = true) b.
(** ordinary frames of stream [k] *)
Definition frames_of (k : bool * N) (l : list Frame) : list Frame :=
  filter (fun f => Bool.eqb (IsPush (fFlags f)) (fst k) && N.eqb (fRequestID f) (snd k) && negb (IsRst (fFlags f))) l.

Lemma on_key : forall k f, on k f <-> keyOf f = k.
Proof. intros [p i] f. unfold on, keyOf. cbn. split; [intros [-> ->]; reflexivity|intro H; inversion H; auto]. Qed.
Lemma conf_wf : forall k l, conforming k l -> wfkey k l.
Proof.
  intros k l H a f b E K D. specialize (H a f b E (proj2 (on_key k f) K) D). eapply Forall_impl; [|exact H].
  intros g Hg. destruct (keqb (keyOf g) k) eqn:X; [right; apply Hg, on_key, keqb_eq; assumption|left].
  intro Y. rewrite Y, keqb_refl in X. discriminate.
Qed.
Lemma frames_Kof : forall k l, frames_of k l = Kof k l.
Proof. intros k l. reflexivity. Qed.

(** For a stream the peer uses properly: at most one request is handed to a handler, it gets the frames
    in order exactly once; the only missing frame is the one the reader is busy with. *)
(** Missing: peers that go on sending on a stream after the frame that ends or resets it. *)
Theorem C20_in_order_exactly_once_partial :
  forall isClient st p id, reachable (sstep isClient) sinit st -> conforming (p, id) (inlog st) ->
  let sent := frames_of (p, id) (inlog st) in
  (forall s, s < next st -> binded (heap st s) = true -> spush (heap st s) = p -> sid (heap st s) = id ->
     exists rest, sent = got (heap st s) ++ rest /\ (length rest <= 1)%nat /\ (rpc st = RIdle \/ rpc st = RExit -> rest = [])) /\
  (forall s s', s < next st -> s' < next st -> got (heap st s) <> [] -> got (heap st s') <> [] ->
     spush (heap st s) = p -> sid (heap st s) = id -> spush (heap st s') = p -> sid (heap st s') = id -> s = s') /\
  (rpc st = RIdle \/ rpc st = RExit -> sent <> [] ->
     exists s, s < next st /\ spush (heap st s) = p /\ sid (heap st s) = id /\ got (heap st s) = sent).
Proof.
  intros c st p id R HC sent. destruct (reach_pq c st R) as (I & P & QI). specialize (QI (p, id) (conf_wf _ _ HC)). destruct QI as [G U C].
  rewrite <- frames_Kof in *. fold sent in G, C.
  assert (EQ : forall s, spush (heap st s) = p -> sid (heap st s) = id -> skey (heap st s) = (p, id)) by (intros s A B; unfold skey; congruence).
  split; [|split].
  - intros s Hs B K1 K2. exists (pendOf st s). split; [auto|]. split.
    + unfold pendOf. destruct (rpc st); cbn; try lia; match goal with |- context [if ?b then _ else _] => destruct b; cbn; lia end.
    + intros [X|X]; unfold pendOf; rewrite X; reflexivity.
  - intros s s' H1 H2 B1 B2 K1 K2 K3 K4. apply U; auto;
      match goal with |- binded (heap st ?z) = true => destruct (binded (heap st z)) eqn:E; [reflexivity|] end;
      match goal with H : ?z < next st, E : binded (heap st ?z) = false |- _ => apply (p_got st P z H) in E; contradiction end.
  - intros X Hne. destruct C as [C|[(s & A & B & D)|[(f & A & _)|(f & s & A & _)]]].
    + contradiction.
    + exists s. unfold skey in D. inversion D as [[D1 D2]]. repeat split; auto. rewrite (G s A B D).
      assert (PE : pendOf st s = []) by (unfold pendOf; destruct X as [-> | ->]; reflexivity). rewrite PE, app_nil_r. reflexivity.
    + destruct X; congruence.
    + destruct X; congruence.
Qed.
Print Assumptions C20_in_order_exactly_once_partial.

(** The full claim, for every peer: as long as the connection is open and nothing is reset, what the streams with a given id
    were given, in the order of their creation, is what was read for the id. *)
Definition handed (st : sst) (k : bool * N) : list Frame :=
  flat_map (fun s => let x := heap st (N.of_nat s) in
     if Bool.eqb (spush x) (fst k) && N.eqb (sid x) (snd k) then got x else []) (seq 0 (N.to_nat (next st))).
Definition C20_statement : Prop :=
  forall isClient st p id, reachable (sstep isClient) sinit st -> connDone st = false -> rpc st = RIdle ->
  Forall (fun f => IsRst (fFlags f) = false) (inlog st) -> handed st (p, id) = frames_of (p, id) (inlog st).

(** A second request with the id of one that is not answered yet: the reader waits for the answer and drops the request
    (framereader.go:70-75; the comment at stream.go:126-129 says it should be looked up again). *)
Theorem C20_refuted : ~ C20_statement.
Proof.
  intro H.
  destruct (reach_ex false (Rd (fr 3 0) 6 ++ Rd (fr 3 0) 3 ++ LWrite 3 0 false :: repeat LWStep 8 ++ [LRStep])
    (fun st => connDone st = false /\ rpc st = RIdle /\ inlog st = [fr 3 0; fr 3 0] /\ handed st (false, 3) = [fr 3 0]))
    as (st & R & A & B & C & D); [vm_compute; repeat split|].
  specialize (H false st false 3 R A B). rewrite C, D in H. assert (X : [fr 3 0] = [fr 3 0; fr 3 0]).
  { etransitivity; [apply H; repeat constructor|reflexivity]. }
  discriminate X.
Qed.
Print Assumptions C20_refuted.

(** For every peer: a stream is given frames that were read for its id, each at most once, in the order in which they were read,
    and no frame goes to two streams; of two streams with the same id the older one was given the older frames.  A frame is
    dropped only if the peer had ended or reset the stream with an earlier frame.  [pos s]: where in the log of frames read the
    frames given to stream [s] are. *)
Theorem C20_any_peer_partial :
  forall isClient st, reachable (sstep isClient) sinit st -> exists pos : N -> list nat,
  (forall s, s < next st ->
     Forall2 (fun i f => nth_error (inlog st) i = Some f) (pos s) (got (heap st s)) /\ StronglySorted lt (pos s) /\
     Forall (fun f => on (spush (heap st s), sid (heap st s)) f /\ IsRst (fFlags f) = false) (got (heap st s))) /\
  (forall s s' i, s < next st -> s' < next st -> In i (pos s) -> In i (pos s') -> s = s') /\
  (forall s s' i j, s < s' -> s' < next st -> spush (heap st s) = spush (heap st s') -> sid (heap st s) = sid (heap st s') ->
     In i (pos s) -> In j (pos s') -> (i < j)%nat) /\
  (forall i f, nth_error (inlog st) i = Some f -> IsRst (fFlags f) = false ->
     rpc st = RIdle \/ rpc st = RExit \/ (S i < length (inlog st))%nat ->
     (exists s, s < next st /\ In i (pos s)) \/
     (exists j g, (j < i)%nat /\ nth_error (inlog st) j = Some g /\ on (IsPush (fFlags f), fRequestID f) g /\ IsDone (fFlags g) = true)).
Proof.
  intros c st R. destruct (reach_t c st R) as (pos & T). exists pos. split; [|split; [|split]].
  - intros s Hs. split; [apply (t_at _ _ T s Hs)|]. split; [apply (t_sorted _ _ T s Hs)|].
    apply Forall_forall. intros f Hf. destruct (t_key _ _ T s f Hs Hf) as [A B]. split; [|exact B].
    apply on_key. exact A.
  - intros. eapply (t_disj _ _ T); eassumption.
  - intros s s' i j H1 H2 H3 H4 H5 H6. apply (t_ord _ _ T s s' i j H1 H2); try assumption. unfold skey. congruence.
  - intros i f Hf Hr Hi.
    assert (Hu : (i < used st)%nat).
    { assert (i < length (inlog st))%nat by (apply nth_error_Some; congruence).
      unfold used. destruct Hi as [X|[X|X]]; [rewrite X; exact H|rewrite X; exact H|destruct (undeliv (rpc st)); lia]. }
    destruct (t_loss _ _ T i f Hu Hf Hr) as [X|(j & g & A & B & C & D)]; [left; exact X|right].
    exists j, g. split; [exact A|]. split; [exact B|]. split; [apply on_key; exact C|exact D].
Qed.
Print Assumptions C20_any_peer_partial.

(** two streams interleaved *)
Example C20_example : exists st, reachable (sstep false) sinit st /\
  (rpc st = RIdle /\ got (heap st 0) = [fr 3 1; fr 3 3] /\ got (heap st 1) = [fr 5 0] /\ inlog st = [fr 3 1; fr 5 0; fr 3 3]).
Proof.
  apply (reach_ex false (Rd (fr 3 1) 3 ++ Rd (fr 5 0) 6 ++ Rd (fr 3 3) 3 ++ LDeliver :: repeat LRStep 4)
    (fun st => rpc st = RIdle /\ got (heap st 0) = [fr 3 1; fr 3 3] /\ got (heap st 1) = [fr 5 0] /\ inlog st = [fr 3 1; fr 5 0; fr 3 3])).
  vm_compute. repeat split.
Qed.

(** ** C21 *)
Theorem C21_reset_cancels :
  forall isClient st f ls st' s, reachable (sstep isClient) sinit st ->
  IsRst (fFlags f) = true -> rpc st = RIdle ->
  run (sstep isClient) st (LFrame f :: ls) = Some st' -> rpc st' = RIdle \/ rpc st' = RExit ->
  s < next st -> sid (heap st s) = fRequestID f -> spush (heap st s) = IsPush (fFlags f) ->
  cancelled (heap st' s) = true /\ chClosed (heap st' s) = true.
Proof.
  intros c st f ls st' s R HF HR E HI Hs K1 K2. pose proof (reach_inv c st R) as I. cbn [run] in E.
  destruct (sstep c st (LFrame f)) as [st1|] eqn:E1; [|discriminate].
  pose proof (sstep_inv c _ _ _ I E1) as I1.
  unfold sstep in E1. destruct (panicked st); [discriminate|]. rewrite HR, HF in E1. injection E1 as <-.
  assert (PH : rstPhase st' f s).
  { eapply (rst_run c ls); [exact I1|exact Hs|unfold skey, keyOf; cbn; congruence|left; reflexivity|exact E]. }
  destruct PH as [X|[X|[X|[X|X]]]]; [| | | |exact X]; destruct HI; congruence.
Qed.
Print Assumptions C21_reset_cancels.

(** while the reader handles a reset it changes no stream with another id and no table *)
Theorem C21_others_unaffected :
  forall isClient st st', reachable (sstep isClient) sinit st -> sstep isClient st LRStep = Some st' ->
  forall f a, inlog st = a ++ [f] -> IsRst (fFlags f) = true ->
  tbl st' = tbl st /\ next st' = next st /\
  forall s, s < next st -> (spush (heap st s), sid (heap st s)) <> (IsPush (fFlags f), fRequestID f) -> heap st' s = heap st s.
Proof.
  intros c st st' R E f a HL HF. pose proof (reach_inv c st R) as I. pose proof (i_r st I) as RV. unfold rvalid in RV.
  unfold sstep in E. destruct (panicked st); [discriminate|].
  assert (last_eq : forall a' f', inlog st = a' ++ [f'] -> f' = f).
  { intros a' f' X. rewrite HL in X. apply app_inj_tail in X. destruct X. congruence. }
  unfold rstep in E. destruct (rpc st) as [|f0|s0|s0|s0|f0|f0 s0|f0 s0 k0|s0 k0|s0 k0|s0 k0|s0 k0|s0 k0|s0 k0|s0 k0|f0 s0|f0 s0|f0 s0|] eqn:ER; try discriminate E.
  all: try (exfalso; assert (X : exists a' f', inlog st = a' ++ [f'] /\ isRstF f' = false) by (clear - RV; decompose [ex and] RV; eexists; eexists; split; eassumption);
    destruct X as (a' & f' & X1 & X2); apply last_eq in X1; subst f'; unfold isRstF in X2; congruence).
  - steps E; cbn; auto.
  - destruct RV as (H1 & a' & f' & X1 & X2 & X3). apply last_eq in X1. subst f'. unfold keyOf, skey in X3.
    steps E; cbn; (split; [reflexivity|split; [reflexivity|]]); intros s Hs HK; rewrite upd_neq; auto; intros ->; congruence.
  - destruct RV as (H1 & a' & f' & X1 & X2 & X3). apply last_eq in X1. subst f'. unfold keyOf, skey in X3.
    steps E; cbn; (split; [reflexivity|split; [reflexivity|]]); intros s Hs HK; rewrite ?upd_neq; auto; intros ->; congruence.
  - destruct RV as (H1 & a' & f' & X1 & X2 & X3). apply last_eq in X1. subst f'. unfold keyOf, skey in X3.
    steps E; cbn; (split; [reflexivity|split; [reflexivity|]]); intros s Hs HK; rewrite ?upd_neq; auto; intros ->; congruence.
Qed.
Print Assumptions C21_others_unaffected.

Example C21_example : exists st, reachable (sstep false) sinit st /\
  (rpc st = RIdle /\ cancelled (heap st 0) = true /\ chClosed (heap st 0) = true /\ cancelled (heap st 1) = false /\ chClosed (heap st 1) = false).
Proof.
  apply (reach_ex false (Rd (fr 3 1) 3 ++ Rd (fr 5 1) 3 ++ Rd (fr 3 4) 4)
   (fun st => rpc st = RIdle /\ cancelled (heap st 0) = true /\ chClosed (heap st 0) = true /\ cancelled (heap st 1) = false /\ chClosed (heap st 1) = false)).
  vm_compute. repeat split.
Qed.

(** ** C22: [wlog] lists the write requests with their outcome, [WSent] = put on the wire *)
Definition C22_statement : Prop :=
  forall isClient st, reachable (sstep isClient) sinit st ->
  forall a id fl x b, wlog st = a ++ (id, fl, WSent x) :: b -> IsPush fl = false -> IsDone fl = true ->
  forall fl' x', In (id, fl', WSent x') b -> IsPush fl' = false -> IsRst fl' = true.

Theorem C22_refuted : ~ C22_statement.
Proof.
  (* request 3 arrives whole and is answered; a second answer is sent on a new stream object *)
  intro H. destruct (reach_ex false (Rd (fr 3 0) 6 ++ W 3 0 8 ++ LWFlush :: W 3 0 4)
    (fun st => wlog st = [(3, 0, WSent (Some 0)); (3, 0, WSent (Some 1))])) as (st & R & P);
    [vm_compute; reflexivity|].
  specialize (H false st R [] 3 0 (Some 0) [(3, 0, WSent (Some 1))] P eq_refl eq_refl 0 (Some 1) (or_introl eq_refl) eq_refl). discriminate.
Qed.
Print Assumptions C22_refuted.

Lemma outOf_in : forall l s fl, (exists id, In (id, fl, WSent (Some s)) l) -> In fl (outOf l s).
Proof.
  induction l as [|[[i f] r] l IH]; intros s fl [id H]; [contradiction|]. destruct H as [H|H].
  - inversion H; subst. cbn. rewrite N.eqb_refl. left. reflexivity.
  - cbn. assert (X : In fl (outOf l s)) by (apply IH; exists id; assumption).
    destruct r as [[s'|]| | | |]; auto. destruct (N.eqb s' s); [right|]; assumption.
Qed.

(** A further ordinary frame under the id can only go out after the connection has forgotten the
    stream, because both sides had ended. *)
Theorem C22_no_write_after_end_partial :
  forall isClient st, reachable (sstep isClient) sinit st ->
  forall a id fl s b, wlog st = a ++ (id, fl, WSent (Some s)) :: b -> IsDone fl = true ->
  forall fl' s', In (id, fl', WSent (Some s')) b -> IsPush fl' = IsPush fl ->
  IsRst fl' = true \/ (s <> s' /\ notified (heap st s) = 1%nat /\ closedPeer (heap st s) = true /\ closedSelf (heap st s) = true).
Proof.
  intros c st R a id fl s b HL HD fl' s' HI HPush. pose proof (reach_inv c st R) as I.
  destruct (IsRst fl') eqn:ER; [left; reflexivity|right].
  destruct (i_wl2 st I id fl s ltac:(rewrite HL; apply in_or_app; right; left; reflexivity)) as [V1 K1].
  destruct (i_wl2 st I id fl' s' ltac:(rewrite HL; apply in_or_app; right; right; assumption)) as [V2 K2].
  assert (NE : s <> s').
  { intros ->. pose proof (i_o st I s' V2) as O. rewrite (i_wl st I s' V2), HL, outOf_app in O. cbn in O. rewrite N.eqb_refl in O.
    specialize (O _ _ _ eq_refl HD). rewrite Forall_forall in O. specialize (O fl'). rewrite O in ER; [discriminate|].
    apply outOf_in. exists id. assumption. }
  split; [assumption|]. pose proof (reach_o c st R) as OI.
  assert (LE : s <= s').
  { eapply (o_sort st OI (sentStreams a) s (sentStreams b) s').
    - rewrite HL, sentStreams_app. reflexivity.
    - apply in_sent. eauto.
    - congruence. }
  assert (NN : notified (heap st s) <> 0%nat) by (eapply (o_old st OI s s'); [lia|assumption|congruence]).
  pose proof (C19_at_most_once_partial c st s R V1) as [LE1 _]. split; [lia|].
  pose proof (i_ok st I s V1) as OK. unfold sok in OK.
  assert (HD' : hasDone (out (heap st s)) = true).
  { unfold hasDone. apply existsb_exists. exists fl. split; [|assumption]. rewrite (i_wl st I s V1). apply outOf_in. exists id.
    rewrite HL. apply in_or_app. right. left. reflexivity. }
  revert NN HD' OK. generalize (isRel st) (rtagOf (rpc st) s) (wtagOf (wpc st) s). clear. intros rel rv wv NN HD OK.
  assert (X : forall x, hasDone (out x) = true -> sokx x rel rv wv -> implb (negb (Nat.eqb (notified x) 0)) (closedPeer x && closedSelf x) = true).
  { clear. intros [si pu ca cs cp fc bd cc fch n go ou lr rs he]. unfold sokx. cbn -[sokb hasDone]. intros -> K.
    destruct (sokb_n _ _ _ _ _ _ _ _ _ _ _ _ _ _ _ K) as [-> | ->]; [reflexivity|]. revert K. apply implb_use. bforce. }
  specialize (X _ HD OK). destruct (notified (heap st s)); [contradiction|]. cbn in X. apply andb_true_iff in X. tauto.
Qed.
Print Assumptions C22_no_write_after_end_partial.

(** as long as the stream is known, a further ordinary frame is refused with an error *)
Theorem C22_refused_partial :
  forall isClient st st' id fl s, reachable (sstep isClient) sinit st ->
  wpc st = WN1 s fl -> closedSelf (heap st s) = true -> sid (heap st s) = id -> sstep isClient st LWStep = Some st' ->
  wlog st' = wlog st ++ [(id, fl, WErrClosedSelf)] /\ wpc st' = WIdle.
Proof.
  intros c st st' id fl s R HW HC HS E. unfold sstep in E. destruct (panicked st); [discriminate|].
  unfold wstep in E. rewrite HW, HC, HS in E. injection E as <-. auto.
Qed.
Print Assumptions C22_refused_partial.

Example C22_example : exists st, reachable (sstep false) sinit st /\
  (wlog st = [(3, 1, WSent (Some 0)); (3, 3, WSent (Some 0)); (3, 1, WErrClosedSelf); (3, 4, WSent (Some 0))]).
Proof.
  apply (reach_ex false (Rd (fr 3 1) 3 ++ W 3 1 2 ++ W 3 3 4 ++ W 3 1 2 ++ W 3 4 3)
    (fun st => wlog st = [(3, 1, WSent (Some 0)); (3, 3, WSent (Some 0)); (3, 1, WErrClosedSelf); (3, 4, WSent (Some 0))])).
  vm_compute. reflexivity.
Qed.

(** ** C29 *)
Lemma c29 : forall rel rv, forall x, closedSelf x = true -> spush x = false -> sokx x rel rv W0 -> hasDone (out x) = true.
Proof. intros rel rv. brute_c. Qed.

(** after the handler returned and its reset, if any, was taken from the queue: the peer was sent an
    ending frame *)
Theorem C29_answered_or_reset :
  forall isClient st s, reachable (sstep isClient) sinit st -> s < next st ->
  hEnded (heap st s) = true -> ~ In s (rstq st) -> wpc st = WIdle ->
  exists a fl x b, wlog st = a ++ (sid (heap st s), fl, WSent x) :: b /\ IsDone fl = true /\ IsPush fl = false.
Proof.
  intros c st s R Hs HE HQ HW. pose proof (reach_inv c st R) as I. destruct (i_h st I s Hs HE) as [HP HC].
  assert (CS : closedSelf (heap st s) = true).
  { destruct (closedSelf (heap st s)); [reflexivity|]. destruct (HC eq_refl) as [X|[[ce X]|[fl X]]]; [contradiction|congruence|congruence]. }
  pose proof (i_ok st I s Hs) as OK. unfold sok in OK. rewrite HW in OK. apply c29 in OK; auto.
  unfold hasDone in OK. apply existsb_exists in OK. destruct OK as (fl & F1 & F2). rewrite (i_wl st I s Hs) in F1.
  assert (X : exists id, In (id, fl, WSent (Some s)) (wlog st)).
  { revert F1. generalize (wlog st). clear. induction l as [|[[i f] r] l IH]; [contradiction|]. cbn.
    destruct r as [[s'|]| | | |]; try (intro H; destruct (IH H) as [id X]; exists id; right; assumption).
    destruct (N.eqb_spec s' s) as [->|]; [|intro H; destruct (IH H) as [id X]; exists id; right; assumption].
    intros [->|H]; [exists i; left; reflexivity|]. destruct (IH H) as [id X]; exists id; right; assumption. }
  destruct X as [id X]. destruct (i_wl2 st I _ _ _ X) as [_ K]. unfold skey in K.
  assert (K1 : spush (heap st s) = IsPush fl) by congruence. assert (K2 : id = sid (heap st s)) by congruence. subst id.
  apply in_split in X. destruct X as (a & b & X). exists a, fl, (Some s), b. split; [assumption|]. split; [assumption|congruence].
Qed.
Print Assumptions C29_answered_or_reset.

(** a handler that did not end its stream: if nobody else writes under its id, a reset frame goes out *)
Theorem C29_reset_sent :
  forall isClient st st1 ls st' s, reachable (sstep isClient) sinit st -> wpc st = WIdle ->
  closedSelf (heap st s) = false -> sstep isClient st (LHEnd s) = Some st1 ->
  run (sstep isClient) st1 ls = Some st' -> (forall fl ce, ~ In (LWrite (sid (heap st s)) fl ce) ls) ->
  ~ In s (rstq st') -> wpc st' = WIdle ->
  exists fl, In fl (out (heap st' s)) /\ IsRst fl = true.
Proof.
  intros c st st1 ls st' s R HW HC E1 E2 NL HQ HW'. pose proof (reach_inv c st R) as I. pose proof (sstep_inv c _ _ _ I E1) as I1.
  unfold sstep in E1. destruct (panicked st); [discriminate|].
  destruct ((s <? next st) && binded (heap st s) && negb (hEnded (heap st s)) && negb (spush (heap st s))) eqn:EC; [|discriminate].
  rewrite !andb_true_iff, !negb_true_iff in EC. destruct EC as [[[E3 E4] E5] E6]. apply N.ltb_lt in E3. injection E1 as E1. rewrite HC in E1.
  assert (RG : rstGoing st' s).
  { apply (rstGoing_run c ls st1 st' s); try assumption; subst st1.
    - exact E3.
    - cbn. rewrite upd_eq. exact E6.
    - split; cbn; rewrite HW; [intros fl ce X; discriminate|exact Logic.I].
    - left. cbn. rewrite upd_eq. cbn. split; [assumption|]. left. apply in_or_app. right. left. reflexivity.
    - cbn. rewrite upd_eq. exact NL. }
  destruct RG as [[_ [X|[[ce X]|[fl X]]]]|[X|(fl & _ & [X|[X|[X|[X|X]]]])]]; try contradiction; try congruence.
  unfold hasRst in X. apply existsb_exists in X. destruct X as (fl & X). exists fl. assumption.
Qed.
Print Assumptions C29_reset_sent.

Theorem C29_no_reset_when_ended :
  forall isClient st st1 s, reachable (sstep isClient) sinit st -> closedSelf (heap st s) = true ->
  sstep isClient st (LHEnd s) = Some st1 -> rstq st1 = rstq st /\ wlog st1 = wlog st.
Proof.
  intros c st st1 s R HC E. unfold sstep in E. destruct (panicked st); [discriminate|].
  match type of E with (if ?b then _ else _) = _ => destruct b; [|discriminate] end. rewrite HC in E. injection E as <-. auto.
Qed.
Print Assumptions C29_no_reset_when_ended.

Example C29_example :
  (exists st, reachable (sstep false) sinit st /\ (wlog st = [(3, StreamRstFlag, WSent (Some 0))] /\ hEnded (heap st 0) = true)) /\
  (exists st, reachable (sstep false) sinit st /\ (wlog st = [(3, 0, WSent (Some 0))] /\ hEnded (heap st 0) = true /\ rstq st = [])).
Proof.
  split.
  - apply (reach_ex false (Rd (fr 3 0) 6 ++ LHEnd 0 :: LWriteRst :: repeat LWStep 7)
      (fun st => wlog st = [(3, StreamRstFlag, WSent (Some 0))] /\ hEnded (heap st 0) = true)). vm_compute. repeat split.
  - apply (reach_ex false (Rd (fr 3 0) 6 ++ W 3 0 8 ++ [LHEnd 0])
      (fun st => wlog st = [(3, 0, WSent (Some 0))] /\ hEnded (heap st 0) = true /\ rstq st = [])). vm_compute. repeat split.
Qed.

(** ** C48: the reader goroutine of a closed connection can return *)
Definition C48_statement : Prop :=
  forall isClient st, reachable (sstep isClient) sinit st -> panicked st = false -> connDone st = true ->
  exists ls st', run (sstep isClient) st ls = Some st' /\ rpc st' = RExit.

Definition waitsForever (st : sst) : Prop := SInv st /\ exists f s, rpc st = RWait f s /\ s < next st /\ closedPeer (heap st s) = false.
Lemma waits_step : forall isClient st l st', waitsForever st -> sstep isClient st l = Some st' -> waitsForever st'.
Proof.
  intros c st l st' [I (g & z & H1 & H2 & H3)] E. split; [eapply sstep_inv; eassumption|]. exists g, z.
  destruct (sstep_key c st l st' I E) as [Hn _]. pose proof (i_ok st I z H2) as OK. unfold sok in OK.
  rewrite isRel_false_r in OK by (rewrite H1; discriminate). apply c_ncp in OK; [|assumption].
  rewrite !andb_true_iff, !negb_true_iff in OK. destruct OK as [[_ OK] _].
  split; [|split; [lia|]]; clear Hn I.
  - allcases E; cbn; try congruence.
  - allcases E; upd_tac z; auto; try congruence; lia.
Qed.

Theorem C48_refuted : ~ C48_statement.
Proof.
  (* a stream frame waits for a handler that does not receive; the connection is closed *)
  intro H. destruct (reach_ex false (Rd (fr 3 1) 3 ++ Rd (fr 3 1) 3 ++ [LHEnd 0; LDone; LCtx; LWriteRst] ++ repeat LWStep 3 ++ [LWExit])
    (fun st => panicked st = false /\ connDone st = true /\ rpc st = RWait (fr 3 1) 0 /\ next st = 1 /\ closedPeer (heap st 0) = false)) as (st & R & P1 & P2 & P3 & P4 & P5).
  { vm_compute. repeat split. }
  destruct (H false st R P1 P2) as (ls & st' & E & X).
  assert (WF : waitsForever st').
  { eapply (run_inv (sstep false) waitsForever); [apply waits_step| |exact E]. split; [apply (reach_inv false); assumption|].
    exists (fr 3 1), 0. repeat split; auto. lia. }
  destruct WF as (_ & f & s & Y & _). congruence.
Qed.
Print Assumptions C48_refuted.

Definition rmeas (p : rpc_t) : nat :=
  match p with
  | RIdle | RExit | RWait _ _ => 0 | RRst _ => 4 | RRbp1 _ => 3 | RRbp2 _ => 2 | RRbp3 _ => 1
  | RGet _ => 20 | RBind _ _ => 15 | RAddIn _ _ => 14 | RSend _ _ => 13 | RCl1 _ _ _ => 12 | RCl2 _ _ => 11 | RCl3 _ _ => 10
  | RCl4 _ _ => 9 | RAd1 _ _ => 8 | RAd2 _ _ => 7 | RAd3 _ _ => 6 | RAd4 _ _ => 5
  end%nat.

Lemma conf_nobad : forall l, (forall k, conforming k l) -> ~ badlog l.
Proof.
  intros l H (a & g & b & f & d & E & G1 & G2 & G3). specialize (H (keyOf g) a g (b ++ f :: d) E (proj2 (on_key _ _) eq_refl)).
  specialize (H (rst_done _ G1)). apply Forall_app in H. destruct H as [_ H]. inversion H as [|? ? X _]; subst.
  unfold isRstF in G2. rewrite X in G2; [discriminate|]. apply on_key. congruence.
Qed.

Lemma rstep_prog : forall st,
  match rpc st with RIdle | RExit | RSend _ _ | RWait _ _ => False | RAddIn f s => closedPeer (heap st s) = false | _ => True end ->
  exists st1, rstep st = Some st1 /\ inlog st1 = inlog st /\
    (panicked st1 = true \/ ((rmeas (rpc st1) < rmeas (rpc st))%nat /\ forall f s, rpc st1 <> RWait f s)).
Proof.
  intros st H. unfold rstep, createOrGet.
  destruct (rpc st) eqn:ER; try contradiction;
  repeat match goal with |- context [match ?x with _ => _ end] =>
    match x with context [match _ with _ => _ end] => fail 1 | _ => destruct x eqn:? end end;
  eexists; (split; [reflexivity|split; [reflexivity|]]); cbn; auto; try congruence; right; (split; [lia|intros; discriminate]).
Qed.

(** one move of the reader, with a handler receiving if needed *)
Lemma reader_moves : forall c st, reachable (sstep c) sinit st -> panicked st = false -> (forall k, conforming k (inlog st)) ->
  (forall f s, rpc st <> RWait f s) -> rpc st = RIdle \/ rpc st = RExit \/
  exists l st1, (l = LRStep \/ (l = LDeliver /\ exists f s, rpc st = RSend f s)) /\ sstep c st l = Some st1 /\ (rmeas (rpc st1) < rmeas (rpc st))%nat /\
    inlog st1 = inlog st /\ panicked st1 = false /\ (forall f s, rpc st1 <> RWait f s).
Proof.
  intros c st R HP HC HW. destruct (reach_pq c st R) as (I & P & _).
  assert (NP : forall l st1, sstep c st l = Some st1 -> inlog st1 = inlog st -> panicked st1 = false).
  { intros l st1 E HL. destruct (panicked st1) eqn:X; [|reflexivity]. pose proof (sstep_inv c _ _ _ I E) as I1.
    elim (conf_nobad (inlog st) HC). rewrite <- HL. apply (i_pan st1 I1 X). }
  assert (EN : forall f s, rpc st = RAddIn f s -> closedPeer (heap st s) = false).
  { intros f s X. pose proof (i_r st I) as RV. unfold rvalid in RV. rewrite X in RV. destruct RV as (Hs & Ks & _).
    destruct (open_now st f (keyOf f) s I P (conf_wf _ _ (HC _)) ltac:(rewrite X; reflexivity) eq_refl Hs ltac:(congruence)) as (A & _). exact A. }
  destruct (match rpc st with RIdle | RExit | RSend _ _ => true | _ => false end) eqn:EC.
  - destruct (rpc st) as [| | | | | | | | | | | | | | | |f s| |] eqn:ER; try discriminate EC; auto.
    right; right. pose proof (i_r st I) as RV. unfold rvalid in RV. rewrite ER in RV. destruct RV as (Hs & _).
    pose proof (i_ok st I s Hs) as OK. unfold sok in OK. rewrite ER in OK. cbn in OK. rewrite at_eq in OK. apply c_send in OK. apply negb_true_iff in OK.
    assert (E : sstep c st LDeliver = Some (w_rpc (RCl1 f s KStart) (modS s (fun x => set_got (got x ++ [f]) x) st))).
    { unfold sstep. rewrite HP, ER, OK. reflexivity. }
    do 2 eexists. split; [right; split; [reflexivity|exists f, s; reflexivity]|]. split; [exact E|]. cbn. repeat split; auto; try lia; discriminate.
  - right; right. destruct (rstep_prog st) as (st1 & E & HL & D).
    { destruct (rpc st) eqn:ER; try discriminate EC; try exact Logic.I; [apply EN with (f := f); reflexivity|elim (HW f s); reflexivity]. }
    assert (E' : sstep c st LRStep = Some st1) by (unfold sstep; rewrite HP; exact E). pose proof (NP _ _ E' HL) as X.
    destruct D as [D|[D1 D2]]; [congruence|]. exists LRStep, st1. repeat split; auto.
Qed.

(** A connection whose peer respects the protocol: unless the reader already waits for a stream to be
    fully closed, it can return; all it needs is that handlers receive from FrameCh. *)
Theorem C48_reader_returns_partial :
  forall isClient st, reachable (sstep isClient) sinit st -> panicked st = false ->
  (forall k, conforming k (inlog st)) -> (forall f s, rpc st <> RWait f s) ->
  exists ls st', Forall (fun l => l = LRStep \/ l = LDeliver \/ l = LRExit) ls /\ run (sstep isClient) st ls = Some st' /\ rpc st' = RExit.
Proof.
  intros c st. remember (rmeas (rpc st)) as m eqn:Em. revert st Em.
  induction m as [m IH] using (well_founded_induction lt_wf). intros st Em R HP HC HW.
  destruct (reader_moves c st R HP HC HW) as [X|[X|(l & st1 & L & E & D & HL & HP1 & HW1)]].
  - exists [LRExit], (w_rpc RExit st). split; [constructor; auto|]. cbn. unfold sstep. rewrite HP, X. auto.
  - exists [], st. auto.
  - destruct (IH (rmeas (rpc st1)) ltac:(lia) st1 eq_refl) as (ls & st' & A & B & C); auto.
    + eapply reachable_step; eassumption.
    + intro k. rewrite HL. apply HC.
    + exists (l :: ls), st'. split; [constructor; [destruct L as [->|[-> _]]; auto|assumption]|]. cbn. rewrite E. auto.
Qed.
Print Assumptions C48_reader_returns_partial.

(** If moreover every stream consists of one frame from the peer (plain requests, responses, pushes),
    the reader never depends on a handler. *)
Theorem C48_plain_requests_partial :
  forall isClient st, reachable (sstep isClient) sinit st -> panicked st = false ->
  (forall k, conforming k (inlog st) /\ (length (frames_of k (inlog st)) <= 1)%nat) ->
  exists n st', run (sstep isClient) st (repeat LRStep n) = Some st' /\ (rpc st' = RIdle \/ rpc st' = RExit).
Proof.
  intros c st. remember (rmeas (rpc st)) as m eqn:Em. revert st Em.
  induction m as [m IH] using (well_founded_induction lt_wf). intros st Em R HP HC.
  assert (NB : forall f s, curFrame (rpc st) = Some f -> s < next st -> skey (heap st s) = keyOf f -> binded (heap st s) = true ->
     pendOf st s = [f] -> False).
  { intros f s X Hs K B PE. destruct (reach_pq c st R) as (I & P & QI). destruct (HC (keyOf f)) as [HC1 HC2].
    pose proof (q_got _ _ (QI _ (conf_wf _ _ HC1)) s Hs B K) as G. rewrite <- frames_Kof in G. rewrite G, PE, app_length in HC2. cbn in HC2.
    destruct (got (heap st s)) eqn:EG; [|cbn in HC2; lia]. apply (p_got st P s Hs) in EG. congruence. }
  assert (RV : rvalid st) by (apply i_r, (reach_inv c); assumption). unfold rvalid in RV.
  destruct (reader_moves c st R HP (fun k => proj1 (HC k))) as [X|[X|(l & st1 & L & E & D & HL & HP1 & HW1)]].
  - intros f s X. rewrite X in RV. destruct RV as (Hs & Ks & _). apply (NB f s); auto; [rewrite X; reflexivity| |unfold pendOf; rewrite X, at_eq; reflexivity].
    pose proof (i_ok st (reach_inv c st R) s Hs) as OK. unfold sok in OK. rewrite X in OK. cbn in OK. rewrite at_eq in OK.
    assert (Y : forall rel wv, forall x, sokx x rel TWait wv -> binded x = true) by (intros rel wv; brute_c). eapply Y; exact OK.
  - exists 0%nat, st. cbn. auto.
  - exists 0%nat, st. cbn. auto.
  - destruct L as [->|(-> & f & s & X)].
    + destruct (IH (rmeas (rpc st1)) ltac:(lia) st1 eq_refl) as (n & st' & A & B); auto.
      * eapply reachable_step; eassumption.
      * intro k. rewrite HL. apply HC.
      * exists (S n), st'. cbn [repeat run]. rewrite E. auto.
    + exfalso. rewrite X in RV. destruct RV as (Hs & Ks & _). apply (NB f s); auto; [rewrite X; reflexivity| |unfold pendOf; rewrite X, at_eq; reflexivity].
      pose proof (i_ok st (reach_inv c st R) s Hs) as OK. unfold sok in OK. rewrite X in OK. cbn in OK. rewrite at_eq in OK.
      assert (Y : forall rel wv, forall x, sokx x rel TSend wv -> binded x = true) by (intros rel wv; brute_c). eapply Y; exact OK.
Qed.
Print Assumptions C48_plain_requests_partial.

Example C48_example : exists st, reachable (sstep false) sinit st /\
  (rpc st = RCl1 (fr 3 0) 0 KRet /\ inlog st = [fr 3 0] /\ connDone st = true /\ panicked st = false).
Proof.
  apply (reach_ex false (Rd (fr 3 0) 2 ++ [LDone]) (fun st => rpc st = RCl1 (fr 3 0) 0 KRet /\ inlog st = [fr 3 0] /\ connDone st = true /\ panicked st = false)).
  vm_compute. repeat split.
Qed.

(** ** C50: StreamWriter.EndWrite = a write request with [checkExist] *)
Definition C50_statement (isClient : bool) : Prop :=
  forall st id fl st1 ls st2 st3, reachable (sstep isClient) sinit st ->
  IsRst fl = false -> IsPush fl = false ->
  sstep isClient st (LWrite id fl true) = Some st1 ->
  run (sstep isClient) st1 ls = Some st2 -> ~ In LWStep ls ->
  tbl st2 false id = None ->                       (* the stream is fully closed when it is looked up *)
  sstep isClient st2 LWStep = Some st3 ->
  wpc st3 = WIdle /\ exists e, wlog st3 = wlog st2 ++ [(id, fl, e)] /\ e = WErrNotExists.

Lemma wlook_stays : forall c ls st st' p, wpc st = p -> (exists id fl ce, p = WLook id fl ce) -> ~ In LWStep ls ->
  run (sstep c) st ls = Some st' -> wpc st' = p.
Proof.
  intros c. induction ls as [|l ls IH]; intros st st' p HW HP NL E; cbn in E; [inversion E; subst; reflexivity|].
  destruct (sstep c st l) as [st1|] eqn:E1; [|discriminate]. eapply IH; [|exact HP|intro X; apply NL; right; exact X|exact E].
  assert (N1 : l <> LWStep) by (intros ->; apply NL; left; reflexivity). clear E IH NL. destruct HP as (i & g & b & ->).
  allcases E1; cbn; try congruence.
Qed.

Theorem C50_server : C50_statement false.
Proof.
  intros st id fl st1 ls st2 st3 R H1 H2 E1 E2 NL HT E3. unfold sstep in E1. destruct (panicked st); [discriminate|].
  destruct (wpc st) eqn:EW; try discriminate E1. injection E1 as <-.
  assert (W2 : wpc st2 = WLook id fl true) by (eapply (wlook_stays false ls); [| |exact NL|exact E2]; [reflexivity|eauto]).
  unfold sstep in E3. destruct (panicked st2); [discriminate|]. unfold wstep in E3. rewrite W2, H1, H2, HT in E3. injection E3 as <-.
  cbn. split; [reflexivity|]. exists WErrNotExists. auto.
Qed.
Print Assumptions C50_server.

Theorem C50_refuted : ~ C50_statement true.
Proof.
  (* stream 3 fully closed; in the next batch it comes second, after request 5 *)
  intro H.
  set (pre := W 3 1 2 ++ W 3 3 4 ++ Rd (fr 3 3) 10 ++ LWFlush :: W 5 0 4).
  destruct (run (sstep true) sinit pre) as [st|] eqn:E0; [|vm_compute in E0; discriminate].
  destruct (sstep true st (LWrite 3 1 true)) as [st1|] eqn:E1; [|vm_compute in E0; injection E0 as <-; vm_compute in E1; discriminate].
  destruct (sstep true st1 LWStep) as [st3|] eqn:E3; [|vm_compute in E0; injection E0 as <-; vm_compute in E1; injection E1 as <-; vm_compute in E3; discriminate].
  assert (R : reachable (sstep true) sinit st) by (exists pre; assumption).
  destruct (H st 3 1 st1 [] st1 st3 R eq_refl eq_refl E1 eq_refl (fun x => x)) as (X & _); auto;
    vm_compute in E0; injection E0 as <-; vm_compute in E1; injection E1 as <-; [reflexivity|].
  vm_compute in E3. injection E3 as <-. vm_compute in X. discriminate.
Qed.
Print Assumptions C50_refuted.

(** on the client: only for the first frame of a batch *)
Theorem C50_client_partial :
  forall st id fl st1 ls st2 st3, reachable (sstep true) sinit st -> wfirst st = true ->
  IsRst fl = false -> IsPush fl = false ->
  sstep true st (LWrite id fl true) = Some st1 ->
  run (sstep true) st1 ls = Some st2 -> ~ In LWStep ls -> tbl st2 false id = None ->
  sstep true st2 LWStep = Some st3 ->
  wpc st3 = WIdle /\ wlog st3 = wlog st2 ++ [(id, fl, WErrNotExists)].
Proof.
  intros st id fl st1 ls st2 st3 R HF H1 H2 E1 E2 NL HT E3. unfold sstep in E1. destruct (panicked st); [discriminate|].
  destruct (wpc st) eqn:EW; try discriminate E1. injection E1 as <-.
  assert (W2 : wpc st2 = WLook id fl true) by (eapply (wlook_stays true ls); [| |exact NL|exact E2]; [cbn; unfold honours; rewrite HF; reflexivity|eauto]).
  unfold sstep in E3. destruct (panicked st2); [discriminate|]. unfold wstep in E3. rewrite W2, H1, H2, HT in E3. injection E3 as <-.
  auto.
Qed.
Print Assumptions C50_client_partial.

(** a fully closed stream is not in the table, unless the id was used again *)
Theorem C50_closed_not_known :
  forall isClient st s, reachable (sstep isClient) sinit st -> s < next st -> fullCh (heap st s) = true ->
  tbl st (spush (heap st s)) (sid (heap st s)) = None \/
  exists s', s < s' /\ tbl st (spush (heap st s)) (sid (heap st s)) = Some s'.
Proof.
  intros c st s R Hs HF. pose proof (reach_inv c st R) as I. destruct (tbl st (spush (heap st s)) (sid (heap st s))) as [s'|] eqn:ET; [right|auto].
  destruct (i_t1 st I _ _ _ ET) as (V & K & N). exists s'. split; [|reflexivity].
  assert (NN : notified (heap st s) <> 0%nat).
  { pose proof (i_ok st I s Hs) as OK. unfold sok in OK.
    assert (X : forall rel rv wv, forall x, fullCh x = true -> sokx x rel rv wv -> negb (Nat.eqb (notified x) 0) = true) by (intros rel rv wv; brute_c).
    apply X in OK; [|assumption]. intro Y. rewrite Y in OK. discriminate. }
  destruct (N.lt_trichotomy s s') as [L|[->|L]]; [assumption|congruence|].
  exfalso. apply (o_old st (reach_o c st R) s' s L Hs); [unfold skey; exact K|assumption].
Qed.
Print Assumptions C50_closed_not_known.

Example C50_example : exists st, reachable (sstep false) sinit st /\
  (fullCh (heap st 0) = true /\ wlog st = [(3, 3, WSent (Some 0)); (3, 1, WErrNotExists)]).
Proof.
  apply (reach_ex false (Rd (fr 3 0) 6 ++ W 3 3 8 ++ [LWrite 3 1 true; LWStep])
    (fun st => fullCh (heap st 0) = true /\ wlog st = [(3, 3, WSent (Some 0)); (3, 1, WErrNotExists)])).
  vm_compute. repeat split.
Qed.
