(** C65: does one stream hold up the other streams of its connection? *)
From Coq Require Import ZifyBool ZifyNat ZifyN.
From Verif Require Import Model.GoBase Model.Machine Model.Qrpc Model.FrameReader Model.Stream
  Proofs.StreamP Proofs.StreamI Proofs.StreamQ Proofs.StreamS Proofs.StreamR Props.Stream.
Open Scope N_scope.

(** what handlers and the closing of the connection do; everything else is done by the connection's own goroutines,
    the peer and callers of the write side *)
Definition helped (l : slabel) : bool := match l with LDeliver | LDone => true | _ => false end.

(** The claim: in an open connection the goroutine that reads frames always gets to the next frame, whether or not somebody
    receives the frames of the streams read so far. *)
Definition C65_statement : Prop :=
  forall isClient st, reachable (sstep isClient) sinit st -> panicked st = false -> connDone st = false -> rpc st <> RExit ->
  (forall k, conforming k (inlog st)) ->
  exists ls st', Forall (fun l => helped l = false) ls /\ run (sstep isClient) st ls = Some st' /\ rpc st' = RIdle.

Lemma send_nocp : forall st f s, SInv st -> rpc st = RSend f s -> s < next st /\ closedPeer (heap st s) = false /\
  (forall fl a, wpc st <> WAd2 s fl a).
Proof.
  intros st f s I ER. pose proof (i_r st I) as RV. unfold rvalid in RV. rewrite ER in RV. destruct RV as [Hs _].
  pose proof (i_ok st I s Hs) as OK. unfold sok in OK. rewrite ER in OK. cbn [rtagOf] in OK. rewrite at_eq in OK.
  split; [assumption|]. split.
  - assert (X : forall rel wv, forall x, sokx x rel TSend wv -> negb (closedPeer x) = true) by (intros rel wv; brute_c).
    apply X in OK. apply negb_true_iff in OK. assumption.
  - intros fl a EW. rewrite EW in OK. cbn [wtagOf] in OK. rewrite at_eq in OK.
    assert (X : forall rel a r, forall x, sokx x rel TSend (TAd2 a r) -> false = true) by (intros rel a0 r; brute_c).
    apply X in OK. discriminate.
Qed.

Definition stuck (f : Frame) (s : N) (st : sst) : Prop :=
  SInv st /\ rpc st = RSend f s /\ connDone st = false /\ cancelled (heap st s) = false.

Lemma stuck_step : forall c f s st l st', stuck f s st -> helped l = false -> sstep c st l = Some st' ->
  stuck f s st' /\ inlog st' = inlog st /\ (forall z, z < next st -> got (heap st' z) = got (heap st z)) /\
  next st <= next st' /\ (forall z, next st <= z -> z < next st' -> got (heap st' z) = []).
Proof.
  intros c g z st l st' (I & H1 & H2 & H3) HL E. split.
  - split; [eapply sstep_inv; eassumption|]. destruct (send_nocp st g z I H1) as (Hs & H4 & H5). clear I.
    assert (X : rpc st' = RSend g z /\ connDone st' = false).
    { allcases E; cbn; try congruence; try discriminate HL; auto; unfold ctxDone in *; rewrite ?H2 in *; cbn in *; split; congruence. }
    destruct X as [X1 X2]. split; [assumption|]. split; [assumption|]. clear X1 X2.
    allcases E; try discriminate HL; upd_tac z; auto; try congruence; try lia.
  - clear H2 H3. allcases E; cbn; try congruence; try discriminate HL;
    (split; [reflexivity|split; [intros y Hy; upd_tac y; auto; try lia|split; [lia|intros y Hy1 Hy2; upd_tac y; auto; try lia]]]).
Qed.

(** Once the reader holds a frame of a stream that nobody receives from, nothing but a receive on that very stream or the
    closing of the connection lets it go on: whatever is written, whichever handlers return, no further frame is read and no
    stream is given anything. *)
Theorem C65_one_stream_holds_up_all :
  forall isClient st f s ls st', reachable (sstep isClient) sinit st -> rpc st = RSend f s ->
  connDone st = false -> Forall (fun l => helped l = false) ls -> run (sstep isClient) st ls = Some st' ->
  rpc st' = RSend f s /\ inlog st' = inlog st /\ (forall z, z < next st -> got (heap st' z) = got (heap st z)) /\
  (forall z, next st <= z -> z < next st' -> got (heap st' z) = []).
Proof.
  intros c st f s ls st' R ER HD HL E.
  assert (I := reach_inv c st R).
  assert (S : stuck f s st).
  { split; [assumption|]. split; [assumption|]. split; [assumption|]. destruct (send_nocp st f s I ER) as (Hs & CP & _).
    pose proof (i_ok st I s Hs) as OK. unfold sok in OK. destruct (cancelled (heap st s)) eqn:EC; [|reflexivity]. exfalso.
    assert (X : forall rel rv wv, forall x, sokx x rel rv wv -> implb (cancelled x) (closedPeer x) = true) by (intros rel rv wv; brute_c).
    apply X in OK. rewrite EC, CP in OK. discriminate. }
  clear R ER HD I. revert st S E. induction ls as [|l ls IH]; intros st S E; cbn in E.
  - injection E as <-. destruct S as (_ & S & _). repeat split; auto. intros z H1 H2. lia.
  - destruct (sstep c st l) as [st1|] eqn:E1; [|discriminate].
    destruct (stuck_step c f s st l st1 S (Forall_inv HL) E1) as (S1 & A & B & C & D).
    destruct (IH (Forall_inv_tail HL) st1 S1 E) as (P & Q & U & V). split; [assumption|]. split; [congruence|]. split.
    + intros z Hz. rewrite U by lia. apply B. assumption.
    + intros z Hz1 Hz2. destruct (N.lt_ge_cases z (next st1)); [rewrite U by assumption; apply D; assumption|apply V; assumption].
Qed.
Print Assumptions C65_one_stream_holds_up_all.

(** The handler of a streamed request returns after the first frame; its reset is even on the wire.  The peer, which has not
    seen the reset yet, sends the second frame. *)
Theorem C65_refuted : ~ C65_statement.
Proof.
  intro H.
  destruct (reach_ex false (Rd (fr 3 1) 3 ++ LHEnd 0 :: LWriteRst :: repeat LWStep 3 ++ Rd (fr 3 1) 3)
    (fun st => panicked st = false /\ connDone st = false /\ rpc st = RSend (fr 3 1) 0 /\ inlog st = [fr 3 1; fr 3 1] /\
       hEnded (heap st 0) = true /\ wlog st = [(3, StreamRstFlag, WSent (Some 0))]))
    as (st & R & A & B & C & D & _); [vm_compute; repeat split|].
  destruct (H false st R A B) as (ls & st' & F & E & X).
  - rewrite C. discriminate.
  - intros k a f b Eq _ Dn. exfalso. rewrite D in Eq. destruct a as [|x [|y [|? ?]]]; inversion Eq; subst; discriminate Dn.
  - destruct (C65_one_stream_holds_up_all false st _ _ ls st' R C B F E) as (Y & _). congruence.
Qed.
Print Assumptions C65_refuted.

(** ** What does hold: the first frame of a request, and a reset, are never held up *)
Definition opens (st : sst) (f : Frame) : Prop :=
  match tbl st (IsPush (fFlags f)) (fRequestID f) with
  | Some s => binded (heap st s) = false    (* a response to our own request, its first frame *)
  | None => True                            (* a new stream *)
  end.
Definition free (f : Frame) (st : sst) : Prop :=
  SInv st /\
  match rpc st with
  | RGet g => g = f /\ opens st f
  | RBind _ s => binded (heap st s) = false
  | RAddIn _ _ | RSend _ _ | RWait _ _ => False
  | _ => True
  end.

(** how many more steps of the reader the frame can take *)
Definition left_ (p : rpc_t) : nat :=
  match p with
  | RIdle | RExit => 0 | RRst _ => 4 | RRbp1 _ => 3 | RRbp2 _ => 2 | RRbp3 _ => 1
  | RGet _ => 10 | RBind _ _ => 9 | RCl1 _ _ _ => 8 | RCl2 _ _ => 7 | RCl3 _ _ => 6 | RCl4 _ _ => 5
  | RAd1 _ _ => 4 | RAd2 _ _ => 3 | RAd3 _ _ => 2 | RAd4 _ _ => 1
  | RAddIn _ _ | RSend _ _ | RWait _ _ => 0
  end%nat.

Definition reading (l : slabel) : bool := match l with LFrame _ | LRStep | LDeliver | LCtx | LRExit => true | _ => false end.

Lemma other_rpc : forall c st l st', reading l = false -> sstep c st l = Some st' -> rpc st' = rpc st.
Proof. intros c st l st' HL E. allcases E; try discriminate HL; cbn; congruence. Qed.
Lemma other_bind : forall c st l st' z, reading l = false -> sstep c st l = Some st' ->
  binded (heap st z) = false -> binded (heap st' z) = false.
Proof. intros c st l st' z HL E. allcases E; try discriminate HL; upd_tac z; auto. Qed.
Lemma other_opens : forall c f st l st', SInv st -> reading l = false -> sstep c st l = Some st' -> opens st f -> opens st' f.
Proof.
  intros c f st l st' I HL E H. unfold opens in *. set (p := IsPush (fFlags f)) in *. set (id := fRequestID f) in *.
  destruct (sstep_tbl c st l st' I E) as [(A & _)|[(p0 & id0 & A & B & _ & D)|(s0 & _ & _ & A & _)]].
  - rewrite A. destruct (tbl st p id) as [s|]; [|exact Logic.I]. eapply other_bind; eassumption.
  - rewrite B. unfold tset. destruct (Bool.eqb p p0) eqn:EP.
    + apply Bool.eqb_prop in EP. subst p0. destruct (N.eq_dec id id0) as [->|Hn]; [rewrite upd_eq, D, upd_eq; reflexivity|].
      rewrite upd_neq by assumption. destruct (tbl st p id); [|exact Logic.I]. eapply other_bind; eassumption.
    + destruct (tbl st p id); [|exact Logic.I]. eapply other_bind; eassumption.
  - rewrite A. unfold tset. destruct (Bool.eqb p (spush (heap st s0))) eqn:EP.
    + apply Bool.eqb_prop in EP. rewrite <- EP. destruct (N.eq_dec id (sid (heap st s0))) as [->|Hn]; [rewrite upd_eq; exact Logic.I|].
      rewrite upd_neq by assumption. destruct (tbl st p id); [|exact Logic.I]. eapply other_bind; eassumption.
    + destruct (tbl st p id); [|exact Logic.I]. eapply other_bind; eassumption.
Qed.

Lemma free_step : forall c f st l st', free f st -> (forall g, l <> LFrame g) -> sstep c st l = Some st' ->
  free f st' /\ (panicked st' = true \/ left_ (rpc st') + (match l with LRStep => 1 | _ => 0 end) <= left_ (rpc st))%nat.
Proof.
  intros c g st l st' [I H] HL E. destruct (reading l) eqn:RL.
  - split; [split; [eapply sstep_inv; eassumption|]|]; clear I; unfold opens in *;
    allcases E; try discriminate RL; try (exfalso; eapply HL; reflexivity); cbn; try exact Logic.I; try contradiction; try congruence; auto; try (right; lia).
    all: try (match goal with X : rpc _ = _ |- _ => rewrite X in *; cbn; auto end).
    all: try (match goal with X : ?a = ?b /\ match _ with _ => _ end |- _ => let X0 := fresh in destruct X as [X0 X]; subst a end).
    all: try (match goal with X : tbl _ _ _ = _ |- _ => rewrite X in * end; rewrite ?upd_eq; auto).
    all: try (right; lia).
    all: try (unfold rend; cbn; right; lia).
  - pose proof (other_rpc _ _ _ _ RL E) as ER. split.
    + split; [eapply sstep_inv; eassumption|]. rewrite ER. destruct (rpc st); auto.
      * destruct H as [H1 H2]. split; [assumption|]. eapply other_opens; eassumption.
      * eapply other_bind; eassumption.
    + right. rewrite ER. destruct l; try discriminate RL; lia.
Qed.

(** all streams of the frame's id that were given a frame are closed: [Done()] fired (stream.go:114-118) *)
Definition fresh_id (st : sst) (f : Frame) : Prop :=
  forall s, s < next st -> spush (heap st s) = IsPush (fFlags f) -> sid (heap st s) = fRequestID f ->
  got (heap st s) <> [] -> fullCh (heap st s) = true.

Lemma fresh_opens : forall c st f, reachable (sstep c) sinit st -> fresh_id st f -> opens st f.
Proof.
  intros c st f R H. destruct (reach_pq c st R) as (I & P & _). unfold opens.
  destruct (tbl st (IsPush (fFlags f)) (fRequestID f)) as [s|] eqn:ET; [|exact Logic.I].
  destruct (i_t1 st I _ _ _ ET) as (Hs & K & N0). injection K as K1 K2. specialize (H s Hs K1 K2).
  destruct (binded (heap st s)) eqn:EB; [|reflexivity]. exfalso.
  assert (G : got (heap st s) <> []) by (intro G; apply (p_got st P s Hs) in G; congruence). specialize (H G).
  pose proof (i_ok st I s Hs) as OK. unfold sok in OK.
  assert (X : forall rel rv wv, forall x, sokx x rel rv wv -> implb (fullCh x) (negb (Nat.eqb (notified x) 0)) = true) by (intros rel rv wv; brute_c).
  apply X in OK. rewrite H, N0 in OK. discriminate.
Qed.

(** The first frame of a request or a response (a first frame goes to [Handle] or to the caller's response, nobody has to
    receive it) and a reset: whatever else happens meanwhile, and whatever the handlers of other streams do or do not do, the
    reader is done with it after at most ten steps of its own, none of which has to wait for anybody. *)
Theorem C65_first_frames_and_resets_partial :
  forall isClient st f ls st', reachable (sstep isClient) sinit st -> rpc st = RIdle ->
  IsRst (fFlags f) = true \/ fresh_id st f ->
  (forall g, ~ In (LFrame g) ls) -> run (sstep isClient) st (LFrame f :: ls) = Some st' ->
  panicked st' = true \/
  ((length (filter (fun l => match l with LRStep => true | _ => false end) ls) <= 10)%nat /\
   (rpc st' = RIdle \/ rpc st' = RExit \/ exists st'', sstep isClient st' LRStep = Some st'')).
Proof.
  intros c st f ls st' R ER HF HL E. cbn in E. destruct (sstep c st (LFrame f)) as [st1|] eqn:E1; [|discriminate].
  assert (F : free f st1 /\ (left_ (rpc st1) <= 10)%nat).
  { assert (I := reach_inv c st R). split; [split; [eapply sstep_inv; eassumption|]|];
    unfold sstep in E1; destruct (panicked st); [discriminate| |discriminate|]; rewrite ER in E1; injection E1 as <-; cbn;
    destruct (IsRst (fFlags f)) eqn:EF; auto; try (cbn; lia).
    split; [reflexivity|]. destruct HF as [HF|HF]; [discriminate|]. exact (fresh_opens c st f R HF).
}
  destruct F as [F HB]. clear R ER HF E1. 
  assert (G : forall ls st1, free f st1 -> (forall g, ~ In (LFrame g) ls) -> run (sstep c) st1 ls = Some st' ->
     panicked st' = true \/
     (left_ (rpc st') + length (filter (fun l => match l with LRStep => true | _ => false end) ls) <= left_ (rpc st1))%nat /\ free f st').
  { clear. induction ls as [|l ls IH]; intros st F HL E; cbn in E.
    - injection E as <-. right. split; [cbn; lia|assumption].
    - destruct (sstep c st l) as [st1|] eqn:E1; [|discriminate].
      destruct (free_step c f st l st1 F (fun g X => HL g (or_introl X)) E1) as [F1 [P|D]].
      + left. destruct ls as [|l' ls]; cbn in E; [injection E as <-; assumption|]. unfold sstep in E at 1. rewrite P in E. discriminate.
      + destruct (IH st1 F1 (fun g X => HL g (or_intror X)) E) as [P|[D1 F2]]; [left; assumption|]. right. split; [|assumption].
        destruct l; cbn in *; lia. }
  destruct (G ls st1 F HL E) as [P|[D F2]]; [left; assumption|].
  destruct (panicked st') eqn:EP; [left; reflexivity|right]. split; [lia|].
  destruct (rpc st') eqn:ER; auto; right; right; destruct F2 as [_ F2]; rewrite ER in F2; try contradiction;
  unfold sstep; rewrite EP; unfold rstep; rewrite ER;
  repeat match goal with |- context [match ?x with _ => _ end] =>
    match x with context [match _ with _ => _ end] => fail 1 | _ => destruct x end end; eexists; reflexivity.
Qed.
Print Assumptions C65_first_frames_and_resets_partial.

(** A later frame of a stream waits for one receive, on that stream, and for nothing else (peers that send nothing on a stream
    they ended or reset). *)
Theorem C65_later_frames_partial :
  forall isClient st, reachable (sstep isClient) sinit st -> panicked st = false ->
  (forall k, conforming k (inlog st)) -> (forall f s, rpc st <> RWait f s) ->
  exists ls st', Forall (fun l => l = LRStep \/ l = LDeliver) ls /\
    (length (filter (fun l => match l with LDeliver => true | _ => false end) ls) <= 1)%nat /\
    run (sstep isClient) st ls = Some st' /\ (rpc st' = RIdle \/ rpc st' = RExit).
Proof.
  intros c. assert (G : forall m st, rmeas (rpc st) = m -> reachable (sstep c) sinit st -> panicked st = false ->
    (forall k, conforming k (inlog st)) -> (forall f s, rpc st <> RWait f s) ->
    exists ls st', Forall (fun l => l = LRStep \/ l = LDeliver) ls /\
      (length (filter (fun l => match l with LDeliver => true | _ => false end) ls) <= if Nat.ltb m 13 then 0 else 1)%nat /\
      run (sstep c) st ls = Some st' /\ (rpc st' = RIdle \/ rpc st' = RExit)).
  { induction m as [m IH] using (well_founded_induction lt_wf). intros st Em R HP HC HW.
    destruct (reader_moves c st R HP HC HW) as [X|[X|(l & st1 & L & E & D & HL & HP1 & HW1)]].
    - exists [], st. cbn. repeat split; auto. lia.
    - exists [], st. cbn. repeat split; auto. lia.
    - destruct (IH (rmeas (rpc st1)) ltac:(lia) st1 eq_refl) as (ls & st' & A & B & C & X); auto.
      + eapply reachable_step; eassumption.
      + intro k. rewrite HL. apply HC.
      + exists (l :: ls), st'. split; [constructor; [destruct L as [->|[-> _]]; auto|assumption]|].
        split; [|split; [cbn; rewrite E; assumption|assumption]]. destruct L as [->|(-> & f & s & ES)].
        * cbn [filter]. destruct (Nat.ltb_spec (rmeas (rpc st1)) 13), (Nat.ltb_spec m 13); lia.
        * cbn [filter length]. rewrite ES in *. cbn in Em, D. subst m.
          destruct (Nat.ltb_spec (rmeas (rpc st1)) 13); [|lia]. cbn. lia. }
  intros st R HP HC HW. destruct (G _ st eq_refl R HP HC HW) as (ls & st' & A & B & C & D). exists ls, st'. repeat split; auto.
  destruct (Nat.ltb _ _); lia.
Qed.
Print Assumptions C65_later_frames_partial.

(** the hypotheses can be met: a stream's second frame is pending, nobody receives it, meanwhile a response is written;
    a request with a new id is read while another one is being streamed *)
Example C65_stuck_case : exists st, reachable (sstep false) sinit st /\
  (rpc st = RSend (fr 3 1) 0 /\ connDone st = false /\
   match run (sstep false) st (W 5 0 4) with Some st' => wlog st' = [(5, 0, WSent (Some 1))] /\ rpc st' = RSend (fr 3 1) 0 | None => False end).
Proof.
  apply (reach_ex false (Rd (fr 3 1) 3 ++ Rd (fr 3 1) 3) (fun st => rpc st = RSend (fr 3 1) 0 /\ connDone st = false /\
   match run (sstep false) st (W 5 0 4) with Some st' => wlog st' = [(5, 0, WSent (Some 1))] /\ rpc st' = RSend (fr 3 1) 0 | None => False end)).
  vm_compute. repeat split.
Qed.
Example C65_fresh_case : exists st, reachable (sstep false) sinit st /\ rpc st = RIdle /\ next st = 1 /\ fresh_id st (fr 5 0) /\
  match run (sstep false) st (Rd (fr 5 0) 6) with Some st' => rpc st' = RIdle /\ got (heap st' 1) = [fr 5 0] | None => False end.
Proof.
  destruct (reach_ex false (Rd (fr 3 1) 3) (fun st => rpc st = RIdle /\ next st = 1 /\ sid (heap st 0) = 3 /\
    match run (sstep false) st (Rd (fr 5 0) 6) with Some st' => rpc st' = RIdle /\ got (heap st' 1) = [fr 5 0] | None => False end))
    as (st & R & A & B & C & D); [vm_compute; repeat split|].
  exists st. repeat split; auto; try apply D. intros s Hs _ K. replace s with 0 in K by lia. rewrite C in K. discriminate K.
Qed.
