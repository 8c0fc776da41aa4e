(** C57: how often the API sends a request (writes it to a connection). *)
From Verif Require Import Model.GoBase Model.ApiCall.
Open Scope N_scope.

(** how often a request is sent to endpoint i *)
Definition times (i : N) (ds : list N) : nat := count_occ N.eq_dec ds i.

(** The full claim: a request handed to Call, CallOne or CallAll is sent at most once (to each endpoint). *)
Definition C57_statement : Prop :=
  (forall i v a, (length (fst (apiCall i v a)) <= 1)%nat) /\ (forall io v, (length (fst (apiCallOne io v)) <= 1)%nat) /\
  (forall n v i, (times i (apiCallAll n v) <= 1)%nat).

(** False: Call sends the request again when the wait for its response fails, even if that is because the context has expired;
    and also CallOne may send it twice when Request fails with the frame already on the wire. *)
Theorem C57_call_sends_twice : forall i e v a f,
  hasConn v = true -> req1 v = Wrote (WaitErr e) -> picked a = Some i -> req3 a = Wrote f ->
  fst (apiCall i v a) = [i; i].
Proof. intros i e v a f H1 H2 H3 H4. unfold apiCall, callViaIdx, callViaActiveConns. rewrite H1, H2, H3, H4. reflexivity. Qed.
Print Assumptions C57_call_sends_twice.

Theorem C57_callone_sends_twice : forall i e v f,
  hasConn v = true -> req1 v = Failed true e -> found (wo1 v) = true -> req2 (wo1 v) = Wrote f -> fst (apiCallOne (Some i) v) = [i; i].
Proof. intros i e v f H1 H2 H3 H4. unfold apiCallOne, callViaIdx, callWithoutConn. rewrite H1, H2, H3, H4. reflexivity. Qed.
Print Assumptions C57_callone_sends_twice.

Theorem C57_refuted : ~ C57_statement.
Proof.
  intros (A & _).
  specialize (A 3 (mkVia true (Wrote (WaitErr 1)) (mkWo false None (Failed false 0))) (mkAct (Some 3) (Wrote (WaitErr 1)) (mkWo false None (Failed false 0)))).
  cbn in A. lia.
Qed.
Print Assumptions C57_refuted.

Lemma del_len : forall i r, (length (sent i r) <= 1)%nat.
Proof. intros i [w|[] e]; cbn; lia. Qed.
Lemma wo_len : forall i w, (length (fst (callWithoutConn i w)) <= 1)%nat.
Proof. intros i [f [d|] r]; unfold callWithoutConn; cbn; [destruct f; cbn; [apply del_len|lia]|destruct f; apply del_len]. Qed.
Lemma via_len : forall i v, (length (fst (callViaIdx i v)) <= 2)%nat.
Proof.
  intros i v. unfold callViaIdx. pose proof (wo_len i (wo1 v)). destruct (hasConn v); [|lia]. destruct (req1 v) as [x|w e]; [cbn; lia|].
  destruct (callWithoutConn i (wo1 v)) as [d r]. cbn [fst] in *. rewrite app_length. pose proof (del_len i (Failed w e)). lia.
Qed.
Lemma act_len : forall a, (length (fst (callViaActiveConns a)) <= 2)%nat.
Proof.
  intros a. unfold callViaActiveConns. destruct (picked a) as [i|]; [|cbn; lia]. destruct (req3 a) as [x|w e]; [cbn; lia|].
  pose proof (wo_len i (wo3 a)). destruct (callWithoutConn i (wo3 a)) as [d r]. cbn [fst] in *. rewrite app_length. pose proof (del_len i (Failed w e)). lia.
Qed.
Lemma del_in : forall i j r, In j (sent i r) -> j = i.
Proof. intros i j [w|[] e] H; cbn in H; intuition. Qed.
Lemma wo_in : forall i j w, In j (fst (callWithoutConn i w)) -> j = i.
Proof. intros i j [f [d|] r]; unfold callWithoutConn; cbn; destruct f; cbn; try contradiction; apply del_in. Qed.
Lemma via_in : forall i j v, In j (fst (callViaIdx i v)) -> j = i.
Proof.
  intros i j v. unfold callViaIdx. pose proof (wo_in i j (wo1 v)) as W. destruct (hasConn v); [|assumption]. destruct (req1 v) as [x|w e]; [cbn; intuition|].
  destruct (callWithoutConn i (wo1 v)) as [d r]. cbn [fst] in *. rewrite in_app_iff. intros [A|A]; [exact (del_in _ _ _ A)|auto].
Qed.

Lemma call_in : forall i v a j, In j (fst (apiCall i v a)) -> j = i \/ picked a = Some j.
Proof.
  intros i v a j. unfold apiCall. pose proof (via_in i j v) as V.
  assert (A : In j (fst (callViaActiveConns a)) -> picked a = Some j).
  { unfold callViaActiveConns. destruct (picked a) as [k|]; [|intros []]. pose proof (via_in k j (mkVia true (req3 a) (wo3 a))) as X. unfold callViaIdx in X. cbn [hasConn req1 wo1] in X.
    intros H. f_equal. symmetry. exact (X H). }
  destruct (callViaIdx i v) as [d [f|e]]; cbn [fst] in *; [auto|]. destruct (callViaActiveConns a) as [d' r']. cbn [fst] in *. rewrite in_app_iff. intuition.
Qed.

(** What is true.  CallOne: at most twice, and to that endpoint only; nothing for an unknown endpoint.  Call: at most four times
    (at most two endpoints).  CallAll: at most twice for each endpoint, and to the endpoints only.
    Missing: at most once. *)
Theorem C57_bounds_partial :
  (forall i v a, (length (fst (apiCall i v a)) <= 4)%nat /\ forall j, In j (fst (apiCall i v a)) -> j = i \/ picked a = Some j) /\
  (forall i v, (length (fst (apiCallOne (Some i) v)) <= 2)%nat /\ forall j, In j (fst (apiCallOne (Some i) v)) -> j = i) /\
  (forall v, fst (apiCallOne None v) = []) /\
  (forall n v i, (times i (apiCallAll n v) <= 2)%nat /\ (In i (apiCallAll n v) -> i < N.of_nat n)).
Proof.
  split; [|split; [|split]].
  - intros i v a. split; [|apply call_in]. unfold apiCall. pose proof (via_len i v) as A. pose proof (act_len a) as B. destruct (callViaIdx i v) as [d [f|e]]; cbn [fst] in *; [lia|].
    destruct (callViaActiveConns a) as [d' r]. cbn [fst] in *. rewrite app_length. lia.
  - intros i v. unfold apiCallOne. pose proof (via_len i v) as A. pose proof (fun j => via_in i j v) as B. destruct (callViaIdx i v) as [d r]. auto.
  - reflexivity.
  - intros n v i. unfold apiCallAll, times. split.
    + assert (Z : forall l k, (forall x, In x l -> x <> k) -> count_occ N.eq_dec (flat_map (fun i => fst (callViaIdx (N.of_nat i) (v (N.of_nat i)))) l) (N.of_nat k) = 0%nat).
      { induction l as [|x l IH]; intros k K; [reflexivity|]. cbn. rewrite count_occ_app, IH by (intros y Y; apply K; right; assumption).
        rewrite (proj1 (count_occ_not_In N.eq_dec _ _)); [reflexivity|]. intros C. apply via_in in C. apply (K x (or_introl eq_refl)). lia. }
      replace i with (N.of_nat (N.to_nat i)) by lia. generalize (N.to_nat i) as k. intros k.
      assert (G : forall l, NoDup l -> (count_occ N.eq_dec (flat_map (fun i => fst (callViaIdx (N.of_nat i) (v (N.of_nat i)))) l) (N.of_nat k) <= 2)%nat).
      { induction l as [|x l IH]; intros ND; [cbn; lia|]. inversion ND; subst. cbn. rewrite count_occ_app. destruct (Nat.eq_dec x k) as [->|NE].
        - rewrite Z by (intros y Y ->; contradiction). pose proof (via_len (N.of_nat k) (v (N.of_nat k))). 
          pose proof (count_occ_bound N.eq_dec (N.of_nat k) (fst (callViaIdx (N.of_nat k) (v (N.of_nat k))))). lia.
        - rewrite (proj1 (count_occ_not_In N.eq_dec _ _)); [cbn; auto|]. intros C. apply via_in in C. lia. }
      apply G, seq_NoDup.
    + intros H. apply in_flat_map in H as (x & H1 & H2). apply via_in in H2. apply in_seq in H1. lia.
Qed.
Print Assumptions C57_bounds_partial.

(** If a Request that returns an error has not put the frame on the wire, CallOne sends at most once, CallAll at most once
    to each endpoint, and Call at most twice; twice only if the first wait failed. *)
Definition clean (r : reqOut) : Prop := forall e, r <> Failed true e.
Theorem C57_once_partial : forall i v, clean (req1 v) -> clean (req2 (wo1 v)) ->
  (length (fst (apiCallOne (Some i) v)) <= 1)%nat /\
  forall a, clean (req3 a) -> clean (req2 (wo3 a)) ->
    (length (fst (apiCall i v a)) <= 2)%nat /\
    (length (fst (apiCall i v a)) = 2%nat -> exists e, callViaIdx i v = ([i], inr e)).
Proof.
  assert (D : forall i r, clean r -> match r with Wrote _ => sent i r = [i] | Failed _ _ => sent i r = [] end).
  { intros i [w|[] e] C; cbn; try reflexivity. contradiction (C e). reflexivity. }
  assert (V : forall i v, clean (req1 v) -> clean (req2 (wo1 v)) -> fst (callViaIdx i v) = [] \/ fst (callViaIdx i v) = [i]).
  { intros i v C1 C2. pose proof (D i _ C1) as D1. pose proof (D i _ C2) as D2. unfold callViaIdx, callWithoutConn.
    destruct (hasConn v); destruct (req1 v); destruct (found (wo1 v)); destruct (dialErr (wo1 v)); destruct (req2 (wo1 v)); cbn [fst] in *; rewrite ?D1, ?D2; auto. }
  intros i v C1 C2. pose proof (V i v C1 C2) as V1. split.
  - unfold apiCallOne. destruct (callViaIdx i v) as [d r]. cbn [fst] in *. destruct V1 as [->| ->]; cbn; lia.
  - intros a C3 C4.
    assert (W : (length (fst (callViaActiveConns a)) <= 1)%nat).
    { unfold callViaActiveConns. destruct (picked a) as [j|]; [|cbn; lia]. pose proof (V j (mkVia true (req3 a) (wo3 a)) C3 C4) as X. unfold callViaIdx in X. cbn [hasConn req1 wo1] in X.
      destruct (req3 a); [cbn; lia|]. destruct (callWithoutConn j (wo3 a)). cbn [fst] in *. destruct X as [->| ->]; cbn; lia. }
    unfold apiCall. destruct (callViaIdx i v) as [d [f|e]]; cbn [fst] in *.
    + destruct V1 as [->| ->]; cbn; split; try lia; discriminate.
    + destruct (callViaActiveConns a) as [d' r']. cbn [fst] in *. rewrite app_length. split; [destruct V1 as [->| ->]; cbn; lia|].
      intros L. destruct V1 as [->| ->]; cbn in L; [lia|]. exists e. reflexivity.
Qed.
Print Assumptions C57_once_partial.

Theorem C57_callall_once_partial : forall n v, (forall i, clean (req1 (v i)) /\ clean (req2 (wo1 (v i)))) -> NoDup (apiCallAll n v).
Proof.
  intros n v C. unfold apiCallAll.
  assert (L : forall i, fst (callViaIdx i (v i)) = [] \/ fst (callViaIdx i (v i)) = [i]).
  { intros i. destruct (C i) as [C1 C2]. destruct (C57_once_partial i (v i) C1 C2) as [X _]. unfold apiCallOne in X. pose proof (fun j => via_in i j (v i)) as V.
    destruct (callViaIdx i (v i)) as [[|x [|y d]] r]; cbn [fst length] in *; [auto| |lia]. right. rewrite (V x (or_introl eq_refl)). reflexivity. }
  generalize (seq_NoDup n 0). induction (seq 0 n) as [|x l IH]; intros ND; [constructor|]. inversion ND as [|? ? N1 N2]; subst. cbn.
  destruct (L (N.of_nat x)) as [->| ->]; [apply IH; assumption|]. cbn. constructor; [|apply IH; assumption].
  intros H. apply in_flat_map in H as (y & H1 & H2). apply via_in in H2. assert (x = y) by lia. subst. contradiction.
Qed.
Print Assumptions C57_callall_once_partial.

(** A frame that is returned is the response to a request that was sent. *)
Theorem C57_frame_was_requested : forall i v a f, snd (apiCall i v a) = inl f -> fst (apiCall i v a) <> [].
Proof.
  intros i v a f. 
  assert (W : forall i w, match callWithoutConn i w with (d, inl _) => d <> [] | _ => True end).
  { intros j [fo [e|] [x|o y]]; unfold callWithoutConn; cbn; destruct fo; try destruct x; cbn; try exact Logic.I; discriminate. }
  assert (V : match callViaIdx i v with (d, inl _) => d <> [] | _ => True end).
  { unfold callViaIdx. destruct (hasConn v); [|apply W]. destruct (req1 v) as [x|o e]; [destruct x; cbn; [discriminate|exact Logic.I]|].
    pose proof (W i (wo1 v)) as X. destruct (callWithoutConn i (wo1 v)) as [d [g|g]]; [|exact Logic.I]. destruct o; cbn; [discriminate|assumption]. }
  assert (A : match callViaActiveConns a with (d, inl _) => d <> [] | _ => True end).
  { unfold callViaActiveConns. destruct (picked a) as [j|]; [|exact Logic.I]. destruct (req3 a) as [x|o e]; [destruct x; cbn; [discriminate|exact Logic.I]|].
    pose proof (W j (wo3 a)) as X. destruct (callWithoutConn j (wo3 a)) as [d [g|g]]; [|exact Logic.I]. destruct o; cbn; [discriminate|assumption]. }
  unfold apiCall. destruct (callViaIdx i v) as [d [g|g]]; cbn; [auto|]. destruct (callViaActiveConns a) as [d' [h|h]]; cbn; [|discriminate].
  intros _ B. apply app_eq_nil in B as [_ B]. contradiction.
Qed.
Print Assumptions C57_frame_was_requested.

(** Cases: the second sending of Call gives the response; a dead connection is replaced and the request sent once. *)
Example C57_case_twice : apiCall 1 (mkVia true (Wrote (WaitErr 7)) (mkWo false None (Failed false 0))) (mkAct (Some 1) (Wrote (GotFrame 5)) (mkWo false None (Failed false 0))) = ([1; 1], inl 5).
Proof. reflexivity. Qed.
Example C57_case_redial : let v := mkVia true (Failed false 9) (mkWo false None (Wrote (GotFrame 5))) in
  clean (req1 v) /\ clean (req2 (wo1 v)) /\ apiCallOne (Some 2) v = ([2], Some (inl 5)).
Proof. cbn. repeat split; intros e H; discriminate. Qed.
