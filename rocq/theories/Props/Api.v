(** C36-C38: the API helper. *)
From Coq Require Import ZifyBool ZifyNat ZifyN Permutation.
From Verif Require Import Model.GoBase Model.Machine Model.Api Proofs.ApiP.
Open Scope nat_scope.

(** ** C36 *)
Definition zsum (ws : list Z) : Z := fold_right Z.add 0%Z ws.
(** all values rand.Intn(total) can return, each equally likely *)
Definition draws (total : Z) : list Z := map Z.of_nat (seq 0 (Z.to_nat total)).

Lemma fold_left_zsum : forall ws a, fold_left Z.add ws a = (a + zsum ws)%Z.
Proof. induction ws as [|w ws IH]; intro a; cbn; [lia|]. rewrite IH. unfold zsum. lia. Qed.

Definition zrange (lo : Z) (n : nat) : list Z := map (fun k => (lo + Z.of_nat k)%Z) (seq 0 n).
Lemma zrange_app : forall a b lo, zrange lo (a + b) = zrange lo a ++ zrange (lo + Z.of_nat a) b.
Proof.
  intros a b lo. unfold zrange. rewrite seq_app, map_app. f_equal. cbn [Nat.add].
  replace (seq a b) with (map (fun k => a + k) (seq 0 b)).
  - rewrite map_map. apply map_ext. intro k. lia.
  - clear.
    assert (G : forall n z, map (fun k => a + k) (seq z n) = seq (a + z) n).
    { induction n as [|n IH]; intro y; [reflexivity|]. cbn. f_equal. rewrite IH. f_equal. lia. }
    assert (G0 := G b 0). rewrite Nat.add_0_r in G0. exact G0.
Qed.

Lemma getIdxLoop_range : forall ws idx lo, Forall (fun w => (0 <= w)%Z) ws ->
  map (getIdxLoop ws idx lo) (zrange lo (Z.to_nat (zsum ws))) =
  concat (map (fun '(k, w) => repeat (idx + k) (Z.to_nat w)) (combine (seq 0 (length ws)) ws)).
Proof.
  induction ws as [|w ws IH]; intros idx lo HF; [reflexivity|].
  inversion HF as [|? ? Hw HF']; subst.
  assert (Hs : (0 <= zsum ws)%Z).
  { clear - HF'. induction HF'; cbn; [lia|]. fold (zsum l). lia. }
  change (zsum (w :: ws)) with (w + zsum ws)%Z. rewrite Z2Nat.inj_add by assumption.
  rewrite zrange_app, map_app. rewrite Z2Nat.id by assumption.
  cbn [length seq combine map concat]. f_equal.
  - rewrite Nat.add_0_r. unfold zrange. rewrite map_map.
    assert (G : forall n z, z + n <= Z.to_nat w ->
      map (fun k => getIdxLoop (w :: ws) idx lo (lo + Z.of_nat k)) (seq z n) = repeat idx n).
    { induction n as [|n IHn]; intros z Hz; [reflexivity|]. cbn [seq map repeat]. f_equal.
      - cbn [getIdxLoop]. destruct (Z.ltb_spec (lo + Z.of_nat z) (lo + w)); [reflexivity|lia].
      - apply IHn. lia. }
    apply G. lia.
  - transitivity (map (getIdxLoop ws (S idx) (lo + w)) (zrange (lo + w) (Z.to_nat (zsum ws)))).
    + apply map_ext_in. intros x Hx. cbn [getIdxLoop]. unfold zrange in Hx. apply in_map_iff in Hx.
      destruct Hx as (k & <- & _). destruct (Z.ltb_spec (lo + w + Z.of_nat k) (lo + w)); [lia|reflexivity].
    + rewrite IH by assumption. rewrite <- seq_shift.
      assert (G : forall l1 (l2 : list Z),
        map (fun '(k, w0) => repeat (S idx + k) (Z.to_nat w0)) (combine l1 l2) =
        map (fun '(k, w0) => repeat (idx + k) (Z.to_nat w0)) (combine (map S l1) l2)).
      { induction l1 as [|a l1 IH1]; intros [|b l2]; cbn; try reflexivity. f_equal; [f_equal; lia|apply IH1]. }
      rewrite G. reflexivity.
Qed.

(** Over the equally likely draws, endpoint i is picked exactly weights[i] times. *)
Theorem C36_weighted_choice_exact :
  forall (nEndpoints : nat) (weights : option (list Z)),
  let '(ws, total) := newWeights nEndpoints weights in
  Forall (fun w => (0 <= w)%Z) ws -> (0 < zsum ws)%Z ->
  total = zsum ws /\
  forall i, length (filter (fun r => match getIdx ws total r with Some j => Nat.eqb j i | None => false end) (draws total))
            = Z.to_nat (nth i ws 0%Z).
Proof.
  intros n weights. destruct (newWeights n weights) as [ws total] eqn:E. intros HF Hpos.
  assert (Ht : total = zsum ws).
  { destruct weights as [w|]; cbn in E; inversion E; subst.
    - rewrite fold_left_zsum. lia.
    - clear. induction n as [|n IH]; [reflexivity|]. cbn [repeat]. change (zsum (1%Z :: repeat 1%Z n)) with (1 + zsum (repeat 1%Z n))%Z. lia. }
  split; [assumption|]. rewrite Ht. intro i.
  transitivity (count_occ Nat.eq_dec (map (getIdxLoop ws 0 0) (draws (zsum ws))) i).
  - unfold getIdx. destruct (Z.leb_spec (zsum ws) 0); [lia|].
    induction (draws (zsum ws)) as [|r rs IH]; [reflexivity|]. cbn [filter map count_occ].
    destruct (Nat.eq_dec (getIdxLoop ws 0 0 r) i) as [E1|E1].
    + rewrite E1, Nat.eqb_refl. cbn [length]. f_equal. exact IH.
    + apply Nat.eqb_neq in E1. rewrite E1. exact IH.
  - replace (draws (zsum ws)) with (zrange 0 (Z.to_nat (zsum ws))) by reflexivity.
    rewrite getIdxLoop_range by assumption.
    assert (G : forall (l : list Z) a, count_occ Nat.eq_dec
       (concat (map (fun '(k, w) => repeat (0 + k) (Z.to_nat w)) (combine (seq a (length l)) l))) i =
       if Nat.ltb i a then 0 else Z.to_nat (nth (i - a) l 0%Z)).
    { induction l as [|w l IH]; intro a; cbn [length seq combine map concat].
      - destruct (Nat.ltb i a); [reflexivity|]. destruct (i - a); reflexivity.
      - rewrite count_occ_app, IH. cbn [Nat.add].
        assert (R : count_occ Nat.eq_dec (repeat a (Z.to_nat w)) i = if Nat.eqb a i then Z.to_nat w else 0).
        { induction (Z.to_nat w) as [|m IHm]; cbn; [destruct (Nat.eqb a i); reflexivity|].
          destruct (Nat.eq_dec a i) as [->|Hne].
          - rewrite Nat.eqb_refl in *. lia.
          - apply Nat.eqb_neq in Hne. rewrite Hne in *. exact IHm. }
        rewrite R. clear R. destruct (Nat.ltb_spec i a).
        + destruct (Nat.eqb_spec a i); [lia|]. destruct (Nat.ltb_spec i (S a)); [reflexivity|lia].
        + destruct (Nat.eqb_spec a i) as [Ea|].
          * subst a. destruct (Nat.ltb_spec i (S i)); [|lia]. rewrite Nat.sub_diag. cbn. lia.
          * destruct (Nat.ltb_spec i (S a)); [lia|]. replace (i - a) with (S (i - S a)) by lia. reflexivity. }
    rewrite G. rewrite Nat.sub_0_r. reflexivity.
Qed.
Print Assumptions C36_weighted_choice_exact.

Example C36_example :
  map (getIdx [2;0;3]%Z 5%Z) (draws 5) = map Some [0;0;2;2;2] /\
  newWeights 3 None = ([1;1;1]%Z, 3%Z) /\ getIdx [0;0]%Z 0%Z 0%Z = None.
Proof. repeat split. Qed.

(** ** C37 *)

(** No reachable state has a goroutine at the "bug when safeStoreConnLocked" panic. *)
Theorem C37_no_bookkeeping_panic :
  forall dialed s, reachable astep (newAPI dialed) s -> forall t, pcs s t <> APanicked.
Proof.
  intros dialed s HR t E.
  pose proof (reachable_inv astep AInv _ (newAPI_inv dialed) astep_inv s HR) as I.
  pose proof (i_pc s I t) as X. rewrite E in X. exact X.
Qed.
Print Assumptions C37_no_bookkeeping_panic.

(** At most one open connection per endpoint slot. *)
Theorem C37_one_open_per_slot :
  forall dialed s, reachable astep (newAPI dialed) s ->
  forall c c', (c < next s)%N -> (c' < next s)%N -> cidx s c = cidx s c' ->
    cclosed s c = false -> cclosed s c' = false -> c = c'.
Proof.
  intros dialed s HR c c' Hc Hc' Hi Ho Ho'.
  pose proof (reachable_inv astep AInv _ (newAPI_inv dialed) astep_inv s HR) as I.
  destruct (i_acc s I c Hc) as [X|[_ X]]; [congruence|].
  destruct (i_acc s I c' Hc') as [Y|[_ Y]]; [congruence|].
  destruct X as [X|(t & i & X)], Y as [Y|(t' & i' & Y)].
  - congruence.
  - pose proof (i_pc s I t') as P. rewrite Y in P. destruct P as (P1 & _ & P3 & _). congruence.
  - pose proof (i_pc s I t) as P. rewrite X in P. destruct P as (P1 & _ & P3 & _). congruence.
  - assert (t = t') by (eapply holder_unique; [eassumption|rewrite X; reflexivity|rewrite Y; reflexivity]).
    subst. congruence.
Qed.
Print Assumptions C37_one_open_per_slot.

(** Once Close has returned nil, every connection ever created is closed and stays so, and no further
    connection is ever created. *)
Theorem C37_close_closes_everything :
  forall dialed s ls s', reachable astep (newAPI dialed) s -> closeRet s = true -> run astep s ls = Some s' ->
  next s' = next s /\ closeRet s' = true /\ forall c, (c < next s')%N -> cclosed s' c = true.
Proof.
  intros dialed s ls s' HR Hret Hrun.
  pose proof (reachable_inv astep AInv _ (newAPI_inv dialed) astep_inv s HR) as I. clear HR.
  revert s I Hret Hrun. induction ls as [|l ls IH]; intros s I Hret Hrun; cbn in Hrun.
  - inversion Hrun; subst. repeat split; [assumption|]. apply (i_ret s' I Hret).
  - destruct (astep s l) as [s1|] eqn:E; [|discriminate].
    pose proof (astep_inv s l s1 I E) as I1.
    assert (HX : next s1 = next s /\ closeRet s1 = true).
    { clear IH Hrun I1. pose proof (i_pc s I) as P.
      destruct l as [t i|t|t|t|t ok|t ok|t c|t|t c|t|c]; cbn [astep] in E;
        try (specialize (P t); destruct (pcs s t) eqn:EP; try discriminate; cbn [pcok] in P);
        repeat match type of E with
          | context [match ?x with _ => _ end] => destruct x eqn:?; try discriminate
          end;
        inversion E; subst; cbn; auto; destruct P; congruence. }
    destruct HX as [HX1 HX2]. destruct (IH s1 I1 HX2 Hrun) as (A & B & C). repeat split; [congruence|assumption|assumption].
Qed.
Print Assumptions C37_close_closes_everything.

(** two endpoints, one reachable; goroutine 1 dials the other one while goroutine 2 closes the API *)
Example C37_example :
  match run astep (newAPI [true; false])
    [ACallIdx 1 1; AStep 1; AStep 1; AStep 1; AStep 1; ACallClose 2; AStep 2; ADialRes 1 true; AStep 1; AStep 1;
     AStep 1; AStep 2; ACloseOne 2 0; ACloseOne 2 1; ACloseDone 2; AReqRes 1 false; AStep 1; AStep 1; AStep 1; AStep 1]%N with
  | Some s => closeRet s = true /\ next s = 2%N /\ cclosed s 0%N = true /\ cclosed s 1%N = true /\ pcs s 1%N = AIdle
  | None => False
  end.
Proof. vm_compute. repeat split. Qed.

(** ** C38 *)
Section C38.
  Context {E R : Type} (eqE : E -> E -> bool) (eqE_spec : forall a b, eqE a b = true <-> a = b).

  Lemma mget_mput : forall V (m : list (E * V)) k v k', mget eqE (mput eqE m k v) k' = if eqE k' k then Some v else mget eqE m k'.
  Proof.
    induction m as [|[k0 v0] m IH]; intros k v k'; cbn [mput mget]; [reflexivity|].
    destruct (eqE k k0) eqn:E1.
    - apply eqE_spec in E1. subst k0. cbn [mget]. destruct (eqE k' k); reflexivity.
    - cbn [mget]. rewrite IH. destruct (eqE k' k0) eqn:E2; [|reflexivity].
      destruct (eqE k' k) eqn:E3; [|reflexivity]. apply eqE_spec in E2. apply eqE_spec in E3.
      assert (eqE k k0 = true) by (apply eqE_spec; congruence). congruence.
  Qed.

  (** For every order in which the goroutines finish: an endpoint has a result exactly when it is
      configured, and its result is what a call to (an occurrence of) that endpoint returned. *)
  Theorem C38_callall_covers :
    forall (endpoints : list E) (d : E) (outcome : nat -> R) (order : list nat),
    Permutation order (seq 0 (length endpoints)) ->
    forall e,
    match mget eqE (CallAll eqE endpoints d outcome order) e with
    | Some r => exists i, nth_error endpoints i = Some e /\ r = outcome i
    | None => ~ In e endpoints
    end.
  Proof.
    intros endpoints d outcome order HP e.
    assert (G : forall order m, (forall i, In i order -> i < length endpoints) ->
      match mget eqE (fold_left (fun m i => mput eqE m (nth i endpoints d) (outcome i)) order m) e with
      | Some r => (exists i, nth_error endpoints i = Some e /\ r = outcome i) \/ mget eqE m e = Some r
      | None => (forall i, In i order -> nth i endpoints d <> e) /\ mget eqE m e = None
      end).
    { clear order HP. induction order as [|i order IH]; intros m Hin; cbn [fold_left].
      - destruct (mget eqE m e); [right; reflexivity|split; [intros i []|reflexivity]].
      - specialize (IH (mput eqE m (nth i endpoints d) (outcome i)) (fun j Hj => Hin j (or_intror Hj))).
        rewrite mget_mput in IH.
        destruct (mget eqE (fold_left _ order _) e) as [r|].
        + destruct IH as [IH|IH]; [left; assumption|]. destruct (eqE e (nth i endpoints d)) eqn:E1.
          * left. exists i. apply eqE_spec in E1. split; [|congruence]. rewrite E1.
            apply nth_error_nth'. apply Hin. left; reflexivity.
          * right. assumption.
        + destruct IH as [IH1 IH2]. destruct (eqE e (nth i endpoints d)) eqn:E1; [discriminate|].
          split; [|assumption]. intros j [<-|Hj]; [|apply IH1; assumption].
          intro X. rewrite <- X in E1. assert (eqE (nth i endpoints d) (nth i endpoints d) = true) by (apply eqE_spec; reflexivity). congruence. }
    specialize (G order []). unfold CallAll.
    assert (Hin : forall i, In i order -> i < length endpoints).
    { intros i Hi. apply (Permutation_in _ HP) in Hi. apply in_seq in Hi. lia. }
    specialize (G Hin). destruct (mget eqE (fold_left _ order []) e) as [r|].
    - destruct G as [G|G]; [assumption|discriminate].
    - destruct G as [G _]. intro HI. apply In_nth with (d := d) in HI. destruct HI as (i & Hi & HE).
      apply (G i); [|assumption]. apply (Permutation_in _ (Permutation_sym HP)). apply in_seq. lia.
  Qed.

  (** CallOne reaches an occurrence of the endpoint, and nothing for an unknown one. *)
  Theorem C38_callone :
    forall (endpoints : list E) (outcome : nat -> R) (e : E),
    match CallOne eqE endpoints outcome e with
    | Some r => exists i, nth_error endpoints i = Some e /\ r = outcome i
    | None => ~ In e endpoints
    end.
  Proof.
    intros endpoints outcome e. unfold CallOne, idxMap.
    assert (G : forall l pre m, endpoints = pre ++ l ->
       (forall x, match mget eqE m x with Some i => nth_error endpoints i = Some x | None => ~ In x pre end) ->
       match mget eqE (snd (fold_left (fun '(i, m) e => (S i, mput eqE m e i)) l (length pre, m))) e with
       | Some i => nth_error endpoints i = Some e | None => ~ In e endpoints end).
    { induction l as [|x l IH]; intros pre m HE HI; cbn [fold_left snd].
      - rewrite app_nil_r in HE. subst. apply HI.
      - specialize (IH (pre ++ [x]) (mput eqE m x (length pre))). rewrite app_length in IH. cbn [length] in IH.
        rewrite Nat.add_1_r in IH. apply IH.
        + rewrite <- app_assoc. assumption.
        + intro y. rewrite mget_mput. destruct (eqE y x) eqn:EY.
          * apply eqE_spec in EY. subst y. rewrite HE. rewrite nth_error_app2, Nat.sub_diag by lia. reflexivity.
          * specialize (HI y). destruct (mget eqE m y); [assumption|].
            rewrite in_app_iff. intros [X|[X|[]]]; [contradiction|]. subst.
            assert (eqE y y = true) by (apply eqE_spec; reflexivity). congruence. }
    specialize (G endpoints [] [] eq_refl ltac:(intro x; intros [])). cbn [length] in G.
    destruct (mget eqE _ e) as [i|]; [exists i; auto|assumption].
  Qed.
End C38.
Print Assumptions C38_callall_covers.
Print Assumptions C38_callone.

(** duplicate endpoints: one entry, from one of the two calls *)
Example C38_example :
  CallAll N.eqb [7;8;7]%N 0%N (fun i => 10 * i) [2;0;1] = [(7%N, 0); (8%N, 10)] /\
  Permutation [2;0;1] (seq 0 3) /\
  CallOne N.eqb [7;8;7]%N (fun i => 10 * i) 7%N = Some 20 /\ CallOne N.eqb [7;8;7]%N (fun i => 10 * i) 9%N = None.
Proof.
  repeat split. cbn. eapply Permutation_trans; [apply perm_swap|]. apply perm_skip. apply perm_swap.
Qed.
