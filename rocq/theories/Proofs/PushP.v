(** Invariants about pushed frames that are not part of a stream. *)
From Coq Require Import ZifyBool ZifyNat ZifyN.
From Verif Require Import Model.GoBase Model.Machine Model.Qrpc Model.FrameReader Model.Ids Model.Stream Model.Pair Model.Call Model.Push Proofs.StreamP Proofs.StreamI Proofs.StreamQ.
Open Scope N_scope.

(** push and reset at once *)
Definition prf (fl : FrameFlag) : bool := IsRst fl && IsPush fl.
Definition wq (st : sst) : Prop :=
  match wpc st with
  | WIdle | WExit => True
  | WLook _ fl _ => prf fl = false
  | WR1 _ fl | WR2 _ fl _ | WN1 _ fl | WN2 _ fl | WN3 _ fl | WAd1 _ fl _ | WAd2 _ fl _ | WAd3 _ fl _ | WAd4 _ fl _ => IsPush fl = false
  end.
Definition onePush (f : Frame) : Prop := IsPush (fFlags f) = true -> isRstF f = false -> IsDone (fFlags f) = true.
Definition pmsg (f : Frame) : bool := IsPush (fFlags f) && negb (IsRst (fFlags f)).

Section P.
  Variable c : bool.
  Lemma wq_step : forall st l st', sstep c st l = Some st' -> (forall id fl ce, l = LWrite id fl ce -> prf fl = false) -> wq st -> wq st'.
  Proof.
    intros st l st' E HL Q. unfold wq in *. allcases E; cbn in *; rewrite ?EW in *; try assumption; try exact I; try (eapply HL; reflexivity); try reflexivity.
    all: unfold prf in Q; try (rewrite ?Heqb in Q; cbn in Q; assumption).
  Qed.

  Definition ptag (x : strm) (t : rtag) : Prop :=
    lateRst x = false /\ rstd x = false /\
    match t with
    | R0 => closedSelf x = true /\ closedPeer x = true
    | TBind => binded x = false
    | TCl1 => True
    | TCl2 => closedSelf x = true
    | TCl3 | TCl4 | TRAd1 | TRAd2 | TRAd3 | TRAd4 => closedSelf x = true /\ closedPeer x = true
    | TAddIn | TSend | TWait | TRbp1 | TRbp2 | TRbp3 => False
    end.
  Definition pq (st : sst) : Prop := forall s, s < next st -> spush (heap st s) = true -> ptag (heap st s) (rtagOf (rpc st) s).

  Lemma wtag0 : forall st s, SInv st -> wq st -> s < next st -> spush (heap st s) = true -> wtagOf (wpc st) s = W0.
  Proof.
    intros st s I Q L P. pose proof (i_w st I) as W. unfold wvalid in W. unfold wq in Q. unfold wtagOf.
    destruct (wpc st) as [|? ? ?|s' fl|s' fl o|s' fl|s' fl|s' fl|s' fl a|s' fl a|s' fl a|s' fl a|]; try reflexivity;
      (destruct (N.eqb_spec s' s) as [->|]; [|reflexivity]); exfalso; destruct W as [[_ W] _]; congruence.
  Qed.

  Lemma pdone : forall st s, SInv st -> wq st -> pq st -> s < next st -> spush (heap st s) = true -> rtagOf (rpc st) s = R0 -> notified (heap st s) = 1%nat.
  Proof.
    intros st s I Q P L PU T. pose proof (i_ok st I s L) as OK. unfold sok in OK. rewrite T, (wtag0 st s I Q L PU) in OK.
    specialize (P s L PU). rewrite T in P. destruct P as (P1 & P4 & P2 & P3). unfold sokx in OK. rewrite P1, P2, P3, P4, PU in OK.
    pose proof (sokb_n _ _ _ _ _ _ _ _ _ _ _ _ _ _ _ OK) as [N0|N1]; [|assumption]. exfalso. rewrite N0 in OK.
    revert OK. generalize (fullClosed (heap st s)) (binded (heap st s)) (chClosed (heap st s)) (fullCh (heap st s)) (cancelled (heap st s)) (hasDone (out (heap st s))) (isRel st).
    intros [] [] [] [] [] [] []; vm_compute; discriminate.
  Qed.
  Lemma pnone : forall st id s, SInv st -> wq st -> pq st -> tbl st true id = Some s -> rtagOf (rpc st) s <> R0.
  Proof.
    intros st id s I Q P T R. destruct (i_t1 st I _ _ _ T) as (L & K & N0). unfold skey in K. injection K as K1 K2.
    rewrite (pdone st s I Q P L K1 R) in N0. discriminate.
  Qed.

  Lemma pq_step : forall st l st', SInv st -> wq st -> sstep c st l = Some st' -> Forall onePush (inlog st') -> pq st -> pq st'.
  Proof.
    intros st l st' I Q E F P. 
    pose proof (i_r st I) as RV. unfold rvalid in RV. pose proof (i_t1 st I) as T1. pose proof (i_w st I) as WV. unfold wvalid in WV.
    assert (PN := fun id s => pnone st id s I Q P). assert (PD := fun s => pdone st s I Q P). unfold wq in Q.
    assert (KEY : forall f s, keyOf f = skey (heap st s) -> spush (heap st s) = true -> IsPush (fFlags f) = true) by (intros f s K PU; unfold keyOf, skey in K; congruence).
    assert (ONE : forall f a, inlog st' = a ++ [f] -> onePush f) by (intros f a X; rewrite X in F; rewrite Forall_forall in F; apply F; apply in_or_app; right; left; reflexivity).
    intros z. pose proof (P z) as Pz. 
    allcases E; upd_tac z; intros Hz PU; rewrite ?ER in *; cbn [rtagOf rend] in *.
    all: try (apply Pz; assumption).
    all: repeat match goal with H : _ /\ _ |- _ => destruct H | H : exists _, _ |- _ => destruct H end.
    all: rewrite ?N.eqb_refl in *; unfold ptag in *; cbn in *.
    all: try match goal with |- context [?a =? ?b] => destruct (N.eqb_spec a b); [subst|] end.
    all: try (specialize (Pz ltac:(lia) ltac:(assumption))).
    all: repeat match goal with H : context [?a =? ?b] |- _ => destruct (N.eqb_spec a b); [try congruence|try congruence] end.
    all: try (tauto || (intuition congruence)).
    - exfalso. destruct (T1 _ _ _ Heqo) as (_ & _ & N0). rewrite (PD z Hz PU eq_refl) in N0. discriminate.
    - exfalso. destruct (T1 _ _ _ Heqo) as (_ & _ & N0). rewrite (PD z Hz PU eq_refl) in N0. discriminate.
    - exfalso. assert (X : IsPush (fFlags f) = true) by (eapply KEY; eassumption). congruence.
    - exfalso. assert (X : IsDone (fFlags f) = true) by (eapply ONE; try eassumption). congruence.
    - exfalso. subst z. assert (X : IsPush (fFlags f) = true) by (eapply KEY; eassumption). congruence.
  Qed.

  (** a pushed message the reader has read and not bound to its stream yet *)
  Definition inflight (st : sst) : list Frame :=
    match rpc st with RGet f | RBind f _ => if pmsg f then [f] else [] | _ => [] end.
  Definition bpush (st : sst) : list Frame := match bound st with Some f => if pmsg f then [f] else [] | None => [] end.

  Lemma fl_step : forall st l st', SInv st -> pq st -> sstep c st l = Some st' ->
    match l with
    | LFrame f => inflight st = [] /\ inlog st' = inlog st ++ [f] /\ inflight st' = (if pmsg f then [f] else [])
    | LRStep => inlog st' = inlog st /\ inflight st = bpush st ++ inflight st'
    | _ => inlog st' = inlog st /\ inflight st' = inflight st
    end.
  Proof.
    intros st l st' I P E. pose proof (i_r st I) as RV. unfold rvalid in RV. unfold inflight, bpush, bound.
    allcases E; cbn in *; rewrite ?ER in *; auto.
    all: repeat match goal with H : _ /\ _ |- _ => destruct H | H : exists _, _ |- _ => destruct H end.
    all: rewrite ?Heqb, ?Heqb0, ?app_nil_r in *; auto.
    all: try (unfold pmsg; rewrite ?Heqb; cbn; rewrite ?andb_false_r; auto; fail).
    - split; [reflexivity|]. destruct (pmsg f) eqn:EM; [|reflexivity]. exfalso.
      unfold pmsg in EM. apply andb_true_iff in EM. destruct EM as [EM _]. assert (PU : spush (heap st s) = true) by (unfold keyOf, skey in *; congruence).
      specialize (P s H PU). rewrite ER in P. cbn in P. rewrite N.eqb_refl in P. destruct P as (_ & _ & P). congruence.
  Qed.
End P.
