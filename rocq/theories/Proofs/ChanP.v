(** Proofs about Model/ChanPair.v. *)
From Coq Require Import ZifyBool ZifyNat ZifyN.
From Verif Require Import Model.GoBase Model.Machine Model.Qrpc Model.FrameWriter Model.Reader Model.FrameReader Model.Ids Model.Stream Model.Pair Model.Channel Model.ChanPair
  Spec.FrameSpec Proofs.StreamP Proofs.StreamI Proofs.StreamQ Proofs.StreamR Proofs.PairP Proofs.CallP Props.Stream.
Open Scope N_scope.

(** ** one side *)
Section W.
  Variable c : bool.
  (** the writer's log grows only by the writer's own step *)
  Lemma log_only : forall st l st', sstep c st l = Some st' -> l <> LWStep -> wlog st' = wlog st.
  Proof. intros st l st' E N. allcases E; try (elim N; reflexivity); reflexivity. Qed.
  Lemma wid_keep : forall st l st', SInv st -> sstep c st l = Some st' -> (forall id fl ce, l <> LWrite id fl ce) -> l <> LWriteRst ->
    wlog st' = wlog st -> wid st' = wid st.
  Proof.
    intros st l st' I E N1 N2 L. pose proof (sid_stable c st l st' I E) as K. pose proof (i_w st I) as WV. unfold wvalid in WV.
    pose proof (i_t1 st I) as T1. clear I.
    assert (NL : forall e, wlog st ++ [e] <> wlog st).
    { intros e X. apply (f_equal (@length _)) in X. rewrite app_length in X. cbn in X. lia. }
    unfold wid. allcases E; try (exfalso; eapply N1; reflexivity); try congruence; cbn in L |- *; try (elim (NL _ L)); rewrite ?EW; auto.
    all: try (destruct (wpc _) eqn:EW'; try reflexivity; f_equal; f_equal; apply K; apply WV).
    all: try (f_equal; f_equal; apply K; apply WV).
    all: try (match goal with X : tbl _ _ _ = Some _ |- _ => apply T1 in X; destruct X as (_ & X & _); unfold skey in X; congruence end).
    all: try (rewrite upd_eq; reflexivity).
  Qed.
  Lemma got_step : forall st l st', sstep c st l = Some st' -> forall s, s < next st ->
    got (heap st' s) = got (heap st s) \/
    (binded (heap st s) = false /\ exists f, got (heap st' s) = [f]) \/
    (exists f, l = LDeliver /\ rpc st = RSend f s /\ chClosed (heap st s) = false /\ got (heap st' s) = got (heap st s) ++ [f]).
  Proof.
    intros st l st' E s Hs. allcases E; upd_tac s; auto; try lia; subst; eauto 10.
  Qed.
  Lemma got_new : forall st l st', sstep c st l = Some st' -> forall s, next st <= s -> s < next st' -> got (heap st' s) = [].
  Proof. intros st l st' E s H1 H2. allcases E; revert H1 H2; upd_tac s; auto; lia. Qed.
  Lemma new_key : forall st l st', SInv st -> sstep c st l = Some st' -> forall z, z < next st' ->
    (z < next st /\ skey (heap st' z) = skey (heap st z)) \/
    (exists f, rpc st = RGet f /\ skey (heap st' z) = keyOf f) \/
    (exists id fl, wid st = Some (id, fl) /\ skey (heap st' z) = (IsPush fl, id)).
  Proof.
    intros st l st' I E z Hz. destruct (sstep_key c st l st' I E) as [_ K]. specialize (K z).
    destruct (N.lt_ge_cases z (next st)) as [L|L]; [left; auto|right]. clear K I.
    unfold wid. allcases E; cbn in Hz |- *; try lia; replace z with (next st) by lia; rewrite ?upd_eq; unfold skey; cbn [spush sid newStream]; (left; eexists; split; [reflexivity|reflexivity]) || (right; do 2 eexists; split; [reflexivity|congruence]).
  Qed.
End W.

(** ** the pair *)
Definition mkf (id : N) (cmd : Cmd) (fl : FrameFlag) (pay : bytes) : Frame := mkFrame id fl (N.land cmd 0xffffff) pay.
Definition wlen (p : pst) (d : bool) : nat := length (wlog (ep p d)).

Inductive pch (p : pst) (l : plabel) (p' : pst) (d : bool) : Prop :=
| ch_write : forall id cmd fl ce pay, l = PWrite d id cmd fl ce pay -> cand p' d = Some (mkf id cmd fl pay) ->
    sent p' d = sent p d -> wlen p' d = wlen p d -> pch p l p' d
| ch_rst : forall s q, l = PLoc d LWriteRst -> rstq (ep p d) = s :: q -> cand p' d = Some (mkf (sid (heap (ep p d) s)) 0 StreamRstFlag []) ->
    sent p' d = sent p d -> wlen p' d = wlen p d -> pch p l p' d
| ch_same : (forall id cmd fl ce pay, l <> PWrite d id cmd fl ce pay) -> l <> PLoc d LWriteRst ->
    cand p' d = cand p d -> sent p' d = sent p d -> wlen p' d = wlen p d -> pch p l p' d
| ch_done : forall f, l = PLoc d LWStep -> cand p d = Some f -> cand p' d = None -> (wlen p d < wlen p' d)%nat ->
    sent p' d = sent p d \/ sent p' d = sent p d ++ [f] -> pch p l p' d.

Section P.
  Variable lim : bool -> Z.

  Lemma pair_step : forall p l p', PairInv lim p -> pstep lim p l = Some p' -> forall d, pch p l p' d.
  Proof.
    intros p l p' I E d. destruct l as [c l|c i cmd fl ce payload|c n|c].
    - pose proof (reach_inv c _ (q_reach _ _ I c)) as SI.
      destruct (sstep c (ep p c) l) as [st'|] eqn:ES; [|unfold pstep in E; destruct l; try discriminate E; rewrite ES in E; discriminate E].
      destruct (Bool.bool_dec d c) as [->|ND].
      + assert (A : (forall id fl ce, l <> LWrite id fl ce) -> l <> LWriteRst -> p' = advance c st' p -> pch p (PLoc c l) p' c).
        { intros N1 N2 ->. destruct (adv_ep c st' p) as [E1 E2]. destruct (log_step c _ l st' ES) as [L|(id & fl & r & L & W)].
          - apply ch_same; try discriminate; try congruence.
            + unfold cand. rewrite E1, E2, put_eq, (wid_keep c _ l st' SI ES N1 N2 L). reflexivity.
            + unfold advance, accepted. rewrite L, skipn_all2 by lia. reflexivity.
            + unfold wlen. rewrite E1, put_eq, L. reflexivity.
          - assert (NW : wlog st' <> wlog (ep p c)) by (rewrite L; intro X; apply (f_equal (@length _)) in X; rewrite app_length in X; cbn in X; lia).
            assert (l = LWStep).
            { destruct l; try reflexivity; elim NW; eapply log_only; try eassumption; discriminate. }
            subst l. eapply ch_done with (f := mkf id (fst (cur p c)) fl (snd (cur p c))).
            + reflexivity.
            + unfold cand. rewrite W. reflexivity.
            + unfold cand. rewrite E1, E2, put_eq, (wid_accept c _ _ st' ES NW). reflexivity.
            + unfold wlen. rewrite E1, put_eq, L, app_length. cbn. lia.
            + unfold advance, accepted. rewrite L, skipn_app, skipn_all2, Nat.sub_diag by lia. cbn [skipn app].
              destruct r; auto. destruct (cur p c) as [cmd pay]. cbn [sent fst snd]. rewrite put_eq. auto. }
        unfold pstep in E. destruct l; try discriminate E; rewrite ES in E; injection E as <-; try (apply A; [discriminate|discriminate|reflexivity]).
        unfold sstep in ES. destruct (panicked _); [discriminate|]. destruct (wpc (ep p c)) eqn:EW; try discriminate.
        destruct (rstq (ep p c)) as [|s q] eqn:EQ; [discriminate|]. injection ES as <-.
        eapply ch_rst; [reflexivity|exact EQ| | |]; unfold cand, wlen; cbn [ep cur sent]; rewrite ?put_eq; reflexivity.
      + assert (NL : forall l', PLoc c l <> PLoc d l') by congruence.
        apply ch_same; try discriminate; try apply NL; unfold cand, wlen; unfold pstep in E; destruct l; try discriminate E; rewrite ES in E; injection E as <-;
          destruct (adv_ep c st' p) as [E1 E2]; rewrite ?E1, ?E2; cbn [ep cur]; rewrite ?put_neq by assumption; try reflexivity;
          unfold advance; destruct (accepted _ _) as [[? ?]|]; try (destruct (cur p c)); cbn [sent]; rewrite ?put_neq by assumption; reflexivity.
    - unfold pstep in E. destruct (fits _ _ _ _); [|discriminate]. destruct (sstep _ _ _) as [st'|] eqn:ES; [|discriminate]. injection E as <-.
      destruct (Bool.bool_dec d c) as [->|ND].
      + eapply ch_write; [reflexivity| | |]; unfold cand, wlen; cbn [ep cur sent]; rewrite ?put_eq.
        * rewrite (wid_write c _ _ _ _ _ ES). reflexivity.
        * reflexivity.
        * rewrite (write_step c _ _ _ ES); [reflexivity|left; eauto].
      + apply ch_same; try congruence; unfold cand, wlen; cbn [ep cur sent]; rewrite ?put_neq by assumption; reflexivity.
    - unfold pstep in E. injection E as <-. apply ch_same; try congruence; reflexivity.
    - unfold pstep in E. destruct (readFrame _ _ _ _) as [r' [g|e]]; [|discriminate]. destruct (sstep _ _ _) as [st'|] eqn:ES; [|discriminate]. injection E as <-.
      destruct (read_step c _ _ _ ES) as [_ WL].
      apply ch_same; try congruence; unfold cand, wlen; cbn [ep cur sent]; destruct (Bool.bool_dec d c) as [->|ND]; rewrite ?put_eq, ?put_neq by assumption; try reflexivity.
      + rewrite (wid_keep c _ _ _ (reach_inv c _ (q_reach _ _ I c)) ES); try discriminate; auto.
      + rewrite WL. reflexivity.
  Qed.

  (** a step of the pair is a step of each side, or leaves it alone *)
  Lemma side_step : forall p l p', pstep lim p l = Some p' -> forall d, ep p' d = ep p d \/
    exists l', sstep d (ep p d) l' = Some (ep p' d) /\ (l' = LDeliver -> l = PLoc d LDeliver).
  Proof.
    intros p l p' E d. destruct l as [c l|c i cmd fl ce payload|c n|c].
    - destruct (sstep c (ep p c) l) as [st'|] eqn:ES; [|unfold pstep in E; destruct l; try discriminate E; rewrite ES in E; discriminate E].
      assert (X : ep p' = put (ep p) c st').
      { unfold pstep in E. destruct l; try discriminate E; rewrite ES in E; injection E as <-; try apply adv_ep; reflexivity. }
      rewrite X. destruct (Bool.bool_dec d c) as [->|ND]; [rewrite put_eq; right; exists l; split; [assumption|intros ->; reflexivity]|].
      rewrite put_neq by assumption. auto.
    - unfold pstep in E. destruct (fits _ _ _ _); [|discriminate]. destruct (sstep _ _ _) as [st'|] eqn:ES; [|discriminate]. injection E as <-. cbn [ep].
      destruct (Bool.bool_dec d c) as [->|ND]; [rewrite put_eq; right; eexists; split; [eassumption|discriminate]|rewrite put_neq by assumption; auto].
    - unfold pstep in E. injection E as <-. auto.
    - unfold pstep in E. destruct (readFrame _ _ _ _) as [r' [g|e]]; [|discriminate]. destruct (sstep _ _ _) as [st'|] eqn:ES; [|discriminate]. injection E as <-. cbn [ep].
      destruct (Bool.bool_dec d c) as [->|ND]; [rewrite put_eq; right; eexists; split; [eassumption|discriminate]|rewrite put_neq by assumption; auto].
  Qed.
End P.

(** ** channels *)
Definition ends (o : hop) : bool := match o with OMsg _ _ fin => fin | _ => true end.
Definition endedIn (log : list (hop * option Frame)) : Prop := exists o f, In (o, Some f) log /\ ends o = true.
Definition shape (log : list (hop * option Frame)) (o : hop) (f : Frame) : Prop :=
  match o with
  | OMsg cmd b fin => fCmd f = N.land cmd 0xffffff /\ fPayload f = b /\ IsRst (fFlags f) = false /\ (IsDone (fFlags f) = true -> fin = true \/ endedIn log)
  | _ => IsRst (fFlags f) = true
  end.
Definition LogOK (log : list (hop * option Frame)) : Prop := forall a o f b, log = a ++ (o, Some f) :: b -> shape a o f.
Definition kfilter (k : bool * N) (l : list Frame) : list Frame := filter (fun f => keqb (keyOf f) k) l.

Record HInv (lim : bool -> Z) (h : hst) : Prop := {
  n_pair : reachable (pstep lim) pinit (hp h);
  n_gen : forall c, gen h c < 2 ^ 63;
  n_sent : forall d f, In f (sent (hp h) d) \/ cand (hp h) d = Some f -> IsPush (fFlags f) = false -> given (gen h) (fRequestID f) = true;
  n_strm : forall d s, s < next (ep (hp h) d) -> spush (heap (ep (hp h) d) s) = false -> given (gen h) (sid (heap (ep (hp h) d) s)) = true;
  n_own : forall i, own h i <> None -> given (gen h) i = true;
  n_log : forall d i, own h i <> None -> kfilter (false, i) (sent (hp h) d) = frOf (hlog h d i);
  n_new : forall d i, own h i = None -> hlog h d i = [];
  n_ok : forall d i, LogOK (hlog h d i);
  n_busy : forall d who i o, busy h d = Some (who, i, o) -> own h i <> None /\ exists f, cand (hp h) d = Some f /\ keyOf f = (false, i) /\ shape (hlog h d i) o f;
  n_free : forall d f, busy h d = None -> cand (hp h) d = Some f -> IsPush (fFlags f) = false -> own h (fRequestID f) = None;
  n_cs : forall c x, streamWriter (cs h c x) = true -> own h (cid h c x) = Some (c, x) /\
     (IsDone (cfl h c x) = true -> endedIn (hlog h c (cid h c x)));
  n_fl : forall c x, streamWriter (cs h c x) = true \/ (exists i o, busy h c = Some (Some x, i, o)) -> IsRst (cfl h c x) = false /\ IsPush (cfl h c x) = false;
  n_cb : forall c x i o, busy h c = Some (Some x, i, o) -> own h i = Some (c, x) /\ cid h c x = i /\
     (streamWriter (cs h c x) = false -> exists cmd b fin, o = OMsg cmd b fin /\ (IsDone (cfl h c x) = true -> fin = true));
  n_got : forall d s, s < next (ep (hp h) d) -> spush (heap (ep (hp h) d) s) = false -> own h (sid (heap (ep (hp h) d) s)) <> None ->
     exists rest, got (heap (ep (hp h) d) s) = taken (rlog h d s) ++ rest /\ (taken (rlog h d s) = [] -> rlog h d s = [] /\ (length rest <= 1)%nat) /\
       (taken (rlog h d s) <> [] -> rest = []);
  n_old : forall d s, next (ep (hp h) d) <= s \/ spush (heap (ep (hp h) d) s) = true \/ own h (sid (heap (ep (hp h) d) s)) = None -> rlog h d s = [];
}.

Lemma frOf_app : forall a b, frOf (a ++ b) = frOf a ++ frOf b.
Proof. intros. unfold frOf. apply flat_map_app. Qed.
Lemma kfilter_app : forall k a b, kfilter k (a ++ b) = kfilter k a ++ kfilter k b.
Proof. intros. apply filter_app. Qed.
Lemma LogOK_snoc : forall l o f, LogOK l -> (match f with Some f => shape l o f | None => True end) -> LogOK (l ++ [(o, f)]).
Proof.
  intros l o f H1 H2 a o' f' b E. destruct b as [|e b] using rev_ind.
  - apply app_inj_tail in E. destruct E as [<- E]. injection E as -> ->. exact H2.
  - rewrite app_comm_cons, app_assoc in E. apply app_inj_tail in E. destruct E as [E _]. eapply H1. exact E.
Qed.
Lemma given_mono : forall g g' i, (forall c, g c <= g' c) -> given g i = true -> given g' i = true.
Proof. intros g g' i H. pose proof (H true). pose proof (H false). unfold given. destruct (N.even i); rewrite !N.leb_le; lia. Qed.

Lemma nextID_val : forall c g, g + 1 < 2 ^ 63 -> nextID c g = (g + 1, if c then 2 * (g + 1) + 1 else 2 * (g + 1)).
Proof.
  intros c g H. unfold nextID, clientNextID, serverNextID.
  assert (E1 : u64 (g + 1) = g + 1) by (apply N.mod_small; lia). rewrite E1.
  assert (E2 : u64 (2 * (g + 1)) = 2 * (g + 1)) by (apply N.mod_small; lia). rewrite E2.
  assert (E3 : u64 (2 * (g + 1) + 1) = 2 * (g + 1) + 1) by (apply N.mod_small; lia). rewrite E3. destruct c; reflexivity.
Qed.
Lemma given_fresh : forall g c, g c + 1 < 2 ^ 63 -> given g (snd (nextID c (g c))) = false /\ given (put g c (g c + 1)) (snd (nextID c (g c))) = true.
Proof.
  intros g c H. rewrite (nextID_val c _ H). cbn [snd]. unfold given. destruct c.
  - replace (N.even (2 * (g true + 1) + 1)) with false by (symmetry; rewrite N.add_1_r, N.even_succ, N.odd_mul; reflexivity).
    rewrite put_eq. rewrite N.leb_gt, N.leb_le. lia.
  - replace (N.even (2 * (g false + 1))) with true by (symmetry; rewrite N.even_mul; reflexivity).
    rewrite put_eq. rewrite N.leb_gt, N.leb_le. lia.
Qed.

Definition GotOK (ow : N -> option (bool * N)) (rl : bool -> N -> list hgot) (p : pst) : Prop :=
  (forall d s, s < next (ep p d) -> spush (heap (ep p d) s) = false -> ow (sid (heap (ep p d) s)) <> None ->
     exists rest, got (heap (ep p d) s) = taken (rl d s) ++ rest /\ (taken (rl d s) = [] -> rl d s = [] /\ (length rest <= 1)%nat) /\
       (taken (rl d s) <> [] -> rest = [])) /\
  (forall d s, next (ep p d) <= s \/ spush (heap (ep p d) s) = true \/ ow (sid (heap (ep p d) s)) = None -> rl d s = []).

Section H.
  Variable lim : bool -> Z.
  Hypothesis HT : forall c, tooLarge (lim c) 12 = false.

  Lemma hpair : forall h, HInv lim h -> PairInv lim (hp h).
  Proof. intros h I. apply reach_pair; [exact HT|apply (n_pair _ _ I)]. Qed.
  Lemma hside : forall h d, HInv lim h -> SInv (ep (hp h) d).
  Proof. intros h d I. apply (reach_inv d), (q_reach _ _ (hpair h I)). Qed.

  (** ids in use are ids given out *)
  Lemma given_step : forall h l p' g', HInv lim h -> pstep lim (hp h) l = Some p' -> (forall c, gen h c <= g' c) ->
    (forall d id cmd fl ce pay, l = PWrite d id cmd fl ce pay -> IsPush fl = false -> given g' id = true) ->
    (forall d f, In f (sent p' d) \/ cand p' d = Some f -> IsPush (fFlags f) = false -> given g' (fRequestID f) = true) /\
    (forall d s, s < next (ep p' d) -> spush (heap (ep p' d) s) = false -> given g' (sid (heap (ep p' d) s)) = true).
  Proof.
    intros h l p' g' I E HG HW.
    assert (OS : forall d f, In f (sent (hp h) d) \/ cand (hp h) d = Some f -> IsPush (fFlags f) = false -> given g' (fRequestID f) = true).
    { intros d f H1 H2. eapply given_mono; [exact HG|eapply (n_sent _ _ I); eassumption]. }
    assert (OT : forall d s, s < next (ep (hp h) d) -> spush (heap (ep (hp h) d) s) = false -> given g' (sid (heap (ep (hp h) d) s)) = true).
    { intros d s H1 H2. eapply given_mono; [exact HG|eapply (n_strm _ _ I); eassumption]. }
    split.
    - intros d f H1 H2. destruct (pair_step lim _ _ _ (hpair h I) E d) as [id cmd fl ce pay EL EC ES EW|s q EL EQ EC ES EW|_ _ EC ES EW|g EL EC EC' EW ES].
      + destruct H1 as [H1|H1]; [rewrite ES in H1; eauto|]. rewrite EC in H1. injection H1 as <-. cbn in H2 |- *. eapply HW; [exact EL|exact H2].
      + destruct H1 as [H1|H1]; [rewrite ES in H1; eauto|]. rewrite EC in H1. injection H1 as <-. cbn [fRequestID mkf].
        destruct (i_q _ (hside h d I) s) as [Q1 Q2]; [rewrite EQ; left; reflexivity|]. apply OT; assumption.
      + rewrite EC, ES in H1. eauto.
      + rewrite EC' in H1. destruct H1 as [H1|H1]; [|discriminate]. destruct ES as [ES|ES]; rewrite ES in H1; [eauto|].
        apply in_app_iff in H1. destruct H1 as [H1|[<-|[]]]; eauto.
    - intros d s H1 H2. destruct (side_step lim _ _ _ E d) as [X|(l' & X & _)]; [rewrite X in *; auto|].
      destruct (new_key d _ _ _ (hside h d I) X s H1) as [[Y1 Y2]|[(f & Y1 & Y2)|(id & fl & Y1 & Y2)]].
      + unfold skey in Y2. injection Y2 as Z1 Z2. rewrite Z2. apply OT; congruence.
      + unfold skey, keyOf in Y2. injection Y2 as Z1 Z2. rewrite Z2. apply OS with (d := negb d); [left|congruence].
        pose proof (i_r _ (hside h d I)) as RV. unfold rvalid in RV. rewrite Y1 in RV. destruct RV as (a & RV & _).
        destruct (q_wire _ _ (hpair h I) (negb d)) as (rest & A & _). rewrite negb_involutive, RV in A. rewrite A. apply in_app_iff. left. apply in_elt.
      + unfold skey in Y2. injection Y2 as Z1 Z2. rewrite Z2.
        apply (OS d (mkf id (fst (cur (hp h) d)) fl (snd (cur (hp h) d)))); [right; unfold cand; rewrite Y1; reflexivity|cbn; congruence].
  Qed.

  (** steps that receive nothing from a channel's stream *)
  Lemma got_inv : forall h l p' ow, HInv lim h -> pstep lim (hp h) l = Some p' ->
    (forall i, ow i = own h i \/ given (gen h) i = false) ->
    (forall d f s, l = PLoc d LDeliver -> rpc (ep (hp h) d) = RSend f s -> chanOf h d s = None) ->
    GotOK ow (rlog h) p'.
  Proof.
    intros h l p' ow I E HO HD.
    assert (K : forall d s, s < next (ep (hp h) d) -> skey (heap (ep p' d) s) = skey (heap (ep (hp h) d) s)).
    { intros d s Hs. destruct (side_step lim _ _ _ E d) as [X|(l' & X & _)]; [rewrite X; reflexivity|].
      destruct (sstep_key d _ _ _ (hside h d I) X) as [_ K]. apply K. assumption. }
    assert (NX : forall d, next (ep (hp h) d) <= next (ep p' d)).
    { intro d. destruct (side_step lim _ _ _ E d) as [X|(l' & X & _)]; [rewrite X; lia|]. apply (sstep_key d _ _ _ (hside h d I) X). }
    assert (OW : forall d s, s < next (ep (hp h) d) -> spush (heap (ep (hp h) d) s) = false -> ow (sid (heap (ep (hp h) d) s)) = own h (sid (heap (ep (hp h) d) s))).
    { intros d s H1 H2. destruct (HO (sid (heap (ep (hp h) d) s))) as [X|X]; [assumption|]. rewrite (n_strm _ _ I d s H1 H2) in X. discriminate. }
    split.
    - intros d s H1 H2 H3. destruct (N.lt_ge_cases s (next (ep (hp h) d))) as [L|L].
      + specialize (K d s L). unfold skey in K. injection K as K1 K2. rewrite K1 in H2. rewrite K2, OW in H3 by assumption.
        destruct (n_got _ _ I d s L H2 H3) as (rest & G1 & G2 & G3).
        destruct (side_step lim _ _ _ E d) as [X|(l' & X & XL)]; [rewrite X; eauto|].
        destruct (got_step d _ _ _ X s L) as [Y|[(Y1 & f & Y2)|(f & Y1 & Y2 & Y3 & Y4)]].
        * rewrite Y. eauto.
        * destruct (reach_pq d _ (q_reach _ _ (hpair h I) d)) as (_ & P & _). apply (p_got _ P s L) in Y1. rewrite Y1 in G1.
          symmetry in G1. apply app_eq_nil in G1. destruct G1 as [G1 _]. exists [f]. rewrite G1, Y2. split; [reflexivity|]. split; [|intro; congruence].
          intro. destruct (G2 G1) as [G2' _]. split; [assumption|cbn; lia].
        * exfalso. specialize (HD d f s (XL Y1) Y2). unfold chanOf in HD. rewrite (proj2 (N.ltb_lt _ _) L), H2 in HD. cbn in HD. contradiction.
      + rewrite (n_old _ _ I d s (or_introl L)). destruct (side_step lim _ _ _ E d) as [X|(l' & X & XL)]; [rewrite X in H1; lia|].
        rewrite (got_new d _ _ _ X s L H1). exists []. cbn. repeat split; auto.
    - intros d s H. destruct (N.lt_ge_cases s (next (ep (hp h) d))) as [L|L]; [|apply (n_old _ _ I); auto].
      apply (n_old _ _ I). specialize (K d s L). unfold skey in K. injection K as K1 K2. rewrite K1, K2 in H. destruct H as [H|[H|H]].
      + specialize (NX d). lia.
      + auto.
      + destruct (spush (heap (ep (hp h) d) s)) eqn:EP; [auto|]. rewrite OW in H by assumption. auto.
  Qed.

  (** steps that neither begin nor finish a write *)
  Lemma same_inv : forall h l p' rl, HInv lim h -> pstep lim (hp h) l = Some p' ->
    (forall d, cand p' d = cand (hp h) d /\ sent p' d = sent (hp h) d) -> GotOK (own h) rl p' ->
    HInv lim (mkHst p' (gen h) (own h) (cs h) (cid h) (cfl h) (busy h) (hlog h) rl).
  Proof.
    intros h l p' rl I E HS [G1 G2]. destruct (given_step h l p' (gen h) I E) as [A B].
    { intro. lia. }
    { intros d id cmd fl ce pay -> HP. eapply (n_sent _ _ I d (mkf id cmd fl pay)); [right|exact HP].
      destruct (pair_step lim _ _ _ (hpair h I) E d) as [id' cmd' fl' ce' pay' EL EC ES EW|s q EL|X _|f EL]; try discriminate EL.
      - injection EL as -> -> -> -> ->. rewrite <- EC. symmetry. apply HS.
      - elim (X id cmd fl ce pay); reflexivity. }
    constructor; cbn [hp gen own cs cid cfl busy hlog rlog]; auto; try apply I.
    - eapply reachable_step; [apply (n_pair _ _ I)|exact E].
    - intros d i H. destruct (HS d) as [_ ->]. apply (n_log _ _ I); assumption.
    - intros d who i o H. destruct (HS d) as [-> _]. apply (n_busy _ _ I d who i o H).
    - intros d f H. destruct (HS d) as [-> _]. apply (n_free _ _ I); assumption.
  Qed.

  (** steps that begin a write *)
  Lemma write_inv : forall h l p' c f nb ow g' ci' cf', HInv lim h -> pstep lim (hp h) l = Some p' ->
    (exists id cmd fl ce pay, l = PWrite c id cmd fl ce pay) \/ l = PLoc c LWriteRst -> cand p' c = Some f ->
    (forall d, gen h d <= g' d < 2 ^ 63) ->
    (forall i, ow i = own h i \/ (given (gen h) i = false /\ ow i <> None /\ given g' i = true)) ->
    (forall d id cmd fl ce pay, l = PWrite d id cmd fl ce pay -> IsPush fl = false -> given g' id = true) ->
    match nb with
    | Some (who, i, o) => ow i <> None /\ keyOf f = (false, i) /\ shape (hlog h c i) o f /\
        match who with
        | Some x => ow i = Some (c, x) /\ ci' c x = i /\ IsRst (cf' c x) = false /\ IsPush (cf' c x) = false /\
            (streamWriter (cs h c x) = false -> exists cmd b fin, o = OMsg cmd b fin /\ (IsDone (cf' c x) = true -> fin = true))
        | None => True
        end
    | None => IsPush (fFlags f) = false -> ow (fRequestID f) = None
    end ->
    (forall d x, streamWriter (cs h d x) = true -> ci' d x = cid h d x /\ cf' d x = cfl h d x) ->
    (forall d x i o, d <> c -> busy h d = Some (Some x, i, o) -> ci' d x = cid h d x /\ cf' d x = cfl h d x) ->
    HInv lim (mkHst p' g' ow (cs h) ci' cf' (put (busy h) c nb) (hlog h) (rlog h)).
  Proof.
    intros h l p' c f nb ow g' ci' cf' I E HL EC HG HO HW HN HC HB.
    destruct (given_step h l p' g' I E ltac:(intro; apply HG) HW) as [A B].
    assert (HD : GotOK ow (rlog h) p').
    { eapply got_inv; [exact I|exact E|intro i; destruct (HO i) as [X|(X & _)]; auto|].
      intros d g s ->. destruct HL as [(? & ? & ? & ? & ? & X)|X]; discriminate X. }
    destruct HD as [G1 G2].
    assert (SN : forall d, sent p' d = sent (hp h) d).
    { intro d. destruct (pair_step lim _ _ _ (hpair h I) E d) as [id' cmd' fl' ce' pay' EL EC' ES EW|s q EL EQ EC' ES EW|_ _ EC' ES EW|g EL]; try assumption.
      subst l. destruct HL as [(? & ? & ? & ? & ? & X)|X]; discriminate X. }
    assert (CN : forall d, d <> c -> cand p' d = cand (hp h) d).
    { intros d ND. destruct (pair_step lim _ _ _ (hpair h I) E d) as [id' cmd' fl' ce' pay' EL EC' ES EW|s q EL EQ EC' ES EW|_ _ EC' ES EW|g EL]; try assumption;
      subst l; destruct HL as [(? & ? & ? & ? & ? & X)|X]; inversion X; congruence. }
    assert (OW : forall i, own h i <> None -> ow i = own h i).
    { intros i H. destruct (HO i) as [X|(X & _)]; [assumption|]. rewrite (n_own _ _ I i H) in X. discriminate. }
    assert (ON : forall i, given (gen h) i = true -> ow i = own h i).
    { intros i H. destruct (HO i) as [X|(X & _)]; [assumption|congruence]. }
    constructor; cbn [hp gen own cs cid cfl busy hlog rlog]; auto.
    - eapply reachable_step; [apply (n_pair _ _ I)|exact E].
    - apply HG.
    - intros i H. destruct (HO i) as [X|(_ & _ & X)]; [|assumption]. rewrite X in H. eapply given_mono; [intro; apply HG|apply (n_own _ _ I i H)].
    - intros d i H. rewrite SN. destruct (HO i) as [X|(X & _ & _)]; [rewrite X in H; apply (n_log _ _ I); assumption|].
      rewrite (n_new _ _ I); [|destruct (own h i) eqn:EO; [|reflexivity]; rewrite (n_own _ _ I i) in X by congruence; discriminate].
      destruct (kfilter (false, i) (sent (hp h) d)) as [|y ys] eqn:EK; [reflexivity|exfalso].
      assert (Y : In y (kfilter (false, i) (sent (hp h) d))) by (rewrite EK; left; reflexivity).
      unfold kfilter in Y. apply filter_In in Y. destruct Y as [Y1 Y2]. apply keqb_eq in Y2. unfold keyOf in Y2. injection Y2 as Y2 Y3.
      rewrite <- Y3, (n_sent _ _ I d y (or_introl Y1) Y2) in X. discriminate.
    - intros d i H. apply (n_new _ _ I). destruct (HO i) as [X|(_ & X & _)]; congruence.
    - intros; apply (n_ok _ _ I).
    - intros d who i o H. destruct (Bool.bool_dec d c) as [->|ND].
      + rewrite put_eq in H. subst nb. destruct HN as (N1 & N2 & N3 & _). split; [assumption|]. exists f. auto.
      + rewrite put_neq in H by assumption. rewrite CN by assumption. destruct (n_busy _ _ I d who i o H) as (N1 & g & N2). split; [rewrite OW; assumption|eauto].
    - intros d g H1 H2 H3. destruct (Bool.bool_dec d c) as [->|ND].
      + rewrite put_eq in H1. subst nb. rewrite EC in H2. injection H2 as <-. auto.
      + rewrite put_neq in H1 by assumption. rewrite CN in H2 by assumption. rewrite ON; [apply (n_free _ _ I d); assumption|].
        apply (n_sent _ _ I d); auto.
    - intros d x H. destruct (HC d x H) as [-> ->]. destruct (n_cs _ _ I d x H) as [N1 N2]. split; [rewrite OW; congruence|assumption].
    - intros d x H. destruct (streamWriter (cs h d x)) eqn:ESW; [destruct (HC d x ESW) as [_ ->]; apply (n_fl _ _ I); auto|].
      destruct H as [H|(i & o & H)]; [discriminate|]. destruct (Bool.bool_dec d c) as [->|ND].
      + rewrite put_eq in H. subst nb. tauto.
      + rewrite put_neq in H by assumption. destruct (HB d x i o ND H) as [_ ->]. apply (n_fl _ _ I). eauto.
    - intros d x i o H. destruct (Bool.bool_dec d c) as [->|ND].
      + rewrite put_eq in H. subst nb. tauto.
      + rewrite put_neq in H by assumption. destruct (HB d x i o ND H) as [-> ->]. destruct (n_cb _ _ I d x i o H) as (N1 & N2 & N3).
        split; [rewrite OW; congruence|auto].
  Qed.

  Lemma cs_after : forall s ok o, streamWriter (fst (fst (csStep s (toSop ok o)))) = true ->
    streamWriter s = true \/ (ok = true /\ exists cmd b fin, o = OMsg cmd b fin).
  Proof.
    intros s ok o. destruct o as [cmd b fin| |]; cbn [toSop]; unfold csStep; destruct (sclosed s); cbn; auto; destruct (streamWriter s) eqn:E; cbn; auto; try congruence.
    destruct ok; cbn; [right; split; [reflexivity|eauto]|discriminate].
  Qed.
  Lemma endedIn_snoc : forall l e, endedIn l -> endedIn (l ++ [e]).
  Proof. intros l e (o & f & H1 & H2). exists o, f. split; [apply in_app_iff; auto|assumption]. Qed.

  (** the writer's step *)
  Lemma wstep_inv : forall h d p', HInv lim h -> pstep lim (hp h) (PLoc d LWStep) = Some p' -> HInv lim (settled d (hp h) p' (w_hp p' h)).
  Proof.
    intros h d p' I E.
    assert (HD : GotOK (own h) (rlog h) p') by (eapply got_inv; [exact I|exact E|auto|discriminate]).
    assert (OTH : forall b, b <> d -> cand p' b = cand (hp h) b /\ sent p' b = sent (hp h) b).
    { intros b NB. destruct (pair_step lim _ _ _ (hpair h I) E b) as [? ? ? ? ? EL|? ? EL|_ _ EC ES EW|f EL]; try discriminate EL; auto. congruence. }
    destruct (pair_step lim _ _ _ (hpair h I) E d) as [? ? ? ? ? EL|? ? EL|_ _ EC ES EW|f _ EC EC' EW ES]; try discriminate EL.
    - unfold settled. unfold wlen in EW. rewrite EW, Nat.ltb_irrefl. apply (same_inv h _ p' (rlog h) I E); [|exact HD].
      intro b. destruct (Bool.bool_dec b d) as [->|NB]; auto.
    - unfold settled. unfold wlen in EW. rewrite (proj2 (Nat.ltb_lt _ _) EW). clear EW.
      destruct (given_step h _ p' (gen h) I E ltac:(intro; lia) ltac:(discriminate)) as [A B]. destruct HD as [G1 G2].
      assert (RE : reachable (pstep lim) pinit p') by (eapply reachable_step; [apply (n_pair _ _ I)|exact E]).
      cbn [busy w_hp]. destruct (busy h d) as [[[who i] o]|] eqn:EB.
      + destruct (n_busy _ _ I d who i o EB) as (OI & f' & EC2 & KF & SF). rewrite EC in EC2. injection EC2 as <-.
        assert (SE : exists ok fo, sent p' d = sent (hp h) d ++ (if ok : bool then [f] else []) /\ fo = (if ok then Some f else None) /\
          (length (sent (hp h) d) <? length (sent p' d))%nat = ok /\ (if ok then nth_error (sent p' d) (length (sent (hp h) d)) else None) = fo).
        { destruct ES as [ES|ES]; rewrite ES.
          - exists false, None. rewrite app_nil_r, Nat.ltb_irrefl. auto.
          - exists true, (Some f). rewrite app_length. cbn [length]. repeat split; [apply Nat.ltb_lt; lia|].
            rewrite nth_error_app2 by lia. rewrite Nat.sub_diag. reflexivity. }
        destruct SE as (ok & fo & ES' & -> & -> & ->). clear ES.
        set (e := (o, if ok then Some f else None)).
        assert (LK : forall b j, own h j <> None -> kfilter (false, j) (sent p' b) = frOf (put (hlog h) d (upd (hlog h d) i (hlog h d i ++ [e])) b j)).
        { intros b j HJ. destruct (Bool.bool_dec b d) as [->|NB].
          - rewrite put_eq, ES', kfilter_app, (n_log _ _ I d j HJ). destruct (N.eq_dec j i) as [->|NJ].
            + rewrite upd_eq, frOf_app. f_equal. unfold e. destruct ok; [|reflexivity]. unfold kfilter, frOf. cbn. rewrite KF, keqb_refl. reflexivity.
            + rewrite upd_neq by assumption. destruct ok; [|apply app_nil_r]. unfold kfilter. cbn. rewrite KF.
              rewrite keqb_neq by congruence. apply app_nil_r.
          - rewrite put_neq by assumption. destruct (OTH b NB) as [_ ->]. apply (n_log _ _ I); assumption. }
        assert (LO : forall b j, LogOK (put (hlog h) d (upd (hlog h d) i (hlog h d i ++ [e])) b j)).
        { intros b j. destruct (Bool.bool_dec b d) as [->|NB]; [|rewrite put_neq by assumption; apply (n_ok _ _ I)].
          rewrite put_eq. destruct (N.eq_dec j i) as [->|NJ]; [|rewrite upd_neq by assumption; apply (n_ok _ _ I)].
          rewrite upd_eq. unfold e. apply LogOK_snoc; [apply (n_ok _ _ I)|]. destruct ok; [exact SF|exact Logic.I]. }
        assert (EI : forall b j, endedIn (hlog h b j) -> endedIn (put (hlog h) d (upd (hlog h d) i (hlog h d i ++ [e])) b j)).
        { intros b j H. destruct (Bool.bool_dec b d) as [->|NB]; [|rewrite put_neq by assumption; assumption].
          rewrite put_eq. destruct (N.eq_dec j i) as [->|NJ]; [rewrite upd_eq; apply endedIn_snoc; assumption|rewrite upd_neq by assumption; assumption]. }
        assert (FIN : forall c2, (forall b x, streamWriter (c2 b x) = true -> streamWriter (cs h b x) = true \/
             (b = d /\ who = Some x /\ ok = true /\ exists cmd b fin, o = OMsg cmd b fin)) ->
           (forall b x, b <> d -> c2 b x = cs h b x) ->
           HInv lim (mkHst p' (gen h) (own h) c2 (cid h) (cfl h) (put (busy h) d None) (put (hlog h) d (upd (hlog h d) i (hlog h d i ++ [e]))) (rlog h))).
        { intros c2 HC2 HC3. constructor; cbn [hp gen own cs cid cfl busy hlog rlog]; auto; try apply I.
          - intros b j HJ. destruct (Bool.bool_dec b d) as [->|NB]; [|rewrite put_neq by assumption; apply (n_new _ _ I); assumption].
            rewrite put_eq, upd_neq by congruence. apply (n_new _ _ I); assumption.
          - intros b w j o' H. destruct (Bool.bool_dec b d) as [->|NB]; [rewrite put_eq in H; discriminate|]. rewrite !put_neq in * by assumption.
            destruct (OTH b NB) as [-> _]. apply (n_busy _ _ I b w j o' H).
          - intros b g H1 H2. destruct (Bool.bool_dec b d) as [->|NB]; [congruence|]. rewrite put_neq in H1 by assumption.
            destruct (OTH b NB) as [X _]. rewrite X in H2. apply (n_free _ _ I b); assumption.
          - intros b x H. destruct (HC2 b x H) as [X|(-> & -> & -> & cmd & pay & fin & ->)].
            + destruct (n_cs _ _ I b x X) as [N1 N2]. split; [assumption|auto].
            + destruct (n_cb _ _ I d x i _ EB) as (N1 & N2 & N3). split; [rewrite N2; assumption|]. intro HDn. rewrite N2.
              destruct (streamWriter (cs h d x)) eqn:ESW.
              * destruct (n_cs _ _ I d x ESW) as [_ N4]. rewrite N2 in N4. apply EI. auto.
              * destruct (N3 eq_refl) as (cmd' & b' & fin' & X & N5). injection X as -> -> ->. rewrite put_eq, upd_eq.
                exists (OMsg cmd' b' fin'), f. split; [apply in_app_iff; right; left; reflexivity|cbn; auto].
          - intros b x H. apply (n_fl _ _ I). destruct H as [H|(j & o' & H)].
            + destruct (HC2 b x H) as [X|(-> & -> & _)]; [auto|right; eauto].
            + destruct (Bool.bool_dec b d) as [->|NB]; [rewrite put_eq in H; discriminate|]. rewrite put_neq in H by assumption. eauto.
          - intros b x j o' H. destruct (Bool.bool_dec b d) as [->|NB]; [rewrite put_eq in H; discriminate|]. rewrite put_neq in H by assumption.
            rewrite HC3 by assumption. apply (n_cb _ _ I b x j o' H). }
        destruct who as [x|].
        * apply FIN; cbn [cs w_hp].
          -- intros b y. destruct (Bool.bool_dec b d) as [->|NB]; [|rewrite put_neq by assumption; auto]. rewrite put_eq.
             destruct (N.eq_dec y x) as [->|NY]; [|rewrite upd_neq by assumption; auto]. rewrite upd_eq. intro H. apply cs_after in H. destruct H as [H|(H1 & H2)]; auto 10.
          -- intros b y NB. rewrite put_neq by assumption. reflexivity.
        * apply FIN; cbn [cs w_hp]; auto.
      + constructor; cbn [hp gen own cs cid cfl busy hlog rlog w_hp]; auto; try apply I.
        * intros b j HJ. destruct (Bool.bool_dec b d) as [->|NB]; [|destruct (OTH b NB) as [_ ->]; apply (n_log _ _ I); assumption].
          destruct ES as [-> | ->]; [apply (n_log _ _ I); assumption|]. rewrite kfilter_app, (n_log _ _ I d j HJ). unfold kfilter. cbn.
          rewrite keqb_neq; [apply app_nil_r|]. intro K. unfold keyOf in K. injection K as K1 K2. apply HJ. rewrite <- K2. apply (n_free _ _ I d f EB EC K1).
        * intros b w j o' H. destruct (Bool.bool_dec b d) as [->|NB]; [congruence|]. destruct (OTH b NB) as [-> _]. apply (n_busy _ _ I b w j o' H).
        * intros b g H1 H2. destruct (Bool.bool_dec b d) as [->|NB]; [congruence|].
          destruct (OTH b NB) as [X _]. rewrite X in H2. apply (n_free _ _ I b); assumption.
  Qed.

  (** a Sender's closed flag *)
  Lemma cs_inv : forall h c2, HInv lim h -> (forall b x, streamWriter (c2 b x) = streamWriter (cs h b x)) ->
    HInv lim (mkHst (hp h) (gen h) (own h) c2 (cid h) (cfl h) (busy h) (hlog h) (rlog h)).
  Proof.
    intros h c2 I HC. constructor; cbn [hp gen own cs cid cfl busy hlog rlog]; try apply I.
    - intros b x. rewrite HC. apply (n_cs _ _ I).
    - intros b x. rewrite HC. apply (n_fl _ _ I).
    - intros b x. rewrite HC. apply (n_cb _ _ I).
  Qed.
  Lemma taken_app : forall a b, taken (a ++ b) = taken a ++ taken b.
  Proof. intros. unfold taken. apply flat_map_app. Qed.

  Lemma chanOf_some : forall h d s v, chanOf h d s = Some v -> s < next (ep (hp h) d) /\ spush (heap (ep (hp h) d) s) = false /\ own h (sid (heap (ep (hp h) d) s)) = Some v.
  Proof.
    intros h d s v H. unfold chanOf in H. destruct (s <? _) eqn:E1; [|discriminate]. apply N.ltb_lt in E1.
    destruct (spush _) eqn:E2; [discriminate|]. cbn in H. auto.
  Qed.

  (** what a Receive adds *)
  Lemma rlog_ok : forall h d s e p', HInv lim h ->
    s < next (ep p' d) -> spush (heap (ep p' d) s) = false -> own h (sid (heap (ep p' d) s)) <> None ->
    got (heap (ep p' d) s) = taken (rlog h d s ++ [e]) -> taken (rlog h d s ++ [e]) <> [] ->
    (forall b z, (b, z) <> (d, s) -> z < next (ep p' b) -> spush (heap (ep p' b) z) = false -> own h (sid (heap (ep p' b) z)) <> None ->
      exists rest, got (heap (ep p' b) z) = taken (rlog h b z) ++ rest /\ (taken (rlog h b z) = [] -> rlog h b z = [] /\ (length rest <= 1)%nat) /\
       (taken (rlog h b z) <> [] -> rest = [])) ->
    (forall b z, (b, z) <> (d, s) -> next (ep p' b) <= z \/ spush (heap (ep p' b) z) = true \/ own h (sid (heap (ep p' b) z)) = None -> rlog h b z = []) ->
    GotOK (own h) (put (rlog h) d (upd (rlog h d) s (rlog h d s ++ [e]))) p'.
  Proof.
    intros h d s e p' I H1 H2 H3 H4 H5 H6 H7. split.
    - intros b z Z1 Z2 Z3. destruct (Bool.bool_dec b d) as [->|NB].
      + rewrite put_eq. destruct (N.eq_dec z s) as [->|NZ].
        * rewrite upd_eq. exists []. rewrite app_nil_r. split; [assumption|]. split; [intro; contradiction|auto].
        * rewrite upd_neq by assumption. apply H6; auto. congruence.
      + rewrite put_neq by assumption. apply H6; auto. congruence.
    - intros b z Z. destruct (Bool.bool_dec b d) as [->|NB].
      + rewrite put_eq. destruct (N.eq_dec z s) as [->|NZ].
        * exfalso. destruct Z as [Z|[Z|Z]]; [lia|congruence|contradiction].
        * rewrite upd_neq by assumption. apply H7; auto. congruence.
      + rewrite put_neq by assumption. apply H7; auto. congruence.
  Qed.

  Lemma hinv_init : HInv lim hinit.
  Proof.
    constructor; unfold hinit; cbn [hp gen own cs cid cfl busy hlog rlog]; try discriminate; auto.
    - exists []. reflexivity.
    - intro. lia.
    - intros d f [H|H]; [contradiction|discriminate].
    - intros d i a o f b E. destruct a; discriminate E.
    - intros d s H1 H2 H3. elim H3. reflexivity.
  Qed.

  Lemma hinv_step : forall h l h', HInv lim h -> hstep lim h l = Some h' -> HInv lim h'.
  Proof.
    intros h l h' I E. destruct l as [c x o|d s o|d s want|c|c id cmd fl ce payload|l].
    - (* HSend *)
      unfold hstep in E. destruct (match o with ORet => true | _ => false end) eqn:EO; [discriminate|].
      destruct (match busy h c with Some (Some x', _, _) => N.eqb x' x | _ => false end); [discriminate|].
      destruct (csStep (cs h c x) (toSop true o)) as [[s' w] r] eqn:EC.
      assert (WN : forall p' f i w, pstep lim (hp h) (PWrite c (cid h c x) (fst w) f true (snd w)) = Some p' -> i = cid h c x -> IsPush f = false ->
        streamWriter (cs h c x) = true -> shape (hlog h c i) o (mkf i (fst w) f (snd w)) ->
        HInv lim (w_busy c (Some (Some x, i, o)) (w_hp p' h))).
      { intros p' f i [cmd b] EP -> NP SW SH. cbn [fst snd] in *. destruct (n_cs _ _ I c x SW) as [N1 N2].
        assert (GI : given (gen h) (cid h c x) = true) by (apply (n_own _ _ I); congruence).
        unfold w_busy, w_hp. cbn [hp gen own cs cid cfl busy hlog rlog].
        eapply (write_inv h _ p' c (mkf (cid h c x) cmd f b) (Some (Some x, cid h c x, o))); try exact EP; auto.
        - left. eauto 10.
        - destruct (pair_step lim _ _ _ (hpair h I) EP c) as [? ? ? ? ? EL EC'|? ? EL|X _|? EL]; try discriminate EL; [injection EL; intros; subst; exact EC'|].
          elim (X _ _ _ _ _ eq_refl).
        - intro b'. split; [lia|apply (n_gen _ _ I)].
        - intros d0 id0 cmd0 fl0 ce0 pay0 X. injection X; intros; subst; auto.
        - split; [congruence|]. split; [unfold keyOf; cbn; congruence|]. split; [assumption|]. split; [assumption|]. split; [reflexivity|].
          destruct (n_fl _ _ I c x (or_introl SW)). split; [assumption|]. split; [assumption|]. congruence. }
      destruct o as [cmd b fin| |]; [| |discriminate EO]; cbn [toSop] in EC; unfold csStep in EC; destruct (sclosed (cs h c x)) eqn:ESC.
      + injection EC as <- <- <-. injection E as <-. apply cs_inv; [assumption|]. intros b' y. destruct (Bool.bool_dec b' c) as [->|NB]; [|rewrite put_neq by assumption; reflexivity].
        rewrite put_eq. destruct (N.eq_dec y x) as [->|NY]; [rewrite upd_eq|rewrite upd_neq by assumption]; reflexivity.
      + destruct (streamWriter (cs h c x)) eqn:SW; cbn [negb] in EC; injection EC as <- <- <-.
        * destruct (pstep lim (hp h) (PWrite c (cid h c x) cmd (cfl h c x) true b)) as [p'|] eqn:EP; [|discriminate]. injection E as <-.
          destruct (n_cs _ _ I c x SW) as [N1 N2]. destruct (n_fl _ _ I c x (or_introl SW)) as [F1 F2].
          apply (WN p' (cfl h c x) (cid h c x) (cmd, b)); auto. cbn. repeat split; auto.
        * cbn [negb] in E. destruct (2 ^ 63 <=? gen h c + 1) eqn:EG; [discriminate|]. apply N.leb_gt in EG.
          pose proof (given_fresh (gen h) c EG) as [F1 F2]. rewrite (nextID_val c _ EG) in *. cbn [snd] in F1, F2.
          set (i := if c then 2 * (gen h c + 1) + 1 else 2 * (gen h c + 1)) in *. match type of E with context [PWrite c i cmd ?z false b] => set (fl := z) in * end.
          destruct (pstep lim (hp h) (PWrite c i cmd fl false b)) as [p'|] eqn:EP; [|discriminate]. injection E as <-.
          assert (FL : IsRst fl = false /\ IsPush fl = false /\ (IsDone fl = true -> fin = true)) by (unfold fl; destruct fin; vm_compute; auto).
          destruct FL as (FL1 & FL2 & FL3).
          eapply (write_inv h _ p' c (mkf i cmd fl b) (Some (Some x, i, OMsg cmd b fin))); try exact EP; auto.
          -- left. eauto 10.
          -- destruct (pair_step lim _ _ _ (hpair h I) EP c) as [? ? ? ? ? EL EC'|? ? EL|X _|? EL]; try discriminate EL; [injection EL; intros; subst; exact EC'|].
             elim (X _ _ _ _ _ eq_refl).
          -- intro b'. pose proof (n_gen _ _ I b'). destruct (Bool.bool_dec b' c) as [->|NB]; [rewrite put_eq; lia|rewrite put_neq by assumption; lia].
          -- intro j. destruct (N.eq_dec j i) as [->|NJ]; [rewrite upd_eq; right; split; [assumption|split; [discriminate|assumption]]|rewrite upd_neq by assumption; auto].
          -- intros d0 id0 cmd0 fl0 ce0 pay0 X. injection X; intros; subst; auto.
          -- rewrite !put_eq, !upd_eq. split; [discriminate|]. split; [unfold keyOf; cbn; congruence|]. split; [cbn; repeat split; auto|]. repeat split; auto.
             intros _. do 3 eexists. split; [reflexivity|assumption].
          -- intros b' y H. destruct (Bool.bool_dec b' c) as [->|NB]; [|rewrite !put_neq by assumption; auto]. rewrite !put_eq.
             rewrite !upd_neq by congruence. auto.
          -- intros b' y j o NB H. rewrite !put_neq by assumption. auto.
      + injection EC as <- <- <-. injection E as <-. apply cs_inv; [assumption|]. intros b' y. destruct (Bool.bool_dec b' c) as [->|NB]; [|rewrite put_neq by assumption; reflexivity].
        rewrite put_eq. destruct (N.eq_dec y x) as [->|NY]; [rewrite upd_eq|rewrite upd_neq by assumption]; reflexivity.
      + destruct (streamWriter (cs h c x)) eqn:SW; cbn [negb] in EC; injection EC as <- <- <-.
        * destruct (pstep lim (hp h) (PWrite c (cid h c x) 0 StreamRstFlag true [])) as [p'|] eqn:EP; [|discriminate]. injection E as <-.
          apply (WN p' StreamRstFlag (cid h c x) (0, [])); auto. reflexivity.
        * injection E as <-. apply cs_inv; [assumption|]. intros b' y. destruct (Bool.bool_dec b' c) as [->|NB]; [|rewrite put_neq by assumption; reflexivity].
          rewrite put_eq. destruct (N.eq_dec y x) as [->|NY]; [rewrite upd_eq; cbn; congruence|rewrite upd_neq by assumption; reflexivity].
    - (* HReply *)
      unfold hstep in E. destruct (chanOf h d s) as [[c y]|] eqn:EC; [|discriminate].
      destruct (chanOf_some _ _ _ _ EC) as (C1 & C2 & C3). destruct (_ || _ || _ || _) eqn:EG in E; [discriminate|].
      assert (GI : given (gen h) (sid (heap (ep (hp h) d) s)) = true) by (apply (n_own _ _ I); congruence).
      assert (WN : forall p' cmd f b, pstep lim (hp h) (PWrite d (sid (heap (ep (hp h) d) s)) cmd f false b) = Some p' -> IsPush f = false ->
        shape (hlog h d (sid (heap (ep (hp h) d) s))) o (mkf (sid (heap (ep (hp h) d) s)) cmd f b) ->
        HInv lim (w_busy d (Some (None, sid (heap (ep (hp h) d) s), o)) (w_hp p' h))).
      { intros p' cmd f b EP NP SH. unfold w_busy, w_hp. cbn [hp gen own cs cid cfl busy hlog rlog].
        eapply (write_inv h _ p' d (mkf (sid (heap (ep (hp h) d) s)) cmd f b)); try exact EP; auto.
        - left. eauto 10.
        - destruct (pair_step lim _ _ _ (hpair h I) EP d) as [? ? ? ? ? EL EC'|? ? EL|X _|? EL]; try discriminate EL; [injection EL; intros; subst; exact EC'|].
          elim (X _ _ _ _ _ eq_refl).
        - intro b'. split; [lia|apply (n_gen _ _ I)].
        - intros d0 id0 cmd0 fl0 ce0 pay0 X. injection X; intros; subst; auto.
        - split; [congruence|]. split; [unfold keyOf; cbn; congruence|]. split; [assumption|exact Logic.I]. }
      destruct o as [cmd b fin| |]; cbn [toSop ssStep fst] in E.
      + match type of E with option_map _ ?e = _ => destruct e as [p'|] eqn:EP; [|discriminate E] end. injection E as <-.
        eapply WN; [exact EP|destruct fin; reflexivity|]. cbn. repeat split; destruct fin; try reflexivity; vm_compute; auto.
      + match type of E with option_map _ ?e = _ => destruct e as [p'|] eqn:EP; [|discriminate E] end. injection E as <-.
        eapply WN; [exact EP|reflexivity|reflexivity].
      + rewrite !orb_true_r in EG. discriminate.
    - (* HRecv *)
      unfold hstep in E. destruct (chanOf h d s) as [v|] eqn:EC; [|discriminate]. destruct (chanOf_some _ _ _ _ EC) as (C1 & C2 & C3).
      assert (C4 : own h (sid (heap (ep (hp h) d) s)) <> None) by congruence.
      destruct (n_got _ _ I d s C1 C2 C4) as (rest & G1 & G2 & G3).
      assert (HP : forall e, got (heap (ep (hp h) d) s) = taken (rlog h d s ++ [e]) -> taken (rlog h d s ++ [e]) <> [] -> HInv lim (addGot d s e h)).
      { intros e X1 X2. destruct (rlog_ok h d s e (hp h) I C1 C2 C4 X1 X2) as [Y1 Y2].
        { intros b z _. apply (n_got _ _ I). }
        { intros b z _. apply (n_old _ _ I). }
        constructor; cbn [hp gen own cs cid cfl busy hlog rlog addGot]; auto; apply I. }
      destruct (rlog h d s) as [|e0 el] eqn:ER.
      + destruct (got (heap (ep (hp h) d) s)) as [|f fs] eqn:EG; [discriminate|]. injection E as <-. apply HP; [|discriminate].
        cbn in G1 |- *. subst rest. destruct (G2 eq_refl) as [_ L]. destruct fs; [reflexivity|cbn in L; lia].
      + assert (TN : taken (e0 :: el) <> []) by (intro X; destruct (G2 X) as [Y _]; discriminate Y).
        rewrite (G3 TN), app_nil_r in G1. destruct (chClosed (heap (ep (hp h) d) s)) eqn:ECC.
        * injection E as <-. apply HP.
          -- rewrite taken_app, app_nil_r. exact G1.
          -- rewrite taken_app, app_nil_r. exact TN.
        * destruct (rpc (ep (hp h) d)) as [| | | | | | | | | | | | | | | |f s1| |] eqn:ERP; try discriminate E.
          destruct (N.eqb_spec s1 s) as [->|NE]; [|discriminate].
          destruct (pstep lim (hp h) (PLoc d LDeliver)) as [p'|] eqn:EP; [|discriminate]. injection E as <-.
          unfold addGot, w_hp. cbn [hp gen own cs cid cfl busy hlog rlog]. apply (same_inv h (PLoc d LDeliver) p' _ I EP).
          { intro b. destruct (pair_step lim _ _ _ (hpair h I) EP b) as [? ? ? ? ? EL|? ? EL|_ _ EC1 ES EW|g EL]; try discriminate EL. auto. }
          assert (EE : ep p' = put (ep (hp h)) d (w_rpc (RCl1 f s KStart) (modS s (fun x => set_got (got x ++ [f]) x) (ep (hp h) d)))).
          { unfold pstep, sstep in EP. rewrite ERP, ECC in EP. destruct (panicked (ep (hp h) d)); [discriminate|]. injection EP as <-. apply adv_ep. }
          assert (HE : forall b z, (b, z) <> (d, s) -> heap (ep p' b) z = heap (ep (hp h) b) z).
          { intros b z N. rewrite EE. destruct (Bool.bool_dec b d) as [->|NB]; [rewrite put_eq; cbn; rewrite upd_neq by congruence|rewrite put_neq by assumption]; reflexivity. }
          assert (NX : forall b, next (ep p' b) = next (ep (hp h) b)).
          { intro b. rewrite EE. destruct (Bool.bool_dec b d) as [->|NB]; [rewrite put_eq|rewrite put_neq by assumption]; reflexivity. }
          assert (HS : heap (ep p' d) s = set_got (got (heap (ep (hp h) d) s) ++ [f]) (heap (ep (hp h) d) s)).
          { rewrite EE, put_eq. cbn. rewrite upd_eq. reflexivity. }
          apply rlog_ok; auto.
          -- rewrite NX. assumption.
          -- rewrite HS. assumption.
          -- rewrite HS. assumption.
          -- rewrite HS, ER, taken_app. cbn. rewrite G1. reflexivity.
          -- rewrite ER, taken_app. intro X. apply app_eq_nil in X. destruct X. contradiction.
          -- intros b z N. rewrite NX, HE by assumption. apply (n_got _ _ I).
          -- intros b z N. rewrite NX, HE by assumption. apply (n_old _ _ I).
    - (* HNew *)
      unfold hstep in E. destruct (2 ^ 63 <=? gen h c + 1) eqn:EG; [discriminate|]. apply N.leb_gt in EG. injection E as <-. rewrite (nextID_val c _ EG). cbn [fst].
      assert (GM : forall i, given (gen h) i = true -> given (put (gen h) c (gen h c + 1)) i = true).
      { intro i. apply given_mono. intro b. destruct (Bool.bool_dec b c) as [->|NB]; [rewrite put_eq|rewrite put_neq by assumption]; lia. }
      constructor; cbn [hp gen own cs cid cfl busy hlog rlog]; try apply I.
      + intro b. destruct (Bool.bool_dec b c) as [->|NB]; [rewrite put_eq; lia|rewrite put_neq by assumption; apply (n_gen _ _ I)].
      + intros d f H1 H2. apply GM, (n_sent _ _ I d f H1 H2).
      + intros d s H1 H2. apply GM, (n_strm _ _ I d s H1 H2).
      + intros i H. apply GM, (n_own _ _ I i H).
    - (* HOther *)
      unfold hstep in E. destruct (_ || _) eqn:EG; [|discriminate].
      destruct (pstep lim (hp h) (PWrite c id cmd fl ce payload)) as [p'|] eqn:EP; [|discriminate]. injection E as <-.
      apply orb_true_iff in EG. unfold w_busy, w_hp. cbn [hp gen own cs cid cfl busy hlog rlog].
      eapply (write_inv h _ p' c (mkf id cmd fl payload)); try exact EP; auto.
      + left. eauto 10.
      + destruct (pair_step lim _ _ _ (hpair h I) EP c) as [? ? ? ? ? EL EC'|? ? EL|X _|? EL]; try discriminate EL; [injection EL; intros; subst; exact EC'|].
        elim (X _ _ _ _ _ eq_refl).
      + intro b'. split; [lia|apply (n_gen _ _ I)].
      + intros d0 id0 cmd0 fl0 ce0 pay0 X. injection X; intros; subst. destruct EG as [EG|EG]; [congruence|]. apply andb_true_iff in EG. apply EG.
      + cbn. intro. destruct EG as [EG|EG]; [congruence|]. apply andb_true_iff in EG. destruct EG as [_ EG]. destruct (own h id); [discriminate|reflexivity].
    - (* HPair *)
      assert (PASS : forall p', pstep lim (hp h) l = Some p' -> (forall d, cand p' d = cand (hp h) d /\ sent p' d = sent (hp h) d) ->
        (forall d f s, l = PLoc d LDeliver -> rpc (ep (hp h) d) = RSend f s -> chanOf h d s = None) -> HInv lim (w_hp p' h)).
      { intros p' EP H1 H2. eapply same_inv; [exact I|exact EP|exact H1|]. eapply got_inv; [exact I|exact EP|auto|exact H2]. }
      assert (QUIET : forall p', pstep lim (hp h) l = Some p' -> (forall d id cmd fl ce pay, l <> PWrite d id cmd fl ce pay) -> (forall d, l <> PLoc d LWriteRst) -> (forall d, l <> PLoc d LWStep) ->
         forall d, cand p' d = cand (hp h) d /\ sent p' d = sent (hp h) d /\ wlen p' d = wlen (hp h) d).
      { intros p' EP N1 N2 N3 d. destruct (pair_step lim _ _ _ (hpair h I) EP d) as [? ? ? ? ? EL|? ? EL|_ _ EC1 ES EW|g EL]; auto.
        - elim (N1 _ _ _ _ _ _ EL).
        - elim (N2 _ EL).
        - elim (N3 _ EL). }
      assert (SET : forall d p', pstep lim (hp h) l = Some p' -> (forall d id cmd fl ce pay, l <> PWrite d id cmd fl ce pay) -> (forall d, l <> PLoc d LWriteRst) -> (forall d, l <> PLoc d LWStep) ->
         (forall d, l <> PLoc d LDeliver) -> HInv lim (settled d (hp h) p' (w_hp p' h))).
      { intros d p' EP N1 N2 N3 N4. pose proof (QUIET p' EP N1 N2 N3) as QU. unfold settled. destruct (QU d) as (_ & _ & W). unfold wlen in W. rewrite W, Nat.ltb_irrefl.
        apply PASS; auto. intro b. destruct (QU b) as (A1 & A2 & _). auto. intros b f s X. elim (N4 _ X). }
      assert (PAS2 : forall p', pstep lim (hp h) l = Some p' -> (forall d id cmd fl ce pay, l <> PWrite d id cmd fl ce pay) -> (forall d, l <> PLoc d LWriteRst) -> (forall d, l <> PLoc d LWStep) ->
         (forall d f s, l = PLoc d LDeliver -> rpc (ep (hp h) d) = RSend f s -> chanOf h d s = None) -> HInv lim (w_hp p' h)).
      { intros p' EP N1 N2 N3 N4. pose proof (QUIET p' EP N1 N2 N3) as QU. apply PASS; auto. intro b. destruct (QU b) as (A1 & A2 & _). auto. }
      unfold hstep in E. destruct l as [d l|c id cmd fl ce payload|c n|c]; [|discriminate| |].
      + destruct l as [f| | | | |id fl ce| | | | |s0| |s0].
        all: try (match type of E with option_map _ ?e = _ => destruct e as [p'|] eqn:EP; [|discriminate E] end; injection E as <-;
                  first [apply SET; [reflexivity|discriminate|discriminate|discriminate|discriminate] | apply wstep_inv; [assumption|exact EP]]).
        * (* LDeliver *)
          destruct (rpc (ep (hp h) d)) as [| | | | | | | | | | | | | | | |f s1| |] eqn:ERP; try discriminate E.
          destruct (chanOf h d s1) eqn:EC; [discriminate|].
          match type of E with option_map _ ?e = _ => destruct e as [p'|] eqn:EP; [|discriminate E] end. injection E as <-.
          apply PAS2; try discriminate; auto. intros d' f' s' X. injection X as <-. rewrite ERP. intro X. injection X as <- <-. assumption.
        * (* LWriteRst *)
          unfold rstId in E. destruct (rstq (ep (hp h) d)) as [|s0 q] eqn:EQ; [discriminate|].
          match type of E with option_map _ ?e = _ => destruct e as [p'|] eqn:EP; [|discriminate E] end. injection E as <-.
          destruct (i_q _ (hside h d I) s0) as [Q1 Q2]; [rewrite EQ; left; reflexivity|].
          pose proof (n_strm _ _ I d s0 Q1 Q2) as GI.
          unfold w_busy, w_hp. cbn [hp gen own cs cid cfl busy hlog rlog].
          eapply (write_inv h _ p' d (mkf (sid (heap (ep (hp h) d) s0)) 0 StreamRstFlag [])); try exact EP; auto.
          -- destruct (pair_step lim _ _ _ (hpair h I) EP d) as [? ? ? ? ? EL|s1 q1 EL EQ1 EC'|_ X|? EL]; try discriminate EL; [|elim X; reflexivity].
             rewrite EQ in EQ1. injection EQ1 as <- <-. exact EC'.
          -- intro b'. split; [lia|apply (n_gen _ _ I)].
          -- discriminate.
          -- destruct (own h (sid (heap (ep (hp h) d) s0))) eqn:EOW; [|auto]. split; [congruence|]. split; [reflexivity|]. split; [reflexivity|exact Logic.I].
        * (* LHEnd *)
          assert (X : exists p', pstep lim (hp h) (PLoc d (LHEnd s0)) = Some p' /\ h' = w_hp p' h).
          { destruct (chanOf h d s0) as [[c y]|]; [destruct (Bool.eqb c d); [discriminate|]|];
            (match type of E with option_map _ ?e = _ => destruct e as [p'|] eqn:EP; [|discriminate E] end); injection E as <-; eauto. }
          destruct X as (p' & EP & ->). apply PAS2; try discriminate; auto.
      + match type of E with option_map _ ?e = _ => destruct e as [p'|] eqn:EP; [|discriminate E] end. injection E as <-. apply PAS2; try discriminate; auto.
      + match type of E with option_map _ ?e = _ => destruct e as [p'|] eqn:EP; [|discriminate E] end. injection E as <-. apply PAS2; try discriminate; auto.
  Qed.

  Lemma reach_h : forall h, reachable (hstep lim) hinit h -> HInv lim h.
  Proof. intros h R. eapply reachable_inv; [apply hinv_init|apply hinv_step|exact R]. Qed.
End H.
