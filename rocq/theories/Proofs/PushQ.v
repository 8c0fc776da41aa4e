(** Invariants of Model/Push.v. *)
From Coq Require Import ZifyBool ZifyNat ZifyN.
From Verif Require Import Model.GoBase Model.Machine Model.Qrpc Model.FrameWriter Model.Reader Model.FrameReader Model.Ids Model.Stream Model.Pair Model.Call Model.Push
  Spec.FrameSpec Spec.StreamSpec Proofs.StreamP Proofs.StreamI Proofs.StreamQ Proofs.StreamR Proofs.ReaderP Proofs.FrameReaderP Proofs.CodecP Proofs.PairP Proofs.CallP Proofs.CallQ Proofs.CallR Proofs.CallS Proofs.PushP.
From Verif Require Model.Response Proofs.ResponseP Proofs.RespE.
Open Scope N_scope.

(** the client writes no frame that is a push and a reset at once *)
Definition okl (l : clabel) : bool :=
  match l with
  | JCall stream _ fl _ => negb (prf (if stream then ToStream fl else ToNonStream fl))
  | JOther _ _ fl _ _ => negb (prf fl)
  | _ => true
  end.

Definition retp (rt : option Frame) : list Frame := match rt with Some f => if pmsg f then [f] else [] | None => [] end.

(** *** the reader gets done with a pushed message by itself *)
Section G.
  Variable c : bool.
  Definition pushing (st : sst) : Prop :=
    match rpc st with
    | RGet f => IsPush (fFlags f) = true
    | RBind _ s | RCl1 _ s _ | RCl2 s _ | RCl3 s _ | RCl4 s _ | RAd1 s _ | RAd2 s _ | RAd3 s _ | RAd4 s _ => spush (heap st s) = true
    | _ => False
    end.
  Definition left_ (st : sst) : nat :=
    match rpc st with
    | RGet _ => 10 | RBind _ _ => 9 | RCl1 _ _ _ => 8 | RCl2 _ _ => 7 | RCl3 _ _ => 6 | RCl4 _ _ => 5 | RAd1 _ _ => 4 | RAd2 _ _ => 3 | RAd3 _ _ => 2 | RAd4 _ _ => 1
    | _ => 0
    end%nat.

  Lemma push_go : forall st, SInv st -> wq st -> pq st -> panicked st = false -> pushing st -> Forall onePush (inlog st) ->
    exists st', sstep c st LRStep = Some st' /\ panicked st' = false /\ (rpc st' = RIdle \/ (pushing st' /\ (left_ st' < left_ st)%nat)).
  Proof.
    intros st I Q P EP PU ON. unfold sstep. rewrite EP. unfold pushing in PU. pose proof (i_r st I) as RV. unfold rvalid in RV.
    assert (PT : forall s, s < next st -> spush (heap st s) = true -> wtagOf (wpc st) s = W0) by (intros; apply wtag0; assumption).
    assert (OK := i_ok st I). unfold sok, sokx in OK. pose proof P as PQ0. unfold pq in P.
    assert (RL : rpc st <> RExit -> isRel st = false) by (apply isRel_false_r).
    unfold rstep, left_, pushing. destruct (rpc st) eqn:ER; try contradiction.
    - unfold createOrGet. rewrite PU. destruct (tbl st true (fRequestID f)) as [s|] eqn:ET.
      + exfalso. destruct (i_t1 st I _ _ _ ET) as (L & K & N0). unfold skey in K. injection K as K1 K2.
        rewrite (pdone st s I Q PQ0 L K1 ltac:(rewrite ER; reflexivity)) in N0. discriminate.
      + eexists. split; [reflexivity|]. split; [exact EP|]. right. cbn. rewrite upd_eq. cbn. rewrite ?PU. split; [reflexivity|lia].
    - destruct RV as (L & K & _). specialize (P s L PU). cbn in P. rewrite N.eqb_refl in P. destruct P as (_ & _ & P). rewrite P.
      eexists. split; [reflexivity|]. split; [exact EP|]. right. cbn. rewrite upd_eq. cbn. split; [assumption|lia].
    - eexists. split; [reflexivity|]. destruct (IsPush (fFlags f)) eqn:EF; cbn; (split; [exact EP|]).
      + destruct (IsDone (fFlags f)); cbn; rewrite ?upd_eq; cbn; [right; split; [assumption|lia]|left; reflexivity].
      + destruct (IsDone (fFlags f)); cbn; rewrite ?upd_eq; cbn; [right; split; [assumption|lia]|left; reflexivity].
    - eexists. split; [reflexivity|]. cbn. rewrite upd_eq. cbn. split; [exact EP|]. right. split; [assumption|lia].
    - destruct RV as (L & _). pose proof (P s L PU) as Ps. cbn in Ps. rewrite N.eqb_refl in Ps. destruct Ps as (P1 & P2 & P3 & P4).
      specialize (OK s L). rewrite (PT s L PU) in OK. cbn [rtagOf] in OK. rewrite N.eqb_refl in OK. rewrite P1, P2, P3, P4, PU in OK.
      assert (CC : chClosed (heap st s) = false).
      { destruct (chClosed (heap st s)); [exfalso|reflexivity]. revert OK. generalize (fullClosed (heap st s)) (binded (heap st s)) (fullCh (heap st s)) (cancelled (heap st s)) (hasDone (out (heap st s))) (isRel st) (notified (heap st s)).
        intros [] [] [] [] [] [] [|[|?]]; vm_compute; discriminate. }
      rewrite CC. eexists. split; [reflexivity|]. cbn. rewrite upd_eq. cbn. split; [exact EP|]. right. split; [assumption|lia].
    - eexists. split; [reflexivity|]. destruct (closedSelf (heap st s)); cbn; (split; [exact EP|]); [right; split; [assumption|lia]|left; reflexivity].
    - destruct (fullClosed (heap st s)); eexists; (split; [reflexivity|]); cbn; rewrite ?upd_eq; cbn; (split; [exact EP|]); [left; reflexivity|right; split; [assumption|lia]].
    - eexists. split; [reflexivity|]. cbn. rewrite upd_eq. cbn. split; [exact EP|]. right. split; [assumption|lia].
    - eexists. split; [reflexivity|]. cbn. rewrite upd_eq. cbn. split; [exact EP|]. right. split; [assumption|lia].
    - destruct RV as (L & _). pose proof (P s L PU) as Ps. cbn in Ps. rewrite N.eqb_refl in Ps. destruct Ps as (P1 & P2 & P3 & P4).
      specialize (OK s L). rewrite (PT s L PU) in OK. cbn [rtagOf] in OK. rewrite N.eqb_refl in OK. rewrite P1, P2, P3, P4, PU in OK.
      assert (CC : fullCh (heap st s) = false).
      { destruct (fullCh (heap st s)); [exfalso|reflexivity]. revert OK. generalize (fullClosed (heap st s)) (binded (heap st s)) (chClosed (heap st s)) (cancelled (heap st s)) (hasDone (out (heap st s))) (isRel st) (notified (heap st s)).
        intros [] [] [] [] [] [] [|[|?]]; vm_compute; discriminate. }
      rewrite CC. eexists. split; [reflexivity|]. cbn. split; [exact EP|]. left. reflexivity.
  Qed.
End G.

Section D.
  Variable lim : bool -> Z.
  Hypothesis HT : forall c, tooLarge (lim c) 12 = false.
  Notation reach := (reachable (cstep lim) cinit).
  Notation cl j := (ep (pp j) true).

  Lemma ep_step2 : forall p pl p', pstep lim p pl = Some p' ->
    (ep p' true = ep p true /\ pl <> PLoc true LRStep) \/ exists l, sstep true (ep p true) l = Some (ep p' true) /\ (l = LRStep <-> pl = PLoc true LRStep) /\
      (forall f, l = LFrame f -> pl = PRead true) /\ (forall id fl ce, l = LWrite id fl ce -> exists cmd pay, pl = PWrite true id cmd fl ce pay).
  Proof.
    intros p pl p' E. destruct pl as [c l|c id cmd fl ce payload|c n|c].
    - destruct (sstep c (ep p c) l) as [st'|] eqn:ES; [|unfold pstep in E; destruct l; try discriminate E; rewrite ES in E; discriminate E].
      assert (X : ep p' = put (ep p) c st' /\ (forall f, l <> LFrame f) /\ forall id fl ce, l <> LWrite id fl ce).
      { unfold pstep in E. destruct l; try discriminate E; rewrite ES in E; injection E as <-; (split; [|split; discriminate]); try apply (adv_ep c st' p). reflexivity. }
      destruct X as [X [NF NW]]. rewrite X. destruct (Bool.bool_dec true c) as [<-|N]; [right|left; rewrite put_neq by assumption; split; [reflexivity|congruence]]. rewrite put_eq. exists l. split; [assumption|].
      split; [split; congruence|]. split; [intros f ->; elim (NF f eq_refl)|]. intros id fl ce ->. elim (NW id fl ce eq_refl).
    - unfold pstep in E. destruct (fits _ _ _ _); [|discriminate]. destruct (sstep _ _ _) as [st'|] eqn:ES; [|discriminate]. injection E as <-. cbn [ep].
      destruct (Bool.bool_dec true c) as [<-|N]; [right|left; rewrite put_neq by assumption; split; [reflexivity|discriminate]]. rewrite put_eq. eexists. split; [exact ES|]. split; [split; discriminate|]. split; [discriminate|].
      intros i g e X. injection X as <- <- <-. eauto.
    - unfold pstep in E. injection E as <-. left. split; [reflexivity|discriminate].
    - unfold pstep in E. destruct (readFrame _ _ _ _) as [r' [g|e]]; [|discriminate]. destruct (sstep _ _ _) as [st'|] eqn:ES; [|discriminate]. injection E as <-. cbn [ep].
      destruct (Bool.bool_dec true c) as [<-|N]; [right|left; rewrite put_neq by assumption; split; [reflexivity|discriminate]]. rewrite put_eq. eexists. split; [exact ES|]. split; [split; discriminate|]. split; [auto|discriminate].
  Qed.

  (** what holds of the client's side and the record [sb] of its subscriber *)
  Record UI (st : sst) (rt : option Frame) (sb : list Frame) : Prop := {
    u_wq : wq st;
    u_fl : Forall onePush (inlog st) -> pq st /\ filter pmsg (inlog st) = sb ++ retp rt ++ inflight st /\ (retp rt <> [] -> rpc st = RIdle \/ rpc st = RExit \/ pushing st);
  }.

  Lemma bound_quiet : forall st rt f, quietR st rt -> bound st = Some f -> rt = None.
  Proof.
    intros st rt f Q B. destruct rt; [|reflexivity]. destruct (Q ltac:(discriminate)) as [_ Q2]. unfold bound in B. destruct (rpc st) eqn:ER; try discriminate. elim (Q2 _ _ eq_refl).
  Qed.

  Lemma spush_step : forall c st l st', sstep c st l = Some st' -> forall s, s < next st -> s < next st' /\ spush (heap st' s) = spush (heap st s).
  Proof. intros c st l st' E z. allcases E; upd_tac z; intro L; split; try lia; try reflexivity. Qed.
  Lemma rpc_step : forall c st l st', sstep c st l = Some st' -> l <> LRStep -> (forall f, l <> LFrame f) -> rpc st' = rpc st \/ (rpc st = RIdle /\ rpc st' = RExit) \/ (exists f s, rpc st = RSend f s).
  Proof. intros c st l st' E N1 N2. allcases E; cbn; rewrite ?ER in *; auto; try congruence; try (exfalso; eapply N2; reflexivity); right; right; eauto. Qed.

  Lemma pp_step : forall st l st' rt, SInv st -> wq st -> pq st -> Forall onePush (inlog st) -> quietR st rt -> (forall f, l = LFrame f -> rt = None) ->
    sstep true st l = Some st' -> (retp rt <> [] -> rpc st = RIdle \/ rpc st = RExit \/ pushing st) ->
    retp (newret l st rt) <> [] -> rpc st' = RIdle \/ rpc st' = RExit \/ pushing st'.
  Proof.
    intros st l st' rt I Q P F QU HF E PP HN.
    assert (EP : panicked st = false) by (unfold sstep in E; destruct (panicked st); [discriminate|reflexivity]).
    assert (GO : l = LRStep -> pushing st -> rpc st' = RIdle \/ rpc st' = RExit \/ pushing st').
    { intros -> PU. destruct (push_go true st I Q P EP PU F) as (x & X & _ & Y). rewrite X in E. injection E as <-. tauto. }
    assert (OTH : l <> LRStep -> retp rt <> [] -> rpc st' = RIdle \/ rpc st' = RExit \/ pushing st').
    { intros N1 N2. assert (NF : forall f, l <> LFrame f) by (intros f X; rewrite (HF f X) in N2; apply N2; reflexivity).
      destruct (rpc_step true st l st' E N1 NF) as [X|[[_ X]|(f & s & X)]]; auto.
      - rewrite X. destruct (PP N2) as [Y|[Y|Y]]; auto. right. right. unfold pushing in *. rewrite X. pose proof (i_r st I) as RV. unfold rvalid in RV.
        destruct (rpc st); try contradiction; auto; destruct RV as [L _]; destruct (spush_step true st l st' E s L) as [_ ->]; assumption.
      - exfalso. destruct (PP N2) as [Y|[Y|Y]]; try congruence. unfold pushing in Y. rewrite X in Y. assumption. }
    destruct l; try (apply OTH; [discriminate|exact HN]).
    cbn [newret] in HN. destruct (bound st) as [f|] eqn:EB.
    - apply GO; [reflexivity|]. unfold bound in EB. unfold pushing. destruct (rpc st) eqn:ER; try discriminate. destruct (binded _); [discriminate|]. injection EB as ->.
      pose proof (i_r st I) as RV. unfold rvalid in RV. rewrite ER in RV. destruct RV as (_ & K & _). unfold retp in HN. destruct (pmsg f) eqn:EM; [|congruence].
      unfold pmsg in EM. apply andb_true_iff in EM. unfold keyOf, skey in K. destruct EM. congruence.
    - destruct (PP HN) as [X|[X|X]]; [exfalso|exfalso|apply GO; auto]; unfold sstep, rstep in E; rewrite EP, X in E; discriminate.
  Qed.

  Lemma ui_step : forall st l st' rt sb, reachable (sstep true) sinit st -> sstep true st l = Some st' -> quietR st rt ->
    (forall f, l = LFrame f -> rt = None) -> (forall id fl ce, l = LWrite id fl ce -> prf fl = false) ->
    UI st rt sb -> UI st' (newret l st rt) sb.
  Proof.
    intros st l st' rt sb R E Q HF HW [U1 U2]. pose proof (reach_inv true _ R) as I. constructor.
    - eapply wq_step; eassumption.
    - intros F'. assert (F : Forall onePush (inlog st)).
      { destruct l; try (erewrite inlog_step in F' by (try eassumption; discriminate); assumption).
        destruct (read_step true st f st' E) as [X _]. rewrite X in F'. apply Forall_app in F'. apply F'. }
      destruct (U2 F) as [P [FL PP]]. split; [eapply pq_step; eassumption|]. split; [|eapply pp_step; eassumption].
      pose proof (fl_step true st l st' I P E) as X. destruct l; cbn [newret]; try (destruct X as [X1 X2]; rewrite X1, X2; assumption).
      + destruct X as (X1 & X2 & X3). rewrite X2, X3, filter_app, FL, X1. rewrite (HF f eq_refl). cbn. rewrite ?app_nil_r. destruct (pmsg f); reflexivity.
      + destruct X as (X1 & X2). rewrite X1, FL, X2. f_equal. unfold bpush. destruct (bound st) as [f|] eqn:EB; [|reflexivity].
        rewrite (bound_quiet _ _ _ Q EB). cbn [retp app]. reflexivity.
  Qed.

  Record U (u : ust) : Prop := {
    uu_r : reach (uj u);
    uu_w : Forall (fun k => prf (c_fl k) = false) (waiting (uj u));
    uu_i : UI (cl (uj u)) (ret (uj u)) (subs u);
    uu_h : Response.hand (rr (uj u)) <> None -> ret (uj u) = None /\ (rpc (cl (uj u)) = RIdle \/ rpc (cl (uj u)) = RExit);
  }.

  (** an action of the connection *)
  Lemma pair_ui : forall j pl p' sb, reach j -> pstep lim (pp j) pl = Some p' -> (pl = PRead true -> free j = true) ->
    (forall id cmd fl ce pay, pl = PWrite true id cmd fl ce pay -> prf fl = false) ->
    forall rt, (pl = PLoc true LRStep -> rt = match bound (cl j) with Some f => Some f | None => ret j end) -> (pl <> PLoc true LRStep -> rt = ret j) ->
    UI (cl j) (ret j) sb -> (Response.hand (rr j) <> None -> ret j = None /\ (rpc (cl j) = RIdle \/ rpc (cl j) = RExit)) ->
    UI (ep p' true) rt sb /\ (Response.hand (rr j) <> None -> rt = None /\ (rpc (ep p' true) = RIdle \/ rpc (ep p' true) = RExit)).
  Proof.
    intros j pl p' sb R EP HF HW rt H1 H2 UH HH. pose proof (rpair lim HT j R) as PI. pose proof (q_reach _ _ PI true) as RS.
    destruct (ep_step2 _ _ _ EP) as [[X Y]|(l & ES & HL & HR & HWr)].
    - rewrite X, (H2 Y). auto.
    - assert (HN : forall f, l = LFrame f -> ret j = None /\ Response.hand (rr j) = None) by (intros f Hf; apply free_none; apply HF; eapply HR; exact Hf).
      assert (ER : rt = newret l (cl j) (ret j)).
      { unfold newret. destruct l; try (apply H2; intro X; apply HL in X; discriminate). apply H1, HL. reflexivity. }
      rewrite ER. split.
      + eapply ui_step; [exact RS|exact ES|apply (d_quiet _ (w3_reach lim HT j R))|intros f Hf; apply (HN f Hf)| |exact UH].
        intros id fl ce Hl. destruct (HWr id fl ce Hl) as (cmd & pay & X). eapply HW. exact X.
      + intros HA. destruct (HH HA) as [Q1 Q2]. rewrite Q1. clear - ES Q2 HN HA.
        assert (NF : forall f, l <> LFrame f) by (intros f Hf; destruct (HN f Hf); contradiction).
        assert (BN : bound (cl j) = None) by (unfold bound; destruct Q2 as [->| ->]; reflexivity).
        split; [unfold newret; destruct l; try reflexivity; rewrite BN; reflexivity|].
        clear BN. revert ES. generalize (ep p' true). revert Q2. generalize (cl j). intros st0 Q2 st1 ES.
        destruct Q2 as [Q2|Q2]; allcases ES; cbn; rewrite ?Q2 in *; try discriminate; auto; exfalso; eapply NF; reflexivity.
  Qed.

  Lemma drop_forall : forall A (P : A -> Prop) i l, Forall P l -> Forall P (drop i l).
  Proof. intros A P i l H. rewrite Forall_forall in *. intros x Hx. apply H. eapply drop_in. exact Hx. Qed.

  Lemma u_step : forall u l u', okl l = true -> ustep lim true u l = Some u' -> U u -> U u'.
  Proof.
    intros [j sb] l u' OK E H. unfold ustep in E. cbn [uj subs] in E. destruct (cstep lim j l) as [j'|] eqn:EC; [|discriminate].
    destruct H as [R W UH HH]. cbn [uj subs] in *. pose proof (reachable_step _ _ _ _ _ R EC) as R'. pose proof (rcall lim HT j R) as I. pose proof (rresp lim HT j R) as RI.
    assert (RESP : forall l r', Response.pstep true (rr j) l = Some r' -> (forall f b, l <> Response.PFrame f b) ->
      Response.hand r' <> None -> Response.hand (rr j) <> None).
    { intros l0 r' ES NF HA. destruct (Response.hand r') as [[r f]|] eqn:EH; [|congruence]. pose proof (RespE.pstep_eff _ _ _ RI ES) as F.
      destruct (RespE.f_hand _ _ _ F r f EH) as [X|(b & X & _)]; [congruence|elim (NF _ _ X)]. }
    destruct l as [stream cmd fl payload|i|id cmd fl ce payload|s cmd fl payload|id cmd fl ce payload|l| |l|].
    - injection E as <-. cbn [given]. rewrite app_nil_r. unfold cstep in EC. cbn in OK. apply negb_true_iff in OK. destruct (clientNextID (ridGen j)) as [g id]. destruct (_ <=? _); [discriminate|].
      destruct (IsPush _).
      + injection EC as <-. constructor; cbn; auto. apply Forall_app. auto.
      + destruct (Response.pstep true (rr j) _) as [r'|] eqn:ER; [|discriminate]. injection EC as <-. constructor; cbn; auto; [apply Forall_app; auto|].
        intro HA. apply HH. eapply RESP; [exact ER|discriminate|exact HA].
    - injection E as <-. cbn [given]. rewrite app_nil_r. unfold cstep in EC. destruct (nth_error (waiting j) i) as [k|] eqn:EW; [|discriminate]. destruct (collecting j); [|discriminate].
      destruct (pstep lim (pp j) _) as [p'|] eqn:EP; [|discriminate]. injection EC as <-.
      destruct (pair_ui j _ p' sb R EP ltac:(discriminate)) with (rt := ret j) as [A B]; auto; try discriminate.
      { intros id0 cmd0 fl0 ce0 pay0 X. injection X as <- <- <- <- <-. rewrite Forall_forall in W. apply W. eapply nth_error_In. exact EW. }
      constructor; cbn; auto. apply drop_forall. assumption.
    - injection E as <-. cbn [given]. rewrite app_nil_r. unfold cstep in EC. cbn in OK. apply negb_true_iff in OK. destruct (_ && _); [|discriminate].
      destruct (pstep lim (pp j) _) as [p'|] eqn:EP; [|discriminate]. injection EC as <-.
      destruct (pair_ui j _ p' sb R EP ltac:(discriminate)) with (rt := ret j) as [A B]; auto; try discriminate.
      { intros id0 cmd0 fl0 ce0 pay0 X. injection X as <- <- <- <- <-. assumption. }
      constructor; cbn; auto.
    - injection E as <-. cbn [given]. rewrite app_nil_r. unfold cstep in EC. destruct (got _) as [|q g]; [discriminate|]. destruct (_ && _); [|discriminate].
      destruct (pstep lim (pp j) _) as [p'|] eqn:EP; [|discriminate]. injection EC as <-.
      destruct (pair_ui j _ p' sb R EP ltac:(discriminate)) with (rt := ret j) as [A B]; auto; try discriminate.
      constructor; cbn; auto.
    - injection E as <-. cbn [given]. rewrite app_nil_r. unfold cstep in EC. destruct (serverOk _ _); [|discriminate].
      destruct (pstep lim (pp j) _) as [p'|] eqn:EP; [|discriminate]. injection EC as <-.
      destruct (pair_ui j _ p' sb R EP ltac:(discriminate)) with (rt := ret j) as [A B]; auto; try discriminate.
      constructor; cbn; auto.
    - injection E as <-. cbn [given]. rewrite app_nil_r. destruct (pair_case lim j l j' EC) as (p' & EP & NW & HA).
      assert (WR : forall id cmd fl ce pay, l = PWrite true id cmd fl ce pay -> prf fl = false) by (intros ? ? ? ? ? X; elim (NW _ _ _ _ _ _ X)).
      destruct HA as [(-> & N0 & N1 & _ & _ & N2)|[(E1 & ->)|[(E1 & ->)|[(E1 & HC & ->)|(E1 & HI & r & lb & r' & HK & HL & ES & ->)]]]].
      + destruct (pair_ui j _ p' sb R EP N2 WR) with (rt := ret j) as [A B]; auto; try contradiction. constructor; cbn; auto.
      + destruct (pair_ui j _ p' sb R EP ltac:(rewrite E1; discriminate) WR) with (rt := ret j) as [A B]; auto; try (rewrite E1; discriminate). constructor; cbn; auto.
      + destruct (pair_ui j _ p' sb R EP ltac:(rewrite E1; discriminate) WR) with (rt := match bound (cl j) with Some f => Some f | None => ret j end) as [A B]; auto; try congruence. constructor; cbn; auto.
      + destruct (pair_ui j _ p' sb R EP ltac:(rewrite E1; discriminate) WR) with (rt := ret j) as [A B]; auto; try (rewrite E1; discriminate). constructor; cbn; auto.
      + destruct (pair_ui j _ p' sb R EP ltac:(rewrite E1; discriminate) WR) with (rt := ret j) as [A B]; auto; try (rewrite E1; discriminate). constructor; cbn; auto.
        intro HA. apply B. eapply RESP; [exact ES| |exact HA]. rewrite HL. destruct (_ <? _)%nat; discriminate.
    - injection E as <-. cbn [given]. unfold cstep in EC. destruct (rpc (cl j)) eqn:ER; try discriminate. destruct (ret j) as [f|] eqn:EF; [|discriminate].
      destruct (Response.pstep true (rr j) _) as [r'|] eqn:ES; [|discriminate]. injection EC as <-. destruct (v_ret _ _ I f EF) as [V1 V2].
      constructor; cbn [uj subs w_ret w_rr pp rr waiting ret]; auto.
      constructor; [apply UH|]. intro F. destruct (u_fl _ _ _ UH F) as [P [FL _]]. split; [assumption|]. split; [|intro X; elim X; reflexivity]. rewrite FL. unfold inflight. rewrite ER. cbn [retp app].
      unfold pmsg. rewrite V2, !andb_true_r. cbn. rewrite !app_nil_r. reflexivity.
    - injection E as <-. cbn [given]. rewrite app_nil_r. destruct (resp_case lim j l j' EC) as (r' & bt & ES & X1 & X2 & _ & ->).
      constructor; cbn; auto. intro HA. apply HH. eapply RESP; [exact ES|exact X2|exact HA].
    - injection E as <-. unfold cstep in EC. destruct (Response.pstep true (rr j) _) as [r'|] eqn:ES; [|discriminate]. injection EC as <-.
      constructor; cbn; auto. constructor; [exact Logic.I|]. intros _. split; [|split; [reflexivity|intro X; elim X; reflexivity]]. intros s Hs. cbn in Hs. lia.
  Qed.

  Lemma u_run : forall ls u, run (ustep lim true) uinit ls = Some u -> Forall (fun l => okl l = true) ls -> U u.
  Proof.
    intros ls. assert (G : forall u0 u, U u0 -> run (ustep lim true) u0 ls = Some u -> Forall (fun l => okl l = true) ls -> U u).
    { induction ls as [|l ls IH]; intros u0 u H E F; cbn in E; [injection E as <-; assumption|]. inversion F; subst.
      destruct (ustep lim true u0 l) as [u1|] eqn:E1; [|discriminate]. eapply IH; [|exact E|assumption]. eapply u_step; eassumption. }
    intros u. apply G. constructor; cbn.
    - exists []. reflexivity.
    - constructor.
    - constructor; [exact Logic.I|]. intros _. split; [|split; [reflexivity|intro X; elim X; reflexivity]]. intros s Hs. cbn in Hs. lia.
    - congruence.
  Qed.

  (** the reader finishes what it has read by itself *)
  Definition own (l : clabel) : Prop := l = JPair (PLoc true LRStep) \/ l = JLook.

  Lemma pan_pair : forall p st', ep (advance true st' p) true = st' /\ inlog (ep (advance true st' p) false) = inlog (ep p false).
  Proof. intros p st'. destruct (adv_ep true st' p) as [X _]. rewrite X. split; [apply put_eq|]. rewrite put_neq by discriminate. reflexivity. Qed.

  Lemma progress : forall n u, U u -> Forall onePush (inlog (cl (uj u))) -> panicked (cl (uj u)) = false -> pushing (cl (uj u)) -> (left_ (cl (uj u)) <= n)%nat ->
    exists ls u', Forall own ls /\ run (ustep lim true) u ls = Some u' /\ U u' /\ inlog (cl (uj u')) = inlog (cl (uj u)) /\ rpc (cl (uj u')) = RIdle /\
      subs u' = subs u /\ Response.rdAlive (rr (uj u')) = Response.rdAlive (rr (uj u)) /\ panicked (cl (uj u')) = false.
  Proof.
    induction n as [|n IH]; intros u H F EP PU HL.
    { exfalso. unfold pushing in PU. unfold left_ in HL. destruct (rpc _); try contradiction; lia. }
    pose proof (reach_inv true _ (q_reach _ _ (rpair lim HT _ (uu_r _ H)) true)) as I. destruct (u_fl _ _ _ (uu_i _ H) F) as (P & FL & PP).
    destruct (push_go true _ I (u_wq _ _ _ (uu_i _ H)) P EP PU F) as (st' & ES & EP' & NX).
    assert (E1 : exists u1, ustep lim true u (JPair (PLoc true LRStep)) = Some u1 /\ cl (uj u1) = st' /\ subs u1 = subs u /\ rr (uj u1) = rr (uj u)).
    { unfold ustep, cstep, pstep. rewrite ES. cbn [option_map]. eexists. split; [reflexivity|]. cbn [uj subs given w_ret w_pp pp rr]. rewrite app_nil_r. split; [apply pan_pair|auto]. }
    destruct E1 as (u1 & E1 & C1 & S1 & R1). pose proof (u_step u (JPair (PLoc true LRStep)) u1 eq_refl E1 H) as H1.
    assert (IL : inlog st' = inlog (cl (uj u))) by (eapply inlog_step; [exact ES|discriminate]).
    destruct NX as [NX|[NX NL]].
    - exists [JPair (PLoc true LRStep)], u1. split; [constructor; [left; reflexivity|constructor]|]. cbn [run]. rewrite E1. split; [reflexivity|]. split; [assumption|].
      rewrite C1, R1. auto.
    - destruct (IH u1 H1) as (ls & u' & A & B & C & D & G & K & L & M); rewrite ?C1; try assumption; [rewrite IL; assumption|lia|].
      exists (JPair (PLoc true LRStep) :: ls), u'. split; [constructor; [left; reflexivity|assumption]|]. cbn [run]. rewrite E1. split; [exact B|]. split; [assumption|].
      rewrite C1 in D. rewrite D, K, L, R1. auto.
  Qed.

  Lemma finish : forall u, U u -> Forall onePush (inlog (cl (uj u))) -> panicked (cl (uj u)) = false -> Response.rdAlive (rr (uj u)) = true -> rpc (cl (uj u)) <> RExit ->
    filter pmsg (inlog (cl (uj u))) <> subs u ->
    exists ls u', Forall own ls /\ run (ustep lim true) u ls = Some u' /\ rpc (cl (uj u')) = RIdle /\ ret (uj u') = None /\ subs u' = filter pmsg (inlog (cl (uj u))).
  Proof.
    intros u H F EP RA NX HS.
    assert (LOOK : forall u f, U u -> Forall onePush (inlog (cl (uj u))) -> rpc (cl (uj u)) = RIdle -> ret (uj u) = Some f -> pmsg f = true -> Response.rdAlive (rr (uj u)) = true ->
      exists u', ustep lim true u JLook = Some u' /\ rpc (cl (uj u')) = RIdle /\ ret (uj u') = None /\ subs u' = subs u ++ [f]).
    { clear. intros [j sb] f H F ER RT PM RA. cbn [uj subs] in *. unfold ustep, cstep. cbn [uj subs]. rewrite ER, RT. unfold Response.pstep, Response.returned, Response.looksUp.
      assert (HN : Response.hand (rr j) = None) by (destruct (Response.hand (rr j)) as [x|] eqn:EH; [destruct (uu_h _ H ltac:(cbn; congruence)) as [X _]; cbn in X; congruence|reflexivity]).
      rewrite HN, RA. apply andb_true_iff in PM. destruct PM as [PM _]. rewrite PM. cbn [negb andb]. rewrite andb_false_r. cbn [option_map given uj]. rewrite RT, PM. cbn.
      eexists. split; [reflexivity|]. cbn. auto. }
    assert (FIN : forall u, U u -> Forall onePush (inlog (cl (uj u))) -> rpc (cl (uj u)) = RIdle -> Response.rdAlive (rr (uj u)) = true -> filter pmsg (inlog (cl (uj u))) <> subs u ->
      exists u', ustep lim true u JLook = Some u' /\ rpc (cl (uj u')) = RIdle /\ ret (uj u') = None /\ subs u' = filter pmsg (inlog (cl (uj u)))).
    { clear - LOOK. intros u H F ER RA HS. destruct (u_fl _ _ _ (uu_i _ H) F) as (P & FL & PP). unfold inflight in FL. rewrite ER in FL. rewrite app_nil_r in FL.
      unfold retp in FL. destruct (ret (uj u)) as [f|] eqn:RT; [|rewrite app_nil_r in FL; contradiction]. destruct (pmsg f) eqn:PM; [|rewrite app_nil_r in FL; contradiction].
      rewrite FL. eapply LOOK; eassumption. }
    destruct (u_fl _ _ _ (uu_i _ H) F) as (P & FL & PP).
    assert (C : rpc (cl (uj u)) = RIdle \/ pushing (cl (uj u))).
    { destruct (retp (ret (uj u))) as [|x l] eqn:ERT; [|destruct (PP ltac:(discriminate)) as [X|[X|X]]; [auto|contradiction|auto]].
      right. cbn [app] in FL. unfold inflight in FL. unfold pushing. pose proof (reach_inv true _ (q_reach _ _ (rpair lim HT _ (uu_r _ H)) true)) as I. pose proof (i_r _ I) as RV. unfold rvalid in RV.
      destruct (rpc (cl (uj u))) eqn:ER; try (rewrite app_nil_r in FL; contradiction).
      - destruct (pmsg f) eqn:PM; [|rewrite app_nil_r in FL; contradiction]. apply andb_true_iff in PM. apply PM.
      - destruct (pmsg f) eqn:PM; [|rewrite app_nil_r in FL; contradiction]. apply andb_true_iff in PM. destruct PM as [PM _]. destruct RV as (_ & K & _). unfold keyOf, skey in K. congruence. }
    destruct C as [C|C].
    - destruct (FIN u H F C RA HS) as (u' & A & B). exists [JLook], u'. split; [constructor; [right; reflexivity|constructor]|]. cbn [run]. rewrite A. auto.
    - destruct (progress _ u H F EP C (Nat.le_refl _)) as (ls & u1 & A & B & G & D & E & K & L & M).
      destruct (FIN u1 G) as (u' & X & Y); rewrite ?D, ?K, ?L; try assumption.
      exists (ls ++ [JLook]), u'. split; [apply Forall_app; split; [assumption|constructor; [right; reflexivity|constructor]]|].
      rewrite run_app, B. cbn [run]. rewrite X. rewrite D in Y. auto.
  Qed.
End D.
