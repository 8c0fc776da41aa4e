(** Invariants of Model/ServerCall.v: the first answer reaches the Response of its call; after Proofs/CallS.v. *)
From Coq Require Import ZifyBool ZifyNat ZifyN.
From Verif Require Import Model.GoBase Model.Machine Model.Qrpc Model.FrameWriter Model.Reader Model.FrameReader Model.Ids Model.Stream Model.Pair Model.Call
  Spec.FrameSpec Spec.StreamSpec Proofs.StreamP Proofs.StreamI Proofs.StreamQ Proofs.StreamR Proofs.ReaderP Proofs.FrameReaderP Proofs.CodecP Proofs.PairP
  Proofs.CallP Proofs.CallQ Proofs.CallR Proofs.CallS Model.ServerCall Proofs.SCallP Proofs.SCallQ Proofs.SCallR Props.Stream.
From Verif Require Model.Response Proofs.ResponseP Props.Response Proofs.RespE.
Open Scope N_scope.

Lemma quietR_step : forall st l st' rt, reachable (sstep false) sinit st -> sstep false st l = Some st' -> (forall f, l = LFrame f -> rt = None) ->
  quietR st rt -> quietR st' (newret l st rt).
Proof.
  intros st l st' rt R E HL Q HN.
  assert (NB : bound st = None -> rt <> None -> (forall f, rpc st' <> RGet f) /\ (forall f s, rpc st' <> RBind f s)).
  { intros EB HR. destruct (Q HR) as [Q1 Q2]. split.
    - intros f X. destruct (into_rget false _ _ _ _ E X) as [Y|Y]; [elim (Q1 f Y)|]. elim HR. eapply HL. exact Y.
    - intros f s X. destruct (into_rbind false _ _ _ _ _ E X) as [Y|[Y _]]; [elim (Q2 f s Y)|elim (Q1 f Y)]. }
  destruct (bound st) as [g|] eqn:EB; [|apply NB; [reflexivity|]; unfold newret in HN; destruct l; try assumption; rewrite EB in HN; assumption].
  unfold bound in EB. destruct (rpc st) eqn:ER; try discriminate. destruct (binded (heap st s)) eqn:EBi; [discriminate|].
  destruct l; try (exfalso; cbn in HN; destruct (Q HN) as [_ Q2]; elim (Q2 f s ER)).
  unfold sstep in E. destruct (panicked st); [discriminate|]. unfold rstep in E. rewrite ER, EBi in E. injection E as <-. cbn. split; discriminate.
Qed.

Lemma stat_step : forall st l st' rt id, reachable (sstep false) sinit st -> sstep false st l = Some st' -> (forall f, l = LFrame f -> rt = None) ->
  quietR st rt -> stat st rt id -> stat st' (newret l st rt) id.
Proof.
  intros st l st' rt id R E HL Q S. destruct (reach_pq false st R) as (SI & P & _). destruct (sstep_key false st l st' SI E) as [KN KS].
  destruct (rd_step false st l st' id E) as [RD|(f & -> & RD & RF & KF)].
  - destruct S as [S|(f & S & HS)]; [left; congruence|right]. exists f. split; [congruence|].
    destruct HS as [->|[HP HB]].
    + left. destruct (Q ltac:(discriminate)) as [Q1 Q2]. unfold newret. destruct l; try reflexivity. unfold bound. destruct (rpc st) eqn:ER; try reflexivity. elim (Q2 f0 s eq_refl).
    + assert (KF : keyOf f = (false, id)) by (apply (rd_in id st f); rewrite S; left; reflexivity).
      assert (NB : forall z, z < next st' -> skey (heap st' z) = (false, id) -> binded (heap st' z) = true -> l = LRStep /\ exists g, rpc st = RBind g z).
      { intros z Hz Hk Hb. destruct (bind_step false st l st' E z Hz Hb) as [[B1 B2]|B]; [|assumption]. exfalso. rewrite (KS z B1) in Hk. rewrite (HB z B1 Hk) in B2. discriminate. }
      destruct HP as [HP|(s & HP)].
      * right. split.
        -- destruct (rget_step false _ _ _ _ E HP) as [X|[_ X]]; [left; assumption|right; assumption].
        -- intros z Hz Hk. destruct (binded (heap st' z)) eqn:EB; [|reflexivity]. destruct (NB z Hz Hk EB) as (_ & g & X). congruence.
      * destruct (rbind_step false _ _ _ _ _ E HP) as [X| ->].
        -- right. split; [right; eauto|]. intros z Hz Hk. destruct (binded (heap st' z)) eqn:EB; [|reflexivity]. destruct (NB z Hz Hk EB) as (-> & g & Y).
           exfalso. clear - E X HP. unfold sstep in E. destruct (panicked st); [discriminate|]. unfold rstep in E. rewrite HP in E. destruct (binded _); injection E as <-; discriminate.
        -- left. unfold newret, bound. rewrite HP. pose proof (i_r st SI) as RV. unfold rvalid in RV. rewrite HP in RV. destruct RV as (V1 & V2 & _).
           rewrite (HB s V1) by congruence. reflexivity.
  - assert (RT : rt = None) by (eapply HL; reflexivity). subst rt. cbn.
    assert (RI : rpc st = RIdle) by (clear - E; unfold sstep in E; destruct (panicked st); [discriminate|]; destruct (rpc st); try discriminate; reflexivity).
    destruct S as [S|(g & S & [HS|[[HS|(s & HS)] _]])]; try congruence. right. exists f. rewrite RD, S. split; [reflexivity|]. right. split.
    + left. clear - E RF RI. unfold sstep in E. destruct (panicked st); [discriminate|]. rewrite RI in E. unfold isRstF in RF. rewrite RF in E. injection E as <-. reflexivity.
    + intros z Hz Hk. destruct (binded (heap st' z)) eqn:EB; [exfalso|reflexivity]. destruct (bind_step false st _ st' E z Hz EB) as [[B1 B2]|[X _]]; [|discriminate].
      rewrite (KS z B1) in Hk. destruct (p_bound st P z B1 B2) as (g & G1 & G2 & G3). assert (X : In g (rd id st)) by (apply rd_in; repeat split; congruence). rewrite S in X. contradiction.
Qed.

Section D.
  Variable lim : bool -> Z.
  Hypothesis HT : forall c, tooLarge (lim c) 12 = false.
  Notation reach := (reachable (cstepQ lim) cinit).
  Notation cl j := (ep (pp j) false).

  Lemma ep_step : forall p pl p', pstep lim p pl = Some p' ->
    (ep p' false = ep p false /\ pl <> PLoc false LRStep) \/ exists l, sstep false (ep p false) l = Some (ep p' false) /\ (l = LRStep <-> pl = PLoc false LRStep) /\ (forall f, l = LFrame f -> pl = PRead false).
  Proof.
    intros p pl p' E. destruct pl as [c l|c id cmd fl ce payload|c n|c].
    - destruct (sstep c (ep p c) l) as [st'|] eqn:ES; [|unfold pstep in E; destruct l; try discriminate E; rewrite ES in E; discriminate E].
      assert (X : ep p' = put (ep p) c st' /\ forall f, l <> LFrame f).
      { unfold pstep in E. destruct l; try discriminate E; rewrite ES in E; injection E as <-; split; try discriminate; try apply (adv_ep c st' p). reflexivity. }
      destruct X as [X NF]. rewrite X. destruct (Bool.bool_dec false c) as [<-|N]; [right|left; rewrite put_neq by assumption; split; [reflexivity|congruence]]. rewrite put_eq. exists l. split; [assumption|].
      split; [split; congruence|]. intros f ->. elim (NF f eq_refl).
    - unfold pstep in E. destruct (fits _ _ _ _); [|discriminate]. destruct (sstep _ _ _) as [st'|] eqn:ES; [|discriminate]. injection E as <-. cbn [ep].
      destruct (Bool.bool_dec false c) as [<-|N]; [right|left; rewrite put_neq by assumption; split; [reflexivity|discriminate]]. rewrite put_eq. eexists. split; [exact ES|]. split; [split; discriminate|discriminate].
    - unfold pstep in E. injection E as <-. left. split; [reflexivity|discriminate].
    - unfold pstep in E. destruct (readFrame _ _ _ _) as [r' [g|e]]; [|discriminate]. destruct (sstep _ _ _) as [st'|] eqn:ES; [|discriminate]. injection E as <-. cbn [ep].
      destruct (Bool.bool_dec false c) as [<-|N]; [right|left; rewrite put_neq by assumption; split; [reflexivity|discriminate]]. rewrite put_eq. eexists. split; [exact ES|]. split; [split; discriminate|auto].
  Qed.

  (** an answer that was read belongs to a registered request sent on this connection *)
  Lemma answered : forall j f, reach j -> In f (inlog (cl j)) -> plainf f ->
    exists q, In q (sent (pp j) false) /\ plainf q /\ fRequestID q = fRequestID f /\ forall k r, In k (calls j) -> c_resp k = Some r -> c_id k = fRequestID f -> Response.reg (rr j) r = true.
  Proof.
    intros j f R HF P. pose proof (rpair lim HT j R) as PI. pose proof (w2_reach lim HT j R) as W.
    destruct (q_wire _ _ PI true) as (rest & X & _). cbn [negb] in X.
    destruct (e_here _ W f ltac:(left; rewrite X; apply in_app_iff; auto) P) as (q & Q1 & Q2 & Q3).
    destruct (e_split _ W) as (A & B & S1 & S2 & S3 & S4 & S5).
    assert (QA : In q A) by (eapply (read_front lim _ A B PI S1); [rewrite <- S2; assumption|assumption]).
    exists q. split; [rewrite S1; apply in_app_iff; auto|]. split; [assumption|]. split; [assumption|].
    intros k r Hk Hr Hi. apply (S4 q QA k r Hk Hr). split; [assumption|congruence].
  Qed.

  Lemma rd_plain : forall j k f, CInv lim j -> In k (calls j) -> In f (rd (c_id k) (cl j)) -> In f (inlog (cl j)) /\ plainf f /\ fRequestID f = c_id k.
  Proof.
    intros j k f I HK HF. apply rd_in in HF. destruct HF as (A & B & C). unfold keyOf in C. injection C as C D. split; [assumption|]. split; [|assumption].
    unfold plainf. rewrite D. destruct (v_ids _ _ I k HK) as (n & _ & ->). rewrite odd_even. auto.
  Qed.

  Record W3 (j : cst) : Prop := {
    d_quiet : quietR (cl j) (ret j);
    d_tab : forall id r, In (id, r) (Response.tab (rr j)) -> stat (cl j) (ret j) id;
    d_hand : forall r f, Response.hand (rr j) = Some (r, f) -> rd (fRequestID f) (cl j) = [f];
  }.

  Lemma free_none : forall j, free j = true -> ret j = None /\ Response.hand (rr j) = None.
  Proof. intros j H. unfold free in H. destruct (ret j); [discriminate|]. destruct (Response.hand (rr j)); [discriminate|]. auto. Qed.

  (** a step of the connection, seen from the client's reader *)
  Lemma pair3 : forall j pl p', reach j -> W3 j -> pstep lim (pp j) pl = Some p' -> (pl = PRead false -> free j = true) ->
    forall rt, (pl = PLoc false LRStep -> rt = match bound (cl j) with Some f => Some f | None => ret j end) -> (pl <> PLoc false LRStep -> rt = ret j) ->
    quietR (ep p' false) rt /\ (forall id, stat (cl j) (ret j) id -> stat (ep p' false) rt id) /\
    (forall id, Response.hand (rr j) <> None -> rd id (ep p' false) = rd id (cl j)).
  Proof.
    intros j pl p' R W EP HF rt H1 H2. pose proof (rpair lim HT j R) as PI. pose proof (q_reach _ _ PI false) as RS. destruct (ep_step _ _ _ EP) as [[X Y]|(l & ES & HL & HR)].
    - rewrite X, (H2 Y). split; [apply W|]. split; auto.
    - assert (HN : forall f, l = LFrame f -> ret j = None) by (intros f Hf; apply free_none; apply HF; eapply HR; exact Hf).
      assert (ER : rt = newret l (cl j) (ret j)).
      { unfold newret. destruct l; try (apply H2; intro X; apply HL in X; discriminate). apply H1, HL. reflexivity. }
      rewrite ER. split; [eapply quietR_step; [exact RS|exact ES|exact HN|apply W]|]. split.
      + intros id HS. eapply stat_step; [exact RS|exact ES|exact HN|apply W|exact HS].
      + intros id HH. destruct (rd_step false _ _ _ id ES) as [X|(f & X & _)]; [assumption|]. exfalso. apply HH. apply free_none, HF. eapply HR. exact X.
  Qed.

  Lemma w3_reach : forall j, reach j -> W3 j.
  Proof.
    intros j. apply (reach_ind _ _ (cstepQ lim) W3).
    { constructor; cbn; try tauto; try discriminate. intro X. congruence. }
    clear j. intros j l j' R W E. pose proof (rcall lim HT j R) as I. pose proof (rresp lim HT j R) as RI. pose proof (rpair lim HT j R) as PI.
    apply (cstep_view lim) in E; try assumption.
    assert (RESP : forall l r', Response.pstep false (rr j) l = Some r' -> (forall f b, l <> Response.PFrame f b) -> forall g ks w tk bt,
      W3 (mkCst (pp j) r' g ks w tk bt (ret j) (answers j) (given j))).
    { intros l0 r' ES NF g ks w tk bt. pose proof (RespE.pstep_eff _ _ _ RI ES) as F. constructor; cbn [pp rr ridGen calls waiting taken batch ret answers given].
      - apply W.
      - intros id r HI. destruct (RespE.f_tab _ _ _ F id r HI) as [X|[-> X]]; [eapply (d_tab _ W); eassumption|]. left.
        pose proof (unreg_unreg _ r RI X) as UR. pose proof (ResponseP.unreg_old _ _ RI X) as RO.
        destruct (call_rid lim j r I RO) as (k & K1 & K2 & K3).
        assert (ID : id = c_id k).
        { pose proof (ResponseP.i_tab _ (ResponseP.pinv_step false _ _ _ RI ES) id r HI) as T. rewrite K3. rewrite <- T.
          clear - ES. unfold Response.pstep in ES. destruct (Response.wph (rr j)) as [b| |]; try discriminate. destruct (_ && _); [|discriminate]. destruct (Response.up (rr j)).
          - destruct (Response.register b (rr j)) as [s' b'] eqn:ER. injection ES as <-. destruct (RespE.register_eff _ _ _ _ ER) as (SA & _). unfold RespE.same in SA. cbn. destruct SA as (_ & _ & _ & _ & _ & _ & _ & _ & ->). reflexivity.
          - injection ES as <-. cbn. destruct (RespE.answerAll_same b false (rr j)) as (SA & _). unfold RespE.same in SA. destruct SA as (_ & _ & _ & _ & _ & _ & _ & _ & ->). reflexivity. }
        subst id. destruct (rd (c_id k) (cl j)) as [|f fs] eqn:ERD; [reflexivity|exfalso].
        destruct (rd_plain j k f I K1 ltac:(rewrite ERD; left; reflexivity)) as (A & B & C). destruct (answered j f R A B) as (q & _ & _ & _ & G). rewrite (G k r K1 K2 ltac:(congruence)) in UR. discriminate.
      - intros r f HI. destruct (RespE.f_hand _ _ _ F r f HI) as [X|(b & X & _)]; [eapply (d_hand _ W); eassumption|]. elim (NF f b X). }
    assert (PAIR : forall pl p', pstep lim (pp j) pl = Some p' -> (pl = PRead false -> free j = true) -> forall rt,
      (pl = PLoc false LRStep -> rt = match bound (cl j) with Some f => Some f | None => ret j end) -> (pl <> PLoc false LRStep -> rt = ret j) -> forall r',
      (forall id r, In (id, r) (Response.tab r') -> In (id, r) (Response.tab (rr j))) -> Response.hand r' = Response.hand (rr j) -> forall g ks w tk bt an pa,
      W3 (mkCst p' r' g ks w tk bt rt an pa)).
    { intros pl p' EP HF rt H1 H2 r' T1 T2 g ks w tk bt an pa. destruct (pair3 j pl p' R W EP HF rt H1 H2) as (A & B & C).
      constructor; cbn [pp rr ridGen calls waiting taken batch ret answers given].
      - assumption.
      - intros id r HI. apply B. eapply (d_tab _ W), T1, HI.
      - rewrite T2. intros r f HI. rewrite C by congruence. eapply (d_hand _ W). exact HI. }
    destruct E as [k r' EK HR|i k p' EN EP|id cmd fl ce pay p' EO EP|s q g cmd fl pay p' EG EL ES EP|id cmd fl ce pay p' EO EP|pl p' j' EP NW HA|f r' ER EF ES|rl r' bt ES X1 X2 X3 X4 X5 X6 X7].
    - destruct HR as [[_ ->]|[_ ES]]; [destruct W; constructor; assumption|]. eapply RESP; [exact ES|discriminate].
    - eapply PAIR; [exact EP|discriminate|discriminate|reflexivity|auto|reflexivity].
    - eapply PAIR; [exact EP|discriminate|discriminate|reflexivity|auto|reflexivity].
    - eapply PAIR; [exact EP|discriminate|discriminate|reflexivity|auto|reflexivity].
    - eapply PAIR; [exact EP|discriminate|discriminate|reflexivity|auto|reflexivity].
    - destruct HA as [(-> & N0 & N1 & _ & _ & N2)|[(E1 & ->)|[(E1 & ->)|[(E1 & HC & ->)|(E1 & HI & r & lb & r' & HK & HL & ES & ->)]]]].
      + eapply PAIR; [exact EP|exact N2|contradiction|reflexivity|auto|reflexivity].
      + subst pl. eapply PAIR; [exact EP|discriminate|discriminate|reflexivity|auto|reflexivity].
      + subst pl. eapply PAIR; [exact EP|discriminate|reflexivity|congruence|auto|reflexivity].
      + subst pl. eapply PAIR; [exact EP|discriminate|discriminate|reflexivity|auto|reflexivity].
      + subst pl. pose proof (RespE.pstep_eff _ _ _ RI ES) as F. eapply PAIR; [exact EP|discriminate|discriminate|reflexivity| |].
        * cbn [rr w_taken w_rr]. intros id0 r0 HI0. destruct (RespE.f_tab _ _ _ F id0 r0 HI0) as [X|[X _]]; [assumption|]. rewrite HL in X. destruct (_ <? _)%nat; discriminate.
        * cbn [rr w_taken w_rr]. clear - ES HL. unfold Response.pstep in ES. destruct (_ <? _)%nat; subst lb; destruct (Response.wph (rr j)); try discriminate; destruct (_ && _); try discriminate; injection ES as <-; [reflexivity|].
          match goal with |- context [Response.answer ?a ?b ?c] => destruct (RespE.answer_same a b c) as (SA & _) end. unfold RespE.same in SA. cbn in SA. apply SA.
    - pose proof (RespE.pstep_eff _ _ _ RI ES) as F. destruct (v_ret _ _ I f EF) as [V1 V2].
      assert (ST : forall id, stat (cl j) (Some f) id -> In f (rd id (cl j)) -> rd id (cl j) = [f]).
      { intros id [X|(g & X & [Y|[[Y|(s & Y)] _]])] HI; try congruence. rewrite X in HI. contradiction. }
      constructor; unfold w_given, w_ret, w_rr; cbn [pp rr ridGen calls waiting taken batch ret answers given].
      + intro X. congruence.
      + intros id r HI. destruct (RespE.f_tab _ _ _ F id r HI) as [X|[X _]]; [|discriminate]. pose proof (d_tab _ W id r X) as S. rewrite EF in S.
        destruct S as [S|(g & S & [Y|[[Y|(s & Y)] _]])]; [left; assumption| |congruence|congruence]. exfalso. injection Y as <-.
        assert (KF : In f (rd id (cl j))) by (rewrite S; left; reflexivity). apply rd_in in KF. destruct KF as (_ & _ & KF). unfold keyOf in KF. injection KF as K1 K2.
        assert (EV : FromServer id = true).
        { pose proof (ResponseP.i_tab _ RI _ _ X) as T. assert (RG : Response.reg (rr j) r = true).
          { pose proof (ResponseP.i_places _ RI r) as P. unfold ResponseP.places in P. assert (Q : In r (ResponseP.tabR (Response.tab (rr j)))) by (apply in_map_iff; exists (id, r); auto).
            apply ResponseP.occ_in in Q. destruct (Response.reg (rr j) r); [reflexivity|lia]. }
          destruct (call_rid lim j r I (ResponseP.reg_old _ _ RI RG)) as (k & A1 & A2 & A3). destruct (v_ids _ _ I k A1) as (n & _ & A4).
          rewrite <- T, <- A3, A4. unfold FromServer. rewrite N.mul_comm, N.mod_mul by lia. reflexivity. }
        clear - ES HI X K1 K2 V2 RI EV. subst id. unfold Response.pstep in ES. destruct (Response.hand (rr j)); [discriminate|]. destruct (Response.rdAlive (rr j)); [|discriminate].
        unfold Response.returned, Response.looksUp in ES. rewrite V2, K1, EV in ES. cbn in ES.
        rewrite (ResponseP.tget_unique _ _ _ (ResponseP.i_nodup _ RI) X) in ES. injection ES as <-. cbn in HI. unfold Response.tdel in HI. apply filter_In in HI. destruct HI as [_ HI]. cbn in HI. rewrite N.eqb_refl in HI. discriminate.
      + intros r g HI. destruct (RespE.f_hand _ _ _ F r g HI) as [X|(b & X & Y & Z)]; [eapply (d_hand _ W); eassumption|]. injection X as <- <-.
        apply ST; [rewrite <- EF; eapply (d_tab _ W); exact Y|]. apply rd_in. unfold keyOf, isRstF. rewrite Z. auto.
    - eapply RESP; [exact ES|exact X2].
  Qed.

  (** *** the frame a Response of Request gets *)
  Definition wasSent (p : Pair.pst) (k : call) : Prop := exists q, In q (sent p false) /\ ofk k q.
  Definition clean (s : Response.pst) (r : N) : Prop := Response.sends s r = 0%nat /\ Response.closes s r = 0%nat /\ forall f, Response.hand s <> Some (r, f).
  Definition good4 (p : Pair.pst) (s : Response.pst) (k : call) (r : N) : Prop :=
    wasSent p k ->
    (rd (c_id k) (ep p false) = [] -> Response.sends s r = 0%nat /\ forall f, Response.hand s <> Some (r, f)) /\
    (Response.up s = true -> Response.closes s r = 0%nat) /\
    (forall f, In f (Response.chanF s r) \/ In (Some f) (Response.gots s r) -> exists t, rd (c_id k) (ep p false) = f :: t).
  Definition W4 (j : cst) : Prop := forall k r, In k (calls j) -> c_stream k = false -> c_resp k = Some r -> good4 (pp j) (rr j) k r.

  Lemma unreg_clean : forall s r, ResponseP.pinv s -> Response.reg s r = false -> clean s r /\ Response.chanF s r = [] /\ forall f, ~ In (Some f) (Response.gots s r).
  Proof.
    intros s r I H. pose proof (ResponseP.i_places s I r) as P. rewrite H in P. unfold ResponseP.places in P.
    assert (S0 : Response.sends s r = 0%nat) by lia. pose proof (ResponseP.i_chan s I r) as C. rewrite S0 in C. split.
    - split; [assumption|]. split; [lia|]. intros f HH. unfold ResponseP.handR in P. rewrite HH in P. assert (X : In r [r]) by (left; reflexivity). apply ResponseP.occ_in in X. lia.
    - split; [destruct (Response.chanF s r); [reflexivity|cbn in C; lia]|]. intros f HF.
      assert (X : In (Some f) (filter ResponseP.isF (Response.gots s r))) by (apply filter_In; auto). destruct (filter _ _); [contradiction|cbn in C; lia].
  Qed.

  (** the connection moves on *)
  Lemma good_pair : forall j l p' k r, reach j -> pstep lim (pp j) l = Some p' -> In k (calls j) -> c_stream k = false -> c_resp k = Some r ->
    good4 (pp j) (rr j) k r -> good4 p' (rr j) k r.
  Proof.
    intros j l p' k r R EP HK HN HR G HS. pose proof (rpair lim HT j R) as PI. pose proof (rresp lim HT j R) as RI.
    assert (RD : exists t, rd (c_id k) (ep p' false) = rd (c_id k) (cl j) ++ t).
    { destruct (ep_step _ _ _ EP) as [[X Y]|(l0 & ES & _)]; [rewrite X; exists []; symmetry; apply app_nil_r|].
      destruct (rd_step false _ _ _ (c_id k) ES) as [X|(f & _ & X & _)]; [rewrite X; exists []; symmetry; apply app_nil_r|eexists; exact X]. }
    destruct RD as (t & RD). destruct (sent_step lim HT _ _ _ PI EP) as [[X _]|(_ & f & CA & X & _)].
    - assert (HS' : wasSent (pp j) k) by (destruct HS as (q & Q1 & Q2); exists q; rewrite <- X; auto). destruct (G HS') as (A & B & C). split; [|split; [assumption|]].
      + intro Z. rewrite RD in Z. apply app_eq_nil in Z. apply A. apply Z.
      + intros f HF. destruct (C f HF) as (t' & Y). rewrite RD, Y. cbn. eauto.
    - destruct HS as (q & Q1 & Q2). rewrite X in Q1. apply in_app_iff in Q1. destruct Q1 as [Q1|[<-|[]]].
      + destruct (G (ex_intro _ q (conj Q1 Q2))) as (A & B & C). split; [|split; [assumption|]].
        * intro Z. rewrite RD in Z. apply app_eq_nil in Z. apply A. apply Z.
        * intros g HF. destruct (C g HF) as (t' & Y). rewrite RD, Y. cbn. eauto.
      + destruct (e_cand _ (w2_reach lim HT j R) f k r CA HK HR Q2) as [[_ Y]|Y]; [congruence|].
        destruct (w_tk _ (w1_reach lim HT j R) r Y) as [Z _]. apply (queue_unreg _ r RI) in Z. destruct (unreg_clean _ r RI Z) as ((A & B & C) & D & F).
        split; [auto|]. split; [auto|]. intros g [H|H]; [rewrite D in H; contradiction|elim (F g H)].
  Qed.

  (** the Responses move on *)
  Lemma good_resp : forall j l r' k r p, reach j -> Response.pstep false (rr j) l = Some r' -> l <> Response.PConnect ->
    (forall f b, l = Response.PFrame f b -> ret j = Some f) -> ep p false = cl j ->
    In k (calls j) -> c_resp k = Some r -> good4 p (rr j) k r -> good4 p r' k r.
  Proof.
    intros j l r' k r p R ES NC NF EP HK HR G HS. pose proof (rcall lim HT j R) as I. pose proof (rresp lim HT j R) as RI. pose proof (RespE.pstep_eff _ _ _ RI ES) as F.
    pose proof (w3_reach j R) as W. destruct (rid_call lim j k r I HK HR) as [RK _]. destruct (G HS) as (A & B & C). rewrite EP in A, C. unfold good4. split; [|split].
    - rewrite EP. intro Z. destruct (A Z) as [A1 A2]. split.
      + destruct (RespE.f_sends _ _ _ F r) as [X|(_ & f & X)]; [congruence|elim (A2 f X)].
      + intros f HH. destruct (RespE.f_hand _ _ _ F r f HH) as [X|(b & X & Y & P)]; [elim (A2 f X)|]. pose proof (NF f b X) as ER.
        destruct (v_ret _ _ I f ER) as [V1 V2]. pose proof (ResponseP.i_tab _ RI _ _ Y) as T.
        assert (In f (rd (c_id k) (cl j))) by (apply rd_in; unfold isRstF, keyOf; rewrite P, <- RK, T; auto). rewrite Z in H. contradiction.
    - intro UP. destruct (RespE.f_up _ _ _ F UP) as [X|X]; [|contradiction]. destruct (RespE.f_closes _ _ _ F r) as [Y|Y]; [rewrite Y; auto|].
      elim Y. exact (Response.up_closing false _ (resp_reach lim j I) X).
    - intros f HF. rewrite EP. destruct (RespE.f_fr _ _ _ F r f HF) as [X|[X|X]]; [apply C; auto|apply C; auto|].
      pose proof (d_hand _ W r f X) as Y. destruct (ResponseP.i_hand _ RI r f X) as (Z & _). rewrite Z, RK in Y. rewrite Y. eauto.
  Qed.

  Lemma w4_reach : forall j, reach j -> W4 j.
  Proof.
    intros j. apply (reach_ind _ _ (cstepQ lim) W4).
    { intros k r HK. contradiction. }
    clear j. intros j l j' R W E. pose proof (rcall lim HT j R) as I. pose proof (rresp lim HT j R) as RI. pose proof (rpair lim HT j R) as PI.
    apply (cstep_view lim) in E; try assumption.
    destruct E as [k0 r' EK HR|i k0 p' EN EP|id cmd fl ce pay p' EO EP|s q g cmd fl pay p' EG EL ES EP|id cmd fl ce pay p' EO EP|pl p' j' EP NW HA|f r' ER EF ES|rl r' bt ES X1 X2 X3 X4 X5 X6 X7];
      intros k r HK HS HC; cbn [pp rr calls w_pp w_rr w_ret] in *; try (eapply good_pair; try eassumption; apply W; assumption).
    - destruct HK as [<-|HK].
      + intros (q & Q1 & Q2). elim (new_frame lim j k0 q I EK (or_introl Q1) Q2).
      + destruct HR as [[_ ->]|[_ ES]]; [apply W; assumption|]. eapply good_resp; try eassumption; try discriminate; [reflexivity|apply W; assumption].
    - destruct HA as [(-> & N0 & N1 & _ & _ & N2)|[(E1 & ->)|[(E1 & ->)|[(E1 & HC' & ->)|(E1 & HI & r0 & lb & r' & HK' & HL & ES & ->)]]]];
        cbn [pp rr calls w_pp w_rr w_ret w_taken w_batch] in *; try (eapply good_pair; try eassumption; apply W; assumption).
      pose proof (good_pair j pl p' k r R EP HK HS HC (W k r HK HS HC)) as G.
      assert (NL : lb <> Response.PConnect /\ (forall f b, lb <> Response.PFrame f b) /\ lb <> Response.PHand) by (rewrite HL; destruct (_ <? _)%nat; repeat split; discriminate).
      destruct NL as (L1 & L2 & L3). pose proof (RespE.pstep_eff _ _ _ RI ES) as F. intro SS. destruct (G SS) as (A & B & C). split; [|split].
      + intro Z. destruct (A Z) as [A1 A2]. split; [destruct (RespE.f_sends _ _ _ F r) as [X|(X & _)]; congruence|].
        intros f HH. destruct (RespE.f_hand _ _ _ F r f HH) as [X|(b & X & _)]; [elim (A2 f X)|elim (L2 f b X)].
      + intro UP. destruct (RespE.f_up _ _ _ F UP) as [X|X]; [|contradiction]. destruct (RespE.f_closes _ _ _ F r) as [Y|Y]; [rewrite Y; auto|].
        elim Y. exact (Response.up_closing false _ (resp_reach lim j I) X).
      + intros f HF. apply C. clear - HF ES HL. unfold Response.pstep in ES. destruct (_ <? _)%nat; subst lb; destruct (Response.wph (rr j)); try discriminate; destruct (_ && _); try discriminate; injection ES as <-; [exact HF|].
        match type of HF with context [Response.answer ?a ?b ?c] => destruct (RespE.answer_same a b c) as (SA & _) end. unfold RespE.same in SA. cbn in SA.
        destruct SA as (_ & _ & _ & _ & _ & SA & SB & _). rewrite SA, SB in HF. exact HF.
    - eapply good_resp; try eassumption; try discriminate; [|reflexivity|apply W; assumption]. intros f0 b X. injection X as <- <-. assumption.
    - eapply good_resp; try eassumption; [|reflexivity|apply W; assumption]. intros f b X. elim (X2 f b X).
  Qed.

  (** *** what was read gets to its Response *)
  Lemma delivered : forall j k r f t, reach j -> In k (calls j) -> c_stream k = false -> c_resp k = Some r -> rd (c_id k) (cl j) = f :: t ->
    Response.up (rr j) = true -> rpc (cl j) = RIdle -> ret j = None -> Response.hand (rr j) = None ->
    Response.sends (rr j) r = 1%nat /\ (Response.chanF (rr j) r = [f] \/ In (Some f) (Response.gots (rr j) r)).
  Proof.
    intros j k r f t R HK HS HC RD UP RP RT HH. pose proof (rcall lim HT j R) as I. pose proof (rresp lim HT j R) as RI.
    destruct (rid_call lim j k r I HK HC) as [RK _].
    destruct (rd_plain j k f I HK ltac:(rewrite RD; left; reflexivity)) as (A & B & C). destruct (answered j f R A B) as (q & Q1 & Q2 & Q3 & G).
    pose proof (G k r HK HC ltac:(congruence)) as RG.
    assert (SS : wasSent (pp j) k) by (exists q; split; [assumption|]; split; [assumption|congruence]).
    destruct (w4_reach j R k r HK HS HC SS) as (_ & G2 & G3).
    pose proof (ResponseP.i_places _ RI r) as P. rewrite RG in P. unfold ResponseP.places in P. rewrite (G2 UP), (Response.up_closing false _ (resp_reach lim j I) UP) in P.
    unfold ResponseP.handR in P. rewrite HH in P. rewrite !ResponseP.occ_nil in P.
    assert (T0 : ResponseP.occ r (ResponseP.tabR (Response.tab (rr j))) = 0%nat).
    { destruct (ResponseP.occ r (ResponseP.tabR (Response.tab (rr j)))) as [|n] eqn:EO; [reflexivity|exfalso]. assert (X : In r (ResponseP.tabR (Response.tab (rr j)))) by (apply ResponseP.occ_in; lia).
      unfold ResponseP.tabR in X. apply in_map_iff in X. destruct X as ([id r0] & X1 & X2). cbn in X1. subst r0. pose proof (ResponseP.i_tab _ RI _ _ X2) as X3. rewrite RK in X3. subst id.
      destruct (d_tab _ (w3_reach j R) _ _ X2) as [Y|(g & _ & [Y|[[Y|(s & Y)] _]])]; congruence. }
    assert (S1 : Response.sends (rr j) r = 1%nat) by lia. split; [assumption|]. pose proof (ResponseP.i_chan _ RI r) as CH. rewrite S1 in CH.
    assert (FF : forall g, In g (Response.chanF (rr j) r) \/ In (Some g) (Response.gots (rr j) r) -> g = f) by (intros g Hg; destruct (G3 g Hg) as (t' & Y); congruence).
    destruct (Response.chanF (rr j) r) as [|g l] eqn:EC.
    - right. destruct (filter ResponseP.isF (Response.gots (rr j) r)) as [|[g|] l] eqn:EF; [discriminate| |]; assert (X : In (hd None (filter ResponseP.isF (Response.gots (rr j) r))) (filter ResponseP.isF (Response.gots (rr j) r))) by (rewrite EF; left; reflexivity);
        rewrite EF in X; cbn [hd] in X; rewrite <- EF in X; apply filter_In in X; destruct X as [X Y]; [|discriminate]. rewrite (FF g) in X by auto. assumption.
    - left. destruct l; [|cbn in CH; lia]. rewrite (FF g); [reflexivity|]. left. left. reflexivity.
  Qed.

  Lemma first_answer : forall j k r f g t, reach j -> In k (calls j) -> c_stream k = false -> c_resp k = Some r ->
    In f (Response.chanF (rr j) r) \/ In (Some f) (Response.gots (rr j) r) -> rd (c_id k) (cl j) = g :: t -> f = g.
  Proof.
    intros j k r f g t R HK HS HC HF RD. pose proof (rcall lim HT j R) as I.
    destruct (rd_plain j k g I HK ltac:(rewrite RD; left; reflexivity)) as (A & B & C). destruct (answered j g R A B) as (q & Q1 & Q2 & Q3 & _).
    assert (SS : wasSent (pp j) k) by (exists q; split; [assumption|]; split; [assumption|congruence]).
    destruct (w4_reach j R k r HK HS HC SS) as (_ & _ & G3). destruct (G3 f HF) as (t' & Y). congruence.
  Qed.
End D.
