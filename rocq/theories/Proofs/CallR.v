(** Invariants of Model/Call.v: the queue of requests, registration before sending, answers come after requests. *)
From Coq Require Import ZifyBool ZifyNat ZifyN.
From Verif Require Import Model.GoBase Model.Machine Model.Qrpc Model.FrameWriter Model.Reader Model.FrameReader Model.Ids Model.Stream Model.Pair Model.Call
  Spec.FrameSpec Spec.StreamSpec Proofs.StreamP Proofs.StreamI Proofs.StreamQ Proofs.StreamR Proofs.ReaderP Proofs.FrameReaderP Proofs.CodecP Proofs.PairP Proofs.CallP Proofs.CallQ Props.Stream.
From Verif Require Model.Response Proofs.ResponseP Props.Response Proofs.RespE.
Open Scope N_scope.

Section R.
  Variable lim : bool -> Z.
  Hypothesis HT : forall c, tooLarge (lim c) 12 = false.
  Notation reach := (reachable (cstep lim) cinit).
  Lemma rcall : forall j, reach j -> CInv lim j.  Proof. apply reach_call. assumption. Qed.
  Lemma rpair : forall j, reach j -> PairInv lim (pp j).  Proof. intros j R. apply reach_pair; [assumption|]. apply (v_pair _ _ (rcall j R)). Qed.
  Lemma rresp : forall j, reach j -> ResponseP.pinv (rr j).  Proof. intros j R. eapply resp_ok, rcall, R. Qed.

  Lemma new_call : forall j k k', CInv lim j -> c_id k = 2 * (ridGen j + 1) + 1 -> In k' (calls j) -> c_id k' <> c_id k.
  Proof. intros j k k' I EK H. destruct (v_ids _ _ I k' H) as (n & Hn & ->). rewrite EK. lia. Qed.
  Lemma new_frame : forall j k f, CInv lim j -> c_id k = 2 * (ridGen j + 1) + 1 -> In f (sent (pp j) true) \/ cand (pp j) true = Some f -> ~ ofk k f.
  Proof.
    intros j k f I EK HF [P E]. destruct (v_good _ _ I true f HF P) as (k' & A & B & _). apply (new_call j k k' I EK A). congruence.
  Qed.

  (** *** the queue *)
  Record W1 (j : cst) : Prop := {
    w_nodup : NoDup (map c_id (waiting j));
    w_queue : forall k r, In k (waiting j) -> c_resp k = Some r -> In r (Response.queue (rr j));
    w_tk : forall r, taken j = Some r -> In r (Response.queue (rr j)) /\ forall k, In k (waiting j) -> c_resp k <> Some r;
  }.

  Lemma drop_nodup : forall i (w : list call) k, nth_error w i = Some k -> NoDup (map c_id w) -> NoDup (map c_id (drop i w)) /\ ~ In k (drop i w).
  Proof.
    intros i w k H ND. destruct (nth_error_split w i H) as (a & b & -> & <-). unfold drop.
    rewrite firstn_app, Nat.sub_diag, firstn_all, app_nil_r. replace (S (length a)) with (length (a ++ [k])) by (rewrite app_length; cbn; lia).
    replace (a ++ k :: b) with ((a ++ [k]) ++ b) by (rewrite <- app_assoc; reflexivity). rewrite skipn_app, skipn_all, Nat.sub_diag. cbn [skipn app].
    rewrite map_app in ND. cbn [map] in ND. apply NoDup_remove in ND. rewrite map_app. split; [apply ND|]. intro X. apply (proj2 ND). rewrite <- map_app. apply in_map. assumption.
  Qed.

  Lemma w1_reach : forall j, reach j -> W1 j.
  Proof.
    intros j. apply (reach_ind _ _ (cstep lim) W1).
    { constructor; cbn; try tauto; try discriminate. constructor. }
    clear j. intros j l j' R W E. pose proof (rcall j R) as I. pose proof (rresp j R) as RI. apply (cstep_view lim) in E; try assumption.
    assert (SAME : forall p' bt rt an, W1 (mkCst p' (rr j) (ridGen j) (calls j) (waiting j) (taken j) bt rt an (past j))) by (intros; constructor; cbn; apply W).
    assert (NONE : forall p' bt rt an, W1 (mkCst p' (rr j) (ridGen j) (calls j) (waiting j) None bt rt an (past j))) by (intros; constructor; cbn; try apply W; discriminate).
    assert (RESP : forall l r', Response.pstep true (rr j) l = Some r' -> forall p' tk bt rt pa, tk = taken j \/ tk = None ->
      (forall r, l = Response.PCollect r \/ l = Response.PReject r -> taken j = Some r /\ tk = None) -> W1 (mkCst p' r' (ridGen j) (calls j) (waiting j) tk bt rt (answers j) pa)).
    { intros l0 r' ES p' tk bt rt pa HK HC. pose proof (RespE.pstep_eff _ _ _ RI ES) as F. constructor; cbn; [apply W| |].
      - intros k r Hk Hr. destruct (RespE.f_queue _ _ _ F r (w_queue _ W k r Hk Hr)) as [X|X]; [assumption|]. exfalso. destruct (HC r X) as [X1 _]. apply (proj2 (w_tk _ W r X1) k Hk Hr).
      - intros r Hr. destruct HK as [-> | ->]; [|discriminate]. destruct (w_tk _ W r Hr) as [Q1 Q2]. split; [|assumption].
        destruct (RespE.f_queue _ _ _ F r Q1) as [X|X]; [assumption|]. destruct (HC r X) as [_ X1]. congruence. }
    destruct E as [k r' EK HR|i k p' EN EP|id cmd fl ce pay p' EO EP|s q g cmd fl pay p' EG EL ES EP|id cmd fl ce pay p' EO EP|pl p' j' EP NW HA|f r' ER EF ES|rl r' bt ES X1 X2 X3 X4 X5 X6 X7|r' ES].
    - assert (Q : forall r, In r (Response.queue (rr j)) -> In r (Response.queue r')).
      { destruct HR as [[_ ->]|[_ ES]]; [auto|]. intros r Hr. destruct (RespE.f_queue _ _ _ (RespE.pstep_eff _ _ _ RI ES) r Hr) as [X|[X|X]]; [assumption|discriminate|discriminate]. }
      constructor; cbn.
      + rewrite map_app. cbn. apply NoDup_Add with (a := c_id k) (l := map c_id (waiting j)); [|]. { pose proof (Add_app (c_id k) (map c_id (waiting j)) []) as X. rewrite app_nil_r in X. exact X. }
        split; [apply W|]. intro X. apply in_map_iff in X. destruct X as (k' & A & B). apply (new_call j k k' I EK); [apply (v_wait _ _ I); assumption|assumption].
      + intros k' r Hk Hr. apply in_app_iff in Hk. destruct Hk as [Hk|[<-|[]]]; [apply Q; eapply w_queue; eassumption|].
        destruct HR as [[HR _]|[HR ES]]; [congruence|]. rewrite HR in Hr. injection Hr as <-. unfold Response.pstep in ES. injection ES as <-. cbn. apply in_app_iff. right. left. reflexivity.
      + intros r Hr. destruct (w_tk _ W r Hr) as [A B]. split; [auto|]. intros k' Hk. apply in_app_iff in Hk. destruct Hk as [Hk|[<-|[]]]; [auto|].
        destruct HR as [[HR _]|[HR ES]]; [congruence|]. rewrite HR. intro X. injection X as <-. apply (ResponseP.queue_old _ _ RI) in A. lia.
    - destruct (drop_nodup i _ k EN (w_nodup _ W)) as [D1 D2]. pose proof (nth_error_In _ _ EN) as HK. constructor; cbn; [assumption| |].
      + intros k' r Hk Hr. eapply w_queue; [exact W|eapply drop_in; exact Hk|exact Hr].
      + intros r Hr. split; [eapply w_queue; eassumption|]. intros k' Hk' Hr'. assert (k' = k) by (eapply resp_call; [exact I| | |exact Hr'|exact Hr]; apply (v_wait _ _ I); [eapply drop_in; eassumption|assumption]). subst k'. contradiction.
    - apply NONE.
    - apply SAME.
    - apply SAME.
    - destruct HA as [(-> & _)|[(_ & ->)|[(_ & ->)|[(_ & _ & ->)|(_ & _ & r & lb & r' & HK & HL & ES & ->)]]]].
      + apply SAME.
      + apply NONE.
      + apply SAME.
      + apply SAME.
      + eapply RESP; [exact ES|auto|]. intros r0 X. split; [|reflexivity]. rewrite HK. f_equal. rewrite HL in X. destruct (_ <? _)%nat in X; destruct X as [X|X]; congruence.
    - eapply RESP; [exact ES|auto|]. intros r [X|X]; discriminate.
    - eapply RESP; [exact ES|auto|]. intros r [X|X]; [elim (X4 r X)|elim (X5 r X)].
    - eapply RESP; [exact ES|auto|]. intros r [X|X]; discriminate.
  Qed.

  (** *** registered before it is sent; answers come after requests *)
  Definition regd (j : cst) (f : Frame) : Prop := forall k r, In k (calls j) -> c_resp k = Some r -> ofk k f -> Response.reg (rr j) r = true.
  Definition pendd (j : cst) (f : Frame) : Prop := forall k r, In k (calls j) -> c_resp k = Some r -> ofk k f ->
    Response.reg (rr j) r = true \/ Response.wAlive (rr j) = false \/ exists b, Response.wph (rr j) = Response.WCollect b /\ In r b.
  Record W2 (j : cst) : Prop := {
    e_split : exists A B, sent (pp j) true = A ++ B /\ batch j = length (wires B) /\ (batch j <= length (flight (pp j) true))%nat /\
      (forall f, In f A -> regd j f) /\ (forall f, In f B -> pendd j f);
    e_cand : forall f k r, cand (pp j) true = Some f -> In k (calls j) -> c_resp k = Some r -> ofk k f ->
      (Response.reg (rr j) r = true /\ c_stream k = true) \/ taken j = Some r;
    e_here : forall f, In f (sent (pp j) false) \/ cand (pp j) false = Some f -> plainf f ->
      exists q, In q (inlog (ep (pp j) false)) /\ plainf q /\ fRequestID q = fRequestID f;
  }.

  Lemma wires_app : forall a f, length (wires (a ++ [f])) = (length (wires a) + wlen f)%nat.
  Proof. intros. unfold wires, wlen. rewrite map_app, concat_app, app_length. cbn. rewrite app_nil_r. reflexivity. Qed.

  (** the other side: what the server sends *)
  Lemma here_step : forall j l p', reach j -> W2 j -> pstep lim (pp j) l = Some p' ->
    (forall id cmd fl ce pay, l = PWrite false id cmd fl ce pay -> plainf (mkFrame id fl (N.land cmd 0xffffff) pay) -> exists q, In q (inlog (ep (pp j) false)) /\ plainf q /\ fRequestID q = id) ->
    forall f, In f (sent p' false) \/ cand p' false = Some f -> plainf f -> exists q, In q (inlog (ep p' false)) /\ plainf q /\ fRequestID q = fRequestID f.
  Proof.
    intros j l p' R W EP HW f HF P. pose proof (rpair j R) as PI.
    enough (X : exists q, In q (inlog (ep (pp j) false)) /\ plainf q /\ fRequestID q = fRequestID f).
    { destruct X as (q & Q1 & Q2). exists q. split; [|assumption]. eapply inlog_mono; eassumption. }
    destruct HF as [HF|HF].
    - apply (e_here _ W); [|assumption]. eapply psent_step; eassumption.
    - destruct (pcand_step lim _ _ _ PI EP false f HF) as [X|[X|(id & cmd & fl & ce & pay & -> & ->)]].
      + apply (e_here _ W); auto.
      + destruct P as (P & _). congruence.
      + destruct (HW id cmd fl ce pay eq_refl P) as (q & Q). exists q. exact Q.
  Qed.

  (** a step of the connection that puts nothing on the client's side of the wire *)
  Lemma quiet_step : forall j l p', reach j -> W2 j -> pstep lim (pp j) l = Some p' -> l <> PLoc true LWStep ->
    (forall n, l = PArrive false n -> (n + batch j <= length (flight (pp j) true))%nat) -> forall w tk rt an,
    (forall f k r, cand p' true = Some f -> In k (calls j) -> c_resp k = Some r -> ofk k f -> (Response.reg (rr j) r = true /\ c_stream k = true) \/ tk = Some r) ->
    (forall id cmd fl ce pay, l = PWrite false id cmd fl ce pay -> plainf (mkFrame id fl (N.land cmd 0xffffff) pay) -> exists q, In q (inlog (ep (pp j) false)) /\ plainf q /\ fRequestID q = id) ->
    W2 (mkCst p' (rr j) (ridGen j) (calls j) w tk (batch j) rt an (past j)).
  Proof.
    intros j l p' R W EP NL HN w tk rt an HC HW. pose proof (rpair j R) as PI. constructor; cbn [pp rr ridGen calls waiting taken batch ret answers past].
    - destruct (e_split _ W) as (A & B & S1 & S2 & S3 & S4 & S5). exists A, B. destruct (sent_step lim HT _ _ _ PI EP) as [[X1 X2]|[X _]]; [|contradiction].
      rewrite X1. split; [assumption|]. split; [assumption|]. split; [|split; assumption].
      destruct X2 as [X2|(n & X2 & X3)]; [rewrite X2; assumption|]. rewrite X3, skipn_length. specialize (HN n X2). lia.
    - assumption.
    - eapply here_step; eassumption.
  Qed.

  Lemma cand_old : forall j l p', reach j -> W2 j -> pstep lim (pp j) l = Some p' -> (forall id cmd fl ce pay, l <> PWrite true id cmd fl ce pay) ->
    forall f k r, cand p' true = Some f -> In k (calls j) -> c_resp k = Some r -> ofk k f -> (Response.reg (rr j) r = true /\ c_stream k = true) \/ taken j = Some r.
  Proof.
    intros j l p' R W EP NW f k r HF HK HR HO. destruct (pcand_step lim _ _ _ (rpair j R) EP true f HF) as [X|[X|(id & cmd & fl & ce & pay & X & _)]].
    - eapply (e_cand _ W); eassumption.
    - destruct HO as [(P & _) _]. congruence.
    - elim (NW _ _ _ _ _ X).
  Qed.

  Lemma w2_reach : forall j, reach j -> W2 j.
  Proof.
    intros j. apply (reach_ind _ _ (cstep lim) W2).
    { constructor; cbn.
      - exists [], []. cbn. split; [reflexivity|]. split; [reflexivity|]. split; [lia|]. split; contradiction.
      - discriminate.
      - intros f [[]|X]. discriminate. }
    clear j. intros j l j' R W E. pose proof (rcall j R) as I. pose proof (rresp j R) as RI. pose proof (rpair j R) as PI. pose proof (w1_reach j R) as QW.
    apply (cstep_view lim) in E; try assumption.
    (* an action on the Responses only *)
    assert (RESP : forall l r', Response.pstep true (rr j) l = Some r' -> l <> Response.PRegister -> l <> Response.PConnect -> forall w rt,
      (forall r, taken j = Some r -> taken j = Some r) -> W2 (mkCst (pp j) r' (ridGen j) (calls j) w (taken j) (batch j) rt (answers j) (past j))).
    { intros l0 r' ES N1 N2 w rt _. pose proof (RespE.pstep_eff _ _ _ RI ES) as F. constructor; cbn [pp rr ridGen calls waiting taken batch ret answers past].
      - destruct (e_split _ W) as (A & B & S1 & S2 & S3 & S4 & S5). exists A, B. repeat split; auto.
        + intros f Hf k r Hk Hr Ho. apply (RespE.f_reg _ _ _ F). eapply S4; eassumption.
        + intros f Hf k r Hk Hr Ho. cbn. destruct (S5 f Hf k r Hk Hr Ho) as [X|[X|(b & X1 & X2)]].
          * left. apply (RespE.f_reg _ _ _ F). assumption.
          * destruct (RespE.f_dead _ _ _ F X); [auto|contradiction].
          * destruct (RespE.f_coll _ _ _ F b r X1 X2) as [Y|[Y|Y]]; [auto|contradiction|auto].
      - intros f k r Hf Hk Hr Ho. destruct (e_cand _ W f k r Hf Hk Hr Ho) as [[X Y]|X]; [left; split; [apply (RespE.f_reg _ _ _ F); assumption|assumption]|auto].
      - apply (e_here _ W). }
    destruct E as [k r' EK HR|i k p' EN EP|id cmd fl ce pay p' EO EP|s q g cmd fl pay p' EG EL ES EP|id cmd fl ce pay p' EO EP|pl p' j' EP NW HA|f r' ER EF ES|rl r' bt ES X1 X2 X3 X4 X5 X6 X7|r' ES].
    - (* a new call *)
      assert (W' : W2 (mkCst (pp j) r' (ridGen j) (calls j) (waiting j) (taken j) (batch j) (ret j) (answers j) (past j))).
      { destruct HR as [[_ ->]|[_ ES]]; [destruct W; constructor; assumption|]. apply (RESP _ r' ES); [discriminate|discriminate|auto]. }
      constructor; cbn [pp rr ridGen calls waiting taken batch ret answers past].
      + destruct (e_split _ W') as (A & B & S1 & S2 & S3 & S4 & S5). cbn [pp rr ridGen calls waiting taken batch ret answers past] in *. exists A, B. repeat split; auto.
        * intros f Hf k0 r [<-|Hk] Hr Ho; [exfalso|eapply S4; eassumption]. apply (new_frame j k f I EK); [left; rewrite S1; apply in_app_iff; auto|assumption].
        * intros f Hf k0 r [<-|Hk] Hr Ho; [exfalso|eapply S5; eassumption]. apply (new_frame j k f I EK); [left; rewrite S1; apply in_app_iff; auto|assumption].
      + intros f k0 r Hf [<-|Hk] Hr Ho; [exfalso|eapply (e_cand _ W'); eassumption]. apply (new_frame j k f I EK); auto.
      + apply (e_here _ W').
    - eapply quiet_step; [exact R|exact W|exact EP|discriminate|discriminate| |discriminate].
      intros f k' r Hf Hk' Hr Ho. destruct (pcand_step lim _ _ _ PI EP true f Hf) as [X|[X|(id & cmd & fl & ce & pay & X & Y)]].
      + exfalso. assert (WI : wpc (ep (pp j) true) = WIdle).
        { clear - EP. unfold pstep in EP. destruct (fits _ _ _ _); [|discriminate]. destruct (sstep _ _ _) as [st'|] eqn:ES; [|discriminate]. unfold sstep in ES. destruct (panicked _); [discriminate|]. destruct (wpc _); try discriminate. reflexivity. }
        unfold cand, wid in X. rewrite WI in X. discriminate.
      + exfalso. destruct Ho as [(P & _) _]. congruence.
      + injection X as <- <- <- <- <-. subst f. destruct Ho as [_ Ho]. cbn in Ho. right.
        assert (k' = k) by (eapply same_call; [apply I|assumption| |congruence]; apply (v_wait _ _ I); eapply nth_error_In; eassumption). subst k'. assumption.
    - eapply quiet_step; [exact R|exact W|exact EP|discriminate|discriminate| |discriminate].
      intros f k' r Hf Hk' Hr Ho. destruct (pcand_step lim _ _ _ PI EP true f Hf) as [X|[X|(id' & cmd' & fl' & ce' & pay' & X & Y)]].
      + exfalso. assert (WI : wpc (ep (pp j) true) = WIdle).
        { clear - EP. unfold pstep in EP. destruct (fits _ _ _ _); [|discriminate]. destruct (sstep _ _ _) as [st'|] eqn:ES; [|discriminate]. unfold sstep in ES. destruct (panicked _); [discriminate|]. destruct (wpc _); try discriminate. reflexivity. }
        unfold cand, wid in X. rewrite WI in X. discriminate.
      + exfalso. destruct Ho as [(P & _) _]. congruence.
      + injection X as <- <- <- <- <-. subst f. destruct Ho as [(P1 & P2 & P3) Ho]. cbn in Ho, P1, P2, P3. unfold otherOk in EO. rewrite !orb_true_iff, existsb_exists in EO.
        destruct EO as [[[EO|EO]|EO]|(k & K1 & K2)]; try congruence. rewrite !andb_true_iff, N.eqb_eq in K2. destruct K2 as [[K2 K3] K4].
        assert (k' = k) by (eapply same_call; [apply I|assumption|assumption|congruence]). subst k'. rewrite Hr in K4. left. split; [|assumption].
        destruct (Response.res (rr j) r) as [[|]|] eqn:ER; try discriminate. apply (ResponseP.i_res _ RI). assumption.
    - eapply quiet_step; [exact R|exact W|exact EP|discriminate|discriminate| |].
      + eapply cand_old; [exact R|exact W|exact EP|discriminate].
      + intros id' cmd' fl' ce' pay' X P. injection X as <- <- <- <- <-. exists q.
        destruct (got_in false _ s q (q_reach _ _ PI false) EL ltac:(rewrite EG; left; reflexivity)) as (G1 & G2 & G3 & G4). split; [assumption|]. split; [|reflexivity].
        unfold plainf. rewrite G2, G3, ES. destruct P as (_ & _ & P). auto.
    - eapply quiet_step; [exact R|exact W|exact EP|discriminate|discriminate| |].
      + eapply cand_old; [exact R|exact W|exact EP|discriminate].
      + intros id' cmd' fl' ce' pay' X (P1 & P2 & P3). injection X as <- <- <- <- <-. cbn in P1, P2, P3. unfold serverOk in EO. rewrite !orb_true_iff in EO. destruct EO as [[EO|EO]|EO]; congruence.
    - pose proof (cand_old j pl p' R W EP ltac:(intros; apply NW)) as CO.
      assert (HH : forall id cmd fl ce pay, pl = PWrite false id cmd fl ce pay -> plainf (mkFrame id fl (N.land cmd 0xffffff) pay) -> exists q, In q (inlog (ep (pp j) false)) /\ plainf q /\ fRequestID q = id) by (intros; exfalso; eapply NW; eassumption).
      destruct HA as [(-> & _ & N1 & _ & N2 & _)|[(E1 & ->)|[(E1 & ->)|[(E1 & HC & ->)|(E1 & HI & r & lb & r' & HK & HL & ES & ->)]]]].
      + eapply (quiet_step j); [exact R|exact W|exact EP|exact N1|exact N2|exact CO|exact HH].
      + subst pl. eapply (quiet_step j); [exact R|exact W|exact EP|discriminate|discriminate| |discriminate].
        intros f k r Hf Hk Hr Ho. destruct (pcand_step lim _ _ _ PI EP true f Hf) as [X|[X|(id' & cmd' & fl' & ce' & pay' & X & Y)]].
        * exfalso. assert (WI : wpc (ep (pp j) true) = WIdle).
          { clear - EP. unfold pstep in EP. destruct (sstep _ _ _) as [st'|] eqn:ES; [|discriminate]. unfold sstep in ES. destruct (panicked _); [discriminate|]. destruct (wpc _); try discriminate. reflexivity. }
          unfold cand, wid in X. rewrite WI in X. discriminate.
        * exfalso. destruct Ho as [(P & _) _]. congruence.
        * discriminate.
      + subst pl. eapply (quiet_step j); [exact R|exact W|exact EP|discriminate|discriminate|exact CO|discriminate].
      + subst pl. constructor; unfold w_batch, w_pp; cbn [pp rr ridGen calls waiting taken batch ret answers past]; [|exact CO|eapply here_step; eassumption].
        destruct (e_split _ W) as (A & B & S1 & S2 & S3 & S4 & S5). destruct (sent_step lim HT _ _ _ PI EP) as [[Y1 Y2]|(_ & f & Y1 & Y2 & Y3 & Y4 & Y5)].
        * exists A, B. rewrite Y1. destruct Y2 as [->|(n & Y2 & _)]; [|discriminate]. rewrite Nat.sub_diag, Nat.add_0_r. repeat split; auto.
        * destruct HC as [HC|HC]; [contradiction|]. exists A, (B ++ [f]). rewrite Y2, S1, app_assoc, wires_app, Y3. repeat split; auto; try lia.
          intros g Hg. apply in_app_iff in Hg. destruct Hg as [Hg|[<-|[]]]; [apply S5; assumption|]. intros k r Hk Hr Ho.
          destruct (e_cand _ W f k r Y1 Hk Hr Ho) as [[X _]|X]; [auto|congruence].
      + subst pl. pose proof (RespE.pstep_eff _ _ _ RI ES) as F.
        assert (NR : lb <> Response.PRegister /\ lb <> Response.PConnect) by (rewrite HL; destruct (_ <? _)%nat; split; discriminate). destruct NR as [NR NC].
        constructor; unfold w_taken, w_rr, w_batch, w_pp; cbn [pp rr ridGen calls waiting taken batch ret answers past]; [| |eapply here_step; eassumption].
        * assert (MP : forall g, pendd j g -> forall k r, In k (calls j) -> c_resp k = Some r -> ofk k g ->
             Response.reg r' r = true \/ Response.wAlive r' = false \/ exists b, Response.wph r' = Response.WCollect b /\ In r b).
          { intros g Hg k r0 Hk Hr Ho. destruct (Hg k r0 Hk Hr Ho) as [X|[X|(b & Z1 & Z2)]].
            - left. apply (RespE.f_reg _ _ _ F). assumption.
            - destruct (RespE.f_dead _ _ _ F X); [auto|contradiction].
            - destruct (RespE.f_coll _ _ _ F b r0 Z1 Z2) as [Y|[Y|Y]]; [auto|contradiction|auto]. }
          destruct (e_split _ W) as (A & B & S1 & S2 & S3 & S4 & S5).
          assert (MR : forall g, In g A -> forall k r, In k (calls j) -> c_resp k = Some r -> ofk k g -> Response.reg r' r = true).
          { intros g Hg k r0 Hk Hr Ho. apply (RespE.f_reg _ _ _ F). eapply S4; eassumption. }
          destruct (sent_step lim HT _ _ _ PI EP) as [[Y1 Y2]|(_ & f & Y1 & Y2 & Y3 & Y4 & Y5)].
          -- exists A, B. rewrite Y1. destruct Y2 as [->|(n & Y2 & _)]; [|discriminate]. rewrite Nat.sub_diag, Nat.add_0_r. repeat split; auto. intros g Hg. exact (MP g (S5 g Hg)).
          -- exists A, (B ++ [f]). rewrite Y2, S1, app_assoc, wires_app, Y3. repeat split; auto; try lia.
             intros g Hg. apply in_app_iff in Hg. destruct Hg as [Hg|[<-|[]]]; [exact (MP g (S5 g Hg))|]. intros k r0 Hk Hr Ho. cbn [rr calls] in *.
             destruct (e_cand _ W f k r0 Y1 Hk Hr Ho) as [[X _]|X]; [left; apply (RespE.f_reg _ _ _ F); assumption|].
             assert (r0 = r) by congruence. subst r0. right; right. rewrite Y2, app_length in HL. cbn [length] in HL.
             destruct (Nat.ltb_spec (length (sent (pp j) true)) (length (sent (pp j) true) + 1)); [|lia]. subst lb. unfold Response.pstep in ES.
             destruct (Response.wph (rr j)) as [b| |]; try discriminate. destruct (_ && _); [|discriminate]. injection ES as <-. exists (b ++ [r]). cbn. split; [reflexivity|]. apply in_app_iff. right. left. reflexivity.
        * intros f k r0 Hf. exfalso. unfold cand, wid in Hf. rewrite HI in Hf. discriminate.
    - unfold w_ret, w_rr. cbn [pp rr ridGen calls waiting taken batch ret answers past]. apply (RESP _ r' ES); [discriminate|discriminate|auto].
    - assert (DR : rl = Response.PRegister \/ rl <> Response.PRegister) by (destruct rl; auto; right; discriminate). destruct DR as [->|NR].
      2:{ rewrite (X6 NR). apply (RESP _ r' ES); auto. }
      destruct (X7 eq_refl) as [WI ->]. pose proof (RespE.pstep_eff _ _ _ RI ES) as F.
      assert (EB : exists b, Response.wph (rr j) = Response.WCollect b /\ Response.wAlive (rr j) = true).
      { clear - ES. unfold Response.pstep in ES. destruct (Response.wph (rr j)) as [b| |]; try discriminate. exists b. split; [reflexivity|]. destruct (Response.wAlive (rr j)); [reflexivity|discriminate]. }
      destruct EB as (b & EB & EA). destruct (e_split _ W) as (A & B & S1 & S2 & S3 & S4 & S5).
      constructor; cbn [pp rr ridGen calls waiting taken batch ret answers past]; [| |apply (e_here _ W)].
      + destruct (Response.up (rr j)) eqn:EU.
        * exists (A ++ B), []. rewrite app_nil_r. repeat split; auto; try lia; [|contradiction].
          intros f Hf k r Hk Hr Ho. cbn [rr calls] in *. apply in_app_iff in Hf. destruct Hf as [Hf|Hf]; [apply (RespE.f_reg _ _ _ F); eapply S4; eassumption|].
          destruct (S5 f Hf k r Hk Hr Ho) as [X|[X|(b' & Y1 & Y2)]]; [apply (RespE.f_reg _ _ _ F); assumption|congruence|].
          assert (b' = b) by congruence. subst b'. eapply register_batch; eassumption.
        * exists A, B. repeat split; auto.
          -- intros f Hf k r Hk Hr Ho. apply (RespE.f_reg _ _ _ F). eapply S4; eassumption.
          -- intros f Hf k r Hk Hr Ho. right; left. cbn. clear - ES EU EB EA. unfold Response.pstep in ES. rewrite EB, EU, EA in ES. cbn in ES. destruct (Response.closing (rr j)); [|discriminate]. injection ES as <-. reflexivity.
      + intros f k r Hf. exfalso. unfold cand, wid in Hf. rewrite WI in Hf. discriminate.
    - constructor; cbn.
      + exists [], []. cbn. repeat split; auto; contradiction.
      + discriminate.
      + intros f [[]|X]. discriminate.
  Qed.
End R.
