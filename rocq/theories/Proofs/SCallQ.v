(** More about Model/ServerCall.v, after Proofs/CallQ.v. *)
From Coq Require Import ZifyBool ZifyNat ZifyN.
From Verif Require Import Model.GoBase Model.Machine Model.Qrpc Model.FrameWriter Model.Reader Model.FrameReader Model.Ids Model.Stream Model.Pair Model.Call
  Spec.FrameSpec Spec.StreamSpec Proofs.StreamP Proofs.StreamI Proofs.StreamQ Proofs.StreamR Proofs.ReaderP Proofs.FrameReaderP Proofs.CodecP Proofs.PairP
  Proofs.CallP Proofs.CallQ Model.ServerCall Proofs.SCallP Props.Stream.
From Verif Require Model.Response Proofs.ResponseP Props.Response Proofs.RespE.
Open Scope N_scope.

(** a frame under the id of a call *)
Definition ofk (k : call) (f : Frame) : Prop := plainf f /\ fRequestID f = c_id k.

(** *** the connection *)
Section A.
  Variable lim : bool -> Z.
  Hypothesis HT : forall c, tooLarge (lim c) 12 = false.

  Lemma sent_step : forall p l p', PairInv lim p -> pstep lim p l = Some p' ->
    (sent p' false = sent p false /\ (flight p' false = flight p false \/ exists n, l = PArrive true n /\ flight p' false = skipn n (flight p false))) \/
    (l = PLoc false LWStep /\ exists f, cand p false = Some f /\ sent p' false = sent p false ++ [f] /\
       length (flight p' false) = (length (flight p false) + wlen f)%nat /\ cand p' false = None /\ wpc (ep p' false) = WIdle).
  Proof.
    intros p l p' I E. pose proof (pinv_step lim HT p l p' I E) as I'. destruct l as [c l|c i cmd fl ce payload|c n|c].
    - destruct (sstep c (ep p c) l) as [st'|] eqn:ES; [|unfold pstep in E; destruct l; try discriminate E; rewrite ES in E; discriminate E].
      assert (A : p' = advance c st' p -> (forall f, l <> LFrame f) -> (sent p' false = sent p false /\ (flight p' false = flight p false \/ exists n, PLoc c l = PArrive true n /\ flight p' false = skipn n (flight p false))) \/
        (PLoc c l = PLoc false LWStep /\ exists f, cand p false = Some f /\ sent p' false = sent p false ++ [f] /\
           length (flight p' false) = (length (flight p false) + wlen f)%nat /\ cand p' false = None /\ wpc (ep p' false) = WIdle)).
      { intros X NF. destruct (q_wire _ _ I false) as (rest & W1 & W2). destruct (q_wire _ _ I' false) as (rest' & W1' & W2'). cbn [negb] in *.
        subst p'. destruct (adv_ep c st' p) as [E1 E2]. rewrite E1 in W1'.
        assert (RX : rx (advance c st' p) = rx p) by (unfold advance; destruct (accepted _ _) as [[? ?]|]; [destruct (cur p c)|]; reflexivity). rewrite RX in W2'.
        assert (IL : inlog (put (ep p) c st' true) = inlog (ep p true)).
        { destruct (Bool.bool_dec true c) as [<-|N]; [rewrite put_eq; apply (inlog_step true _ l st' ES NF)|rewrite put_neq by assumption; reflexivity]. }
        rewrite IL in W1'. unfold cand at 2. rewrite E1, E2. unfold advance in *.
        destruct (accepted (ep p c) st') as [[id fl]|] eqn:EA; [|left; auto]. destruct (cur p c) as [cmd pay] eqn:EC. cbn [sent flight] in *.
        destruct c; [rewrite !put_neq by discriminate; auto|right]. rewrite !put_eq in *.
        unfold accepted in EA. destruct (log_step false _ l st' ES) as [L|(i & fl' & r & L & W)]; [rewrite L, skipn_all2 in EA by lia; discriminate|].
        assert (NL : wlog st' <> wlog (ep p false)) by (rewrite L; intro X; apply (f_equal (@length _)) in X; rewrite app_length in X; cbn in X; lia).
        rewrite L, skipn_app, skipn_all2, Nat.sub_diag in EA by lia. cbn [skipn app] in EA. destruct r; try discriminate. injection EA as -> ->.
        destruct (log_wstep false _ l st' ES NL) as [-> EW]. split; [reflexivity|].
        exists (mkFrame id fl (N.land cmd 0xffffff) pay). split; [unfold cand; rewrite W, EC; reflexivity|]. split; [reflexivity|].
        split; [|split; [rewrite (wid_accept false _ _ st' ES NL); reflexivity|exact EW]].
        rewrite W1, <- app_assoc in W1'. apply app_inv_head in W1'. rewrite <- W1' in W2'. unfold wires in W2'. rewrite map_app, concat_app in W2'. fold (wires rest) in W2'. rewrite <- W2 in W2'.
        apply (f_equal (@length _)) in W2'. rewrite !app_length in W2'. cbn [map concat] in W2'. rewrite app_nil_r in W2'. fold (wlen (mkFrame id fl (N.land cmd 16777215) pay)) in W2'. rewrite app_length. lia. }
      unfold pstep in E. destruct l; try discriminate E; rewrite ES in E; injection E as <-; try (apply A; [reflexivity|discriminate]). left. auto.
    - unfold pstep in E. destruct (fits _ _ _ _); [|discriminate]. destruct (sstep _ _ _) as [st'|] eqn:ES; [|discriminate]. injection E as <-. left. auto.
    - unfold pstep in E. injection E as <-. cbn [sent flight]. left. split; [reflexivity|]. destruct c; cbn [negb]; [rewrite put_eq; right; eauto|rewrite put_neq by discriminate; auto].
    - unfold pstep in E. destruct (readFrame _ _ _ _) as [r' [g|e]]; [|discriminate]. destruct (sstep _ _ _) as [st'|] eqn:ES; [|discriminate]. injection E as <-. left. auto.
  Qed.

  (** what the server has read was given to the network: it is not among the last [b] bytes *)
  Lemma read_front : forall p A B, PairInv lim p -> sent p false = A ++ B -> (length (wires B) <= length (flight p false))%nat ->
    forall f, In f (inlog (ep p true)) -> In f A.
  Proof.
    intros p A B I HS HL f HF. destruct (q_wire _ _ I false) as (rest & W1 & W2). cbn [negb] in *. rewrite HS in W1.
    assert (LW : (length (wires B) <= length (wires rest))%nat) by (rewrite <- W2, app_length; lia).
    clear HS HL W2 I. revert rest B W1 LW. generalize (inlog (ep p true)) HF. clear HF. revert A.
    induction A as [|a A IH]; intros il HF rest B W1 LW.
    - exfalso. cbn in W1. subst B. unfold wires in LW. rewrite map_app, concat_app, app_length in LW.
      destruct il as [|x il]; [contradiction|]. cbn [map concat] in LW. rewrite app_length in LW. pose proof (wlen_pos x). unfold wlen in *. lia.
    - destruct il as [|x il]; [contradiction|]. cbn in W1. injection W1 as <- W1. destruct HF as [<-|HF]; [left; reflexivity|right]. eapply IH; eassumption.
  Qed.
End A.

(** *** one action, sorted *)
Section V.
  Variable lim : bool -> Z.
  Hypothesis HT : forall c, tooLarge (lim c) 12 = false.

  Inductive cview (j : cst) : cst -> Prop :=
  | VCall k r' : c_id k = 2 * (ridGen j + 1) ->
      (c_resp k = None /\ r' = rr j) \/ (c_resp k = Some (Response.nextR (rr j)) /\ Response.pstep false (rr j) (Response.PRequest (c_id k)) = Some r') ->
      cview j (mkCst (pp j) r' (ridGen j + 1) (k :: calls j) (waiting j ++ [k]) (taken j) (batch j) (ret j) (answers j) (given j))
  | VTake i k p' : nth_error (waiting j) i = Some k -> pstep lim (pp j) (PWrite false (c_id k) (c_cmd k) (c_fl k) false (c_pay k)) = Some p' ->
      cview j (mkCst p' (rr j) (ridGen j) (calls j) (drop i (waiting j)) (c_resp k) (batch j) (ret j) (answers j) (given j))
  | VOther id cmd fl ce pay p' : otherOk j id fl = true -> pstep lim (pp j) (PWrite false id cmd fl ce pay) = Some p' ->
      cview j (mkCst p' (rr j) (ridGen j) (calls j) (waiting j) None (batch j) (ret j) (answers j) (given j))
  | VAns s q g cmd fl pay p' : got (heap (ep (pp j) true) s) = q :: g -> s < next (ep (pp j) true) -> spush (heap (ep (pp j) true) s) = false ->
      pstep lim (pp j) (PWrite true (fRequestID q) cmd fl false pay) = Some p' ->
      cview j (mkCst p' (rr j) (ridGen j) (calls j) (waiting j) (taken j) (batch j) (ret j)
        ((q, mkFrame (fRequestID q) fl (N.land cmd 0xffffff) pay) :: answers j) (given j))
  | VServ id cmd fl ce pay p' : clientOk id fl = true -> pstep lim (pp j) (PWrite true id cmd fl ce pay) = Some p' -> cview j (w_pp p' j)
  | VPair l p' j' : pstep lim (pp j) l = Some p' -> (forall d id cmd fl ce pay, l <> PWrite d id cmd fl ce pay) -> pairAfter j l p' j' -> cview j j'
  | VLook f r' : rpc (ep (pp j) false) = RIdle -> ret j = Some f -> Response.pstep false (rr j) (Response.PFrame f true) = Some r' -> cview j (w_given (if toHandler j f then given j ++ [f] else given j) (w_ret None (w_rr r' j)))
  | VResp l r' bt : Response.pstep false (rr j) l = Some r' -> (forall id, l <> Response.PRequest id) -> (forall f b, l <> Response.PFrame f b) ->
      l <> Response.PConnect -> (forall r, l <> Response.PCollect r) -> (forall r, l <> Response.PReject r) ->
      (l <> Response.PRegister -> bt = batch j) ->
      (l = Response.PRegister -> wpc (ep (pp j) false) = WIdle /\ bt = (if Response.up (rr j) then 0 else batch j)%nat) ->
      cview j (mkCst (pp j) r' (ridGen j) (calls j) (waiting j) (taken j) bt (ret j) (answers j) (given j)).

  Lemma cstep_view : forall j l j', CInv lim j -> cstepQ lim j l = Some j' -> cview j j'.
  Proof.
    intros j l j' I E. unfold cstepQ in E. destruct l as [stream cmd fl payload|i|id cmd fl ce payload|s cmd fl payload|id cmd fl ce payload|i cmd fl payload|l| |l]; cbn [quiet] in E; try discriminate E; try (unfold cstep in E).
    - unfold serverNextID in E. destruct (2 ^ 63 <=? ridGen j + 1) eqn:EG; [discriminate|]. apply N.leb_gt in EG.
      assert (E1 : u64 (ridGen j + 1) = ridGen j + 1) by (apply N.mod_small; lia). rewrite E1 in E.
      assert (E2 : u64 (2 * (ridGen j + 1)) = 2 * (ridGen j + 1)) by (apply N.mod_small; lia). rewrite E2 in E.
      destruct (IsPush _).
      + injection E as <-. apply VCall; auto.
      + destruct (Response.pstep false (rr j) _) as [r'|] eqn:ER; [|discriminate]. injection E as <-. apply VCall; auto.
    - destruct (nth_error (waiting j) i) as [k|] eqn:EW; [|discriminate]. destruct (collecting j); [|discriminate]. destruct (pstep lim (pp j) _) as [p'|] eqn:EP; [|discriminate]. injection E as <-.
      eapply VTake; eassumption.
    - destruct (otherOk j id fl && collecting j) eqn:EO; [|discriminate]. apply andb_true_iff in EO. destruct EO as [EO _].
      destruct (pstep lim (pp j) _) as [p'|] eqn:EP; [|discriminate]. injection E as <-. exact (VOther j id cmd fl ce payload p' EO EP).
    - destruct (got (heap (ep (pp j) true) s)) as [|q g] eqn:EQ; [discriminate|]. destruct (_ && _) eqn:EB; [|discriminate]. apply andb_true_iff in EB. destruct EB as [EB _]. apply andb_true_iff in EB. destruct EB as [EB1 EB2]. apply N.ltb_lt in EB1. apply negb_true_iff in EB2.
      destruct (pstep lim (pp j) _) as [p'|] eqn:EP; [|discriminate]. injection E as <-. eapply VAns; eassumption.
    - destruct (clientOk id fl) eqn:EO; [|discriminate]. destruct (pstep lim (pp j) _) as [p'|] eqn:EP; [|discriminate]. injection E as <-. eapply VServ; eassumption.
    - destruct (pair_case lim j l j' E) as (p' & A & B & C). eapply VPair; eassumption.
    - destruct (rpc (ep (pp j) false)) eqn:ER; try discriminate. destruct (ret j) as [f|] eqn:EF; [|discriminate].
      destruct (Response.pstep false (rr j) _) as [r'|] eqn:ES; [|discriminate]. injection E as <-. eapply VLook; eassumption.
    - destruct (resp_case lim j l j' E) as (r' & bt & ES & X1 & X2 & (X3 & X4 & X5 & X6 & X7 & _) & ->). eapply VResp; eassumption.
  Qed.

  (** *** Responses and calls *)
  Lemma resp_reach : forall j, CInv lim j -> reachable (Response.pstep false) Response.pinit (rr j).
  Proof. intros j I. destruct (v_resp _ _ I) as (ls & A & _). exists ls. exact A. Qed.
  Lemma resp_ok : forall j, CInv lim j -> ResponseP.pinv (rr j).
  Proof. intros j I. eapply ResponseP.pinv_reachable. apply resp_reach. assumption. Qed.
  Lemma rid_call : forall j k r, CInv lim j -> In k (calls j) -> c_resp k = Some r -> Response.rid (rr j) r = c_id k /\ r < Response.nextR (rr j).
  Proof.
    intros j k r I HK HR. destruct (v_resp _ _ I) as (ls & A & _ & C). destruct (Response.hist_run false ls _ A) as (_ & HN & HI).
    assert (X : nth_error (Response.requests ls) (N.to_nat r) = Some (c_id k)) by (apply C; exists k; rewrite N2Nat.id; auto).
    assert (L : r < Response.nextR (rr j)) by (rewrite HN; assert (Y : nth_error (Response.requests ls) (N.to_nat r) <> None) by congruence; apply nth_error_Some in Y; lia).
    rewrite (HI r L) in X. split; [congruence|assumption].
  Qed.
  Lemma call_rid : forall j r, CInv lim j -> r < Response.nextR (rr j) -> exists k, In k (calls j) /\ c_resp k = Some r /\ c_id k = Response.rid (rr j) r.
  Proof.
    intros j r I L. destruct (v_resp _ _ I) as (ls & A & _ & C). destruct (Response.hist_run false ls _ A) as (_ & HN & HI).
    pose proof (proj1 (C _ _) (HI r L)) as X. rewrite N2Nat.id in X. exact X.
  Qed.
  Lemma rid_inj : forall j r r', CInv lim j -> r < Response.nextR (rr j) -> r' < Response.nextR (rr j) -> Response.rid (rr j) r = Response.rid (rr j) r' -> r = r'.
  Proof.
    intros j r r' I L L' E. destruct (call_rid j r I L) as (k & K1 & K2 & K3). destruct (call_rid j r' I L') as (k' & K1' & K2' & K3').
    assert (k = k') by (eapply same_call; [apply I|assumption|assumption|congruence]). congruence.
  Qed.
  Lemma resp_call : forall j k k' r, CInv lim j -> In k (calls j) -> In k' (calls j) -> c_resp k = Some r -> c_resp k' = Some r -> k = k'.
  Proof.
    intros j k k' r I H H' E E'. eapply same_call; [apply I|assumption|assumption|]. destruct (rid_call j k r I H E), (rid_call j k' r I H' E'). congruence.
  Qed.
  Lemma queue_unreg : forall s r, ResponseP.pinv s -> In r (Response.queue s) -> Response.reg s r = false.
  Proof. intros s r I H. pose proof (ResponseP.i_unreg s I r) as U. apply ResponseP.occ_in in H. destruct (Response.reg s r); [lia|reflexivity]. Qed.
  Lemma unreg_unreg : forall s r, ResponseP.pinv s -> In r (ResponseP.unreg s) -> Response.reg s r = false.
  Proof. intros s r I H. pose proof (ResponseP.i_unreg s I r) as U. apply ResponseP.occ_in in H. destruct (Response.reg s r); [lia|reflexivity]. Qed.

  (** registering a batch registers all of it *)
  Lemma register_batch : forall j b r r', CInv lim j -> Response.pstep false (rr j) Response.PRegister = Some r' -> Response.up (rr j) = true ->
    Response.wph (rr j) = Response.WCollect b -> In r b -> Response.reg r' r = true.
  Proof.
    intros j b r r' I E U W HR. pose proof (resp_ok j I) as RI. unfold Response.pstep in E. rewrite W, U in E. destruct (_ && _); [|discriminate].
    destruct (Response.register b (rr j)) as [s' b'] eqn:ER. injection E as <-. cbn.
    assert (UN : forall x, In x b -> In x (ResponseP.unreg (rr j))) by (intros x Hx; unfold ResponseP.unreg; rewrite W; assumption).
    assert (OLD : forall x, In x b -> x < Response.nextR (rr j)) by (intros x Hx; eapply ResponseP.unreg_old; [exact RI|auto]).
    eapply RespE.register_all; [exact ER| | |exact HR].
    - assert (ND : NoDup b).
      { apply (NoDup_count_occ N.eq_dec). intro x. pose proof (ResponseP.i_unreg _ RI x) as X. unfold ResponseP.unreg, ResponseP.occ in X. rewrite W in X. lia. }
      clear ER UN HR W. revert OLD ND. induction b as [|x b IH]; intros OLD ND; [constructor|]. inversion ND as [|? ? N1 N2]; subst. cbn. constructor; [|apply IH; [intros; apply OLD; right; assumption|assumption]].
      intro X. apply in_map_iff in X. destruct X as (y & Y1 & Y2). assert (y = x) by (eapply rid_inj; [exact I|apply OLD; right; assumption|apply OLD; left; reflexivity|assumption]). subst y. contradiction.
    - intros x Hx X. apply in_map_iff in X. destruct X as ([i y] & Y1 & Y2). cbn in Y1. subst i.
      pose proof (ResponseP.i_tab _ RI _ _ Y2) as Z.
      assert (RG : Response.reg (rr j) y = true).
      { pose proof (ResponseP.i_places _ RI y) as P. unfold ResponseP.places in P. assert (Q : In y (ResponseP.tabR (Response.tab (rr j)))) by (apply in_map_iff; exists (Response.rid (rr j) x, y); auto).
        apply ResponseP.occ_in in Q. destruct (Response.reg (rr j) y); [reflexivity|lia]. }
      assert (y = x) by (eapply rid_inj; [exact I|apply ResponseP.reg_old; assumption|auto|assumption]). subst y.
      rewrite (unreg_unreg _ x RI (UN x Hx)) in RG. discriminate.
  Qed.
End V.
