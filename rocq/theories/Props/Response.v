(** C23, C24, C25: the Responses of Request / StreamRequest, on both ends of a connection. *)
From Verif Require Import Model.GoBase Model.Qrpc Model.FrameReader Model.Machine Model.Response Proofs.ResponseP.
From Coq Require Import ZifyBool ZifyNat ZifyN.
Open Scope N_scope.

(** *** Specification vocabulary *)

(** the ids of the Request calls of a schedule, in order: the r-th call has the r-th Response *)
Definition requests (ls : list plabel) : list N :=
  flat_map (fun l => match l with PRequest id => [id] | _ => [] end) ls.

(** Request returned this Response without an error *)
Definition returnedOk (s : pst) (r : N) : Prop := res s r = Some true.

(** a GetFrame call on r would return now *)
Definition canGet (isClient : bool) (s : pst) (r : N) : Prop := exists s', pstep isClient s (PGet r) = Some s'.

(** a GetFrame call on r has returned a frame *)
Definition gotFrame (s : pst) (r : N) : Prop := exists f, In (Some f) (gots s r).

(** The connection is closed: close has run to its end (the table taken and every Response in it closed) and the reader
    is not in the middle of passing a frame on. *)
Definition closedDown (s : pst) : Prop := up s = false /\ closing s = [] /\ hand s = None.

(** A wire frame that answers request id on this end: not a push, not a reset, and, on the server, of a
    server-made id. *)
Definition answers (isClient : bool) (f : Frame) (id : N) : Prop :=
  fRequestID f = id /\ IsRst (fFlags f) = false /\ IsPush (fFlags f) = false /\ (isClient = true \/ FromServer id = true).

(** *** Two more invariants *)

Lemma up_closing : forall isClient s, reachable (pstep isClient) pinit s -> up s = true -> closing s = [].
Proof.
  intros isClient. apply (reachable_inv (pstep isClient) (fun s => up s = true -> closing s = [])).
  - reflexivity.
  - assert (AR : forall r ok s, up (answer r ok s) = up s /\ closing (answer r ok s) = closing s).
    { intros. unfold answer. destruct (res s r); auto. }
    assert (AA : forall l ok s, up (answerAll l ok s) = up s /\ closing (answerAll l ok s) = closing s).
    { unfold answerAll. induction l as [|a l IH]; intros ok s; cbn; [auto|]. destruct (IH ok (answer a ok s)) as [A B].
      destruct (AR a ok s) as [C D]. rewrite A, B, C, D. auto. }
    assert (RG : forall l s s' l', register l s = (s', l') -> up s' = up s /\ closing s' = closing s).
    { induction l as [|a l IH]; intros s s' l' H; cbn in H; [inversion H; subst; auto|]. destruct (tget (tab s) (rid s a)).
      - apply IH in H. destruct (AR a false s) as [C D]. destruct H as [A B]. rewrite A, B, C, D. auto.
      - destruct (register l _) as [s1 l1] eqn:E. inversion H; subst. apply IH in E. assumption. }
    intros s l s' I H. unfold pstep in H. destruct l.
    + inversion H; subst. assumption.
    + destruct (wph s); try discriminate. destruct (_ && _)%bool; [|discriminate]. inversion H; subst. assumption.
    + destruct (wph s); try discriminate. destruct (_ && _)%bool; [|discriminate]. inversion H; subst.
      match goal with |- context [answer ?a ?b ?c] => destruct (AR a b c) as [A B] end. rewrite A, B. assumption.
    + destruct (wph s); try discriminate. destruct (_ && _)%bool; [|discriminate]. destruct (up s) eqn:EU.
      * destruct (register l s) as [s1 b1] eqn:E. inversion H; subst. apply RG in E. cbn. destruct E as [A B]. rewrite A, B. intros; auto.
      * inversion H; subst. cbn. destruct (AA l false s) as [A B]. rewrite A, B. intros; congruence.
    + destruct (wph s); try discriminate. inversion H; subst. assumption.
    + destruct (wph s); try discriminate. inversion H; subst. assumption.
    + destruct (wph s) as [|?|[|[r ok] a] e]; try discriminate; inversion H; subst; [assumption|].
      match goal with |- context [answer ?a ?b ?c] => destruct (AR a b c) as [A B] end. rewrite A, B. assumption.
    + destruct (r <? nextR s); [|discriminate]. inversion H; subst. destruct (AR r false s) as [A B]. rewrite A, B. assumption.
    + destruct (hand s); [discriminate|]. destruct (rdAlive s); [|discriminate]. destruct (_ && _)%bool; [|inversion H; subst; assumption].
      destruct (_ || _)%bool; [|discriminate]. destruct (tget _ _); [inversion H; subst; assumption|]. destruct (_ && _)%bool; inversion H; subst; assumption.
    + destruct (hand s) as [[r f]|]; [|discriminate]. destruct (IsRst (fFlags f)).
      * inversion H; subst. cbn. unfold respClose. cbn. destruct (chanClosed s r); assumption.
      * unfold respSet in H. destruct (chanClosed s r); [inversion H; subst; assumption|]. destruct (chanF s r); [inversion H; subst; assumption|discriminate].
    + destruct (hand s); [discriminate|]. inversion H; subst. assumption.
    + destruct (wph s); try discriminate. inversion H; subst. cbn. destruct (AA l false s) as [A B]. rewrite A, B. auto.
    + destruct (_ || _)%bool; [|discriminate]. destruct (up s) eqn:EU; inversion H; subst; [discriminate|]. intros E. congruence.
    + destruct (closing s) as [|r c] eqn:EC; [discriminate|]. inversion H; subst. unfold respClose. cbn. intros E.
      assert (up s = true) by (destruct (chanClosed s r); assumption). specialize (I H0). discriminate.
    + destruct (_ && _)%bool eqn:E; [|discriminate]. inversion H; subst. cbn. intros _. apply andb_prop in E. destruct E as [E F].
      destruct isClient; [|discriminate]. destruct (closing s); [reflexivity|discriminate].
    + destruct (res s r) as [[|]|]; try discriminate. destruct (chanF s r); [destruct (chanClosed s r); [|discriminate]|]; inversion H; subst; assumption.
Qed.

(** the frames held anywhere have been read from the wire by this reader, and request ids are those of the calls *)
Definition hist (ls : list plabel) (s : pst) : Prop :=
  (forall r f, hand s = Some (r, f) \/ In f (chanF s r) \/ In (Some f) (gots s r) -> In (PFrame f true) ls) /\
  nextR s = N.of_nat (length (requests ls)) /\
  (forall r, r < nextR s -> nth_error (requests ls) (N.to_nat r) = Some (rid s r)).

Lemma hist_step : forall isClient ls s l s', hist ls s -> pstep isClient s l = Some s' -> hist (ls ++ [l]) s'.
Proof.
  intros isClient ls s l s' (HF & HN & HR) H.
  assert (RQ : requests (ls ++ [l]) = requests ls ++ match l with PRequest id => [id] | _ => [] end).
  { unfold requests. rewrite flat_map_app. cbn. rewrite app_nil_r. reflexivity. }
  assert (FF : forall r f, hand s = Some (r, f) \/ In f (chanF s r) \/ In (Some f) (gots s r) -> In (PFrame f true) (ls ++ [l])).
  { intros r f HX. apply in_or_app. left. eapply HF. eassumption. }
  assert (G : forall t, hand t = hand s -> chanF t = chanF s -> gots t = gots s -> nextR t = nextR s -> rid t = rid s ->
    match l with PRequest _ => False | _ => True end -> hist (ls ++ [l]) t).
  { intros t A B C D E F. split; [|split].
    - intros r f. rewrite A, B, C. apply FF.
    - rewrite D, RQ. destruct l; try contradiction; rewrite app_nil_r; assumption.
    - intros r. rewrite D, E, RQ. destruct l; try contradiction; rewrite app_nil_r; apply HR. }
  assert (AR : forall r ok t, hand (answer r ok t) = hand t /\ chanF (answer r ok t) = chanF t /\ gots (answer r ok t) = gots t /\
     nextR (answer r ok t) = nextR t /\ rid (answer r ok t) = rid t).
  { intros. unfold answer. destruct (res t r); auto. }
  assert (AA : forall k ok t, hand (answerAll k ok t) = hand t /\ chanF (answerAll k ok t) = chanF t /\ gots (answerAll k ok t) = gots t /\
     nextR (answerAll k ok t) = nextR t /\ rid (answerAll k ok t) = rid t).
  { unfold answerAll. induction k as [|a k IH]; intros ok t; cbn; [auto|]. destruct (IH ok (answer a ok t)) as (A & B & C & D & E).
    destruct (AR a ok t) as (A' & B' & C' & D' & E'). rewrite A, B, C, D, E. auto. }
  assert (RG : forall k t t' k', register k t = (t', k') -> hand t' = hand t /\ chanF t' = chanF t /\ gots t' = gots t /\
     nextR t' = nextR t /\ rid t' = rid t).
  { induction k as [|a k IH]; intros t t' k' HH; cbn in HH; [inversion HH; subst; auto|]. destruct (tget (tab t) (rid t a)).
    - apply IH in HH. destruct (AR a false t) as (A' & B' & C' & D' & E'). destruct HH as (A & B & C & D & E). rewrite A, B, C, D, E. auto.
    - destruct (register k _) as [s1 l1] eqn:E. inversion HH; subst. apply IH in E. exact E. }
  unfold pstep in H. destruct l.
  - inversion H; subst; clear H. split; [|split].
    + cbn. intros r f HX. eapply FF. eassumption.
    + cbn. rewrite RQ, app_length. cbn. lia.
    + cbn. intros r HX. rewrite RQ. destruct (N.eq_dec r (nextR s)) as [->|NE].
      * rewrite upd_eq, nth_error_app2 by lia. replace (N.to_nat (nextR s) - length (requests ls))%nat with 0%nat by lia. reflexivity.
      * rewrite upd_neq by assumption. rewrite nth_error_app1 by lia. apply HR. lia.
  - destruct (wph s); try discriminate. destruct (_ && _)%bool; [|discriminate]. inversion H; subst. apply G; cbn; (congruence || auto).
  - destruct (wph s); try discriminate. destruct (_ && _)%bool; [|discriminate]. inversion H; subst.
    match goal with |- context [answer ?a ?b ?c] => destruct (AR a b c) as (A & B & C & D & E) end. apply G; cbn; (congruence || auto).
  - destruct (wph s); try discriminate. destruct (_ && _)%bool; [|discriminate]. destruct (up s) eqn:EU.
    + destruct (register l s) as [s1 b1] eqn:E. inversion H; subst. apply RG in E. destruct E as (A & B & C & D & E). apply G; cbn; (congruence || auto).
    + inversion H; subst. destruct (AA l false s) as (A & B & C & D & E). apply G; cbn; (congruence || auto).
  - destruct (wph s); try discriminate. inversion H; subst. apply G; cbn; (congruence || auto).
  - destruct (wph s); try discriminate. inversion H; subst. apply G; cbn; (congruence || auto).
  - destruct (wph s) as [|?|[|[r ok] a] e]; try discriminate; inversion H; subst; [apply G; cbn; (congruence || auto)|].
    match goal with |- context [answer ?a ?b ?c] => destruct (AR a b c) as (A & B & C & D & E) end. apply G; cbn; (congruence || auto).
  - destruct (r <? nextR s); [|discriminate]. inversion H; subst. destruct (AR r false s) as (A & B & C & D & E). apply G; cbn; (congruence || auto).
  - destruct (hand s) eqn:EH; [discriminate|]. destruct (rdAlive s); [|discriminate].
    destruct (_ && _)%bool eqn:EB; [|inversion H; subst; apply G; cbn; (congruence || auto)].
    destruct (_ || _)%bool; [|discriminate]. destruct (tget _ _) as [q|].
    + inversion H; subst; clear H. assert (bound = true) as -> by (unfold returned in EB; destruct bound; [reflexivity|rewrite andb_false_r in EB; discriminate]).
      split; [|split].
      * cbn. intros r g [HX|HX]; [|eapply FF; eauto]. inversion HX; subst. apply in_or_app. right. left. reflexivity.
      * cbn. rewrite RQ, app_nil_r. assumption.
      * cbn. rewrite RQ, app_nil_r. assumption.
    + destruct (isClient && negb (up s))%bool; inversion H; subst; apply G; cbn; (congruence || auto).
  - destruct (hand s) as [[r f]|] eqn:EH; [|discriminate].
    assert (K : forall t, hand t = None -> chanF t = upd (chanF s) r [f] \/ chanF t = chanF s -> gots t = gots s -> nextR t = nextR s -> rid t = rid s -> hist (ls ++ [PHand]) t).
    { intros t A B C D E. split; [|split].
      - intros x g. rewrite A, C. intros [HX|[HX|HX]]; [discriminate| |eapply FF; eauto].
        destruct B as [B|B]; rewrite B in HX; [|eapply FF; eauto]. destruct (N.eq_dec x r) as [->|NE].
        + rewrite upd_eq in HX. destruct HX as [->|[]]. eapply FF. eauto.
        + rewrite upd_neq in HX by assumption. eapply FF. eauto.
      - rewrite D, RQ, app_nil_r. assumption.
      - rewrite D, E, RQ, app_nil_r. assumption. }
    destruct (IsRst (fFlags f)).
    + inversion H; subst. unfold respClose. cbn. destruct (chanClosed s r); apply K; auto.
    + unfold respSet in H. destruct (chanClosed s r); [inversion H; subst; apply K; auto|]. destruct (chanF s r); [inversion H; subst; apply K; auto|discriminate].
  - destruct (hand s) eqn:EH; [discriminate|]. inversion H; subst. apply G; cbn; (congruence || auto).
  - destruct (wph s); try discriminate. inversion H; subst. destruct (AA l false s) as (A & B & C & D & E). apply G; cbn; (congruence || auto).
  - destruct (_ || _)%bool; [|discriminate]. destruct (up s) eqn:EU; inversion H; subst; apply G; cbn; (congruence || auto).
  - destruct (closing s) as [|r c] eqn:EC; [discriminate|]. inversion H; subst. unfold respClose. cbn. destruct (chanClosed s r); apply G; cbn; (congruence || auto).
  - destruct (_ && _)%bool eqn:E; [|discriminate]. inversion H; subst. apply G; cbn; (congruence || auto).
  - destruct (res s r) as [[|]|]; try discriminate. destruct (chanF s r) as [|g c] eqn:EC.
    + destruct (chanClosed s r); [|discriminate]. inversion H; subst. split; [|split].
      * cbn. intros x h HX. apply (FF x h). destruct HX as [HX|[HX|HX]]; auto. destruct (N.eq_dec x r) as [->|NE].
        -- rewrite upd_eq in HX. destruct HX as [HX|HX]; [discriminate|auto].
        -- rewrite upd_neq in HX by assumption. auto.
      * cbn. rewrite RQ, app_nil_r. assumption.
      * cbn. rewrite RQ, app_nil_r. assumption.
    + inversion H; subst. split; [|split].
      * cbn. intros x h HX. apply (FF x h). destruct HX as [HX|HX]; auto. right. destruct (N.eq_dec x r) as [->|NE].
        -- rewrite !upd_eq in HX. rewrite EC. destruct HX as [HX|[HX|HX]]; [left; right; assumption|left; left; congruence|auto].
        -- rewrite !upd_neq in HX by assumption. auto.
      * cbn. rewrite RQ, app_nil_r. assumption.
      * cbn. rewrite RQ, app_nil_r. assumption.
Qed.

Lemma hist_run : forall isClient ls s, run (pstep isClient) pinit ls = Some s -> hist ls s.
Proof.
  intros isClient. assert (G : forall ls2 ls1 s1 s, hist ls1 s1 -> run (pstep isClient) s1 ls2 = Some s -> hist (ls1 ++ ls2) s).
  { induction ls2 as [|l ls2 IH]; intros ls1 s1 s H1 HR; cbn in HR.
    - inversion HR; subst. rewrite app_nil_r. assumption.
    - destruct (pstep isClient s1 l) as [s2|] eqn:E; [|discriminate]. replace (ls1 ++ l :: ls2) with ((ls1 ++ [l]) ++ ls2) by (rewrite <- app_assoc; reflexivity).
      eapply IH; [eapply hist_step; eassumption|assumption]. }
  intros ls s HR. apply (G ls [] pinit s); [|assumption]. split; [|split].
  - cbn. intros r f [H|[H|H]]; [discriminate|contradiction|contradiction].
  - reflexivity.
  - cbn. intros. lia.
Qed.

(** *** C23: at most one outcome, the right frame, no panic, the reader is never held up *)

(** In every execution a Response gets at most one outcome: one frame, or one close. *)
Theorem C23_one_outcome : forall isClient s r, reachable (pstep isClient) pinit s -> (sends s r + closes s r <= 1)%nat.
Proof. intros isClient s r HR. apply places_out. eapply pinv_reachable; eassumption. Qed.

(** What the callers see: the GetFrame calls on a Response either all return ErrStreamClosed, or just one
    returns, with a frame. *)
Theorem C23_results_agree : forall isClient s r, reachable (pstep isClient) pinit s ->
  (forall o, In o (gots s r) -> o = None) \/ exists f, gots s r = [Some f].
Proof.
  intros isClient s r HR. pose proof (C23_one_outcome isClient s r HR) as ONE. pose proof (pinv_reachable _ _ HR) as I.
  pose proof (i_chan s I r) as HC. pose proof (i_none s I r) as HN.
  destruct (filter isF (gots s r)) as [|o l] eqn:EF.
  - left. intros [f|] HI; [|reflexivity]. assert (In (Some f) (filter isF (gots s r))) by (apply filter_In; auto). rewrite EF in H. contradiction.
  - right. assert (closes s r = 0%nat) by (cbn in HC; lia). assert (AN : ~ In None (gots s r)) by (intros A; specialize (HN A); lia).
    assert (FA : filter isF (gots s r) = gots s r).
    { clear - AN. induction (gots s r) as [|[f|] g IH]; [reflexivity| |cbn in AN; tauto]. cbn. rewrite IH; [reflexivity|]. cbn in AN. tauto. }
    rewrite FA in EF. destruct l as [|o2 l]; [|cbn in HC; lia]. rewrite EF in *.
    destruct o as [f|]; [exists f; reflexivity|]. exfalso. apply AN. left. reflexivity.
Qed.

(** The frame a GetFrame call on the Response of the r-th Request returns has the id of that request, and is
    a frame this end's reader read from the connection. *)
Theorem C23_own_frame : forall isClient ls s r f, run (pstep isClient) pinit ls = Some s -> In (Some f) (gots s r) ->
  nth_error (requests ls) (N.to_nat r) = Some (fRequestID f) /\ In (PFrame f true) ls.
Proof.
  intros isClient ls s r f HR HI. assert (RE : reachable (pstep isClient) pinit s) by (exists ls; assumption).
  pose proof (pinv_reachable _ _ RE) as I. destruct (hist_run isClient ls s HR) as (HF & HN & HQ). split.
  - rewrite (i_frames s I r f) by auto. apply HQ. apply (reg_old s r I). pose proof (i_places s I r) as P. unfold places in P.
    pose proof (i_chan s I r) as C. assert (In (Some f) (filter isF (gots s r))) by (apply filter_In; auto).
    destruct (filter isF (gots s r)); [contradiction|]. cbn in C. destruct (reg s r); [reflexivity|lia].
  - eapply HF. eauto.
Qed.

Theorem C23_no_panic : forall isClient s, reachable (pstep isClient) pinit s -> panic s = false.
Proof. intros isClient s HR. apply i_panic. eapply pinv_reachable; eassumption. Qed.

(** The reader never blocks on a Response: the buffer is free when it has a frame for it. *)
Theorem C23_reader_goes_on : forall isClient s, reachable (pstep isClient) pinit s -> hand s <> None ->
  exists s', pstep isClient s PHand = Some s' /\ hand s' = None.
Proof.
  intros isClient s HR HH. pose proof (pinv_reachable _ _ HR) as I. cbn. destruct (hand s) as [[r f]|] eqn:EH; [|congruence].
  destruct (i_hand s I r f EH) as (A & B & C). rewrite B. pose proof (places_le s r I) as P. unfold places, handR in P.
  rewrite EH, occ_cons, occ_nil in P. destruct (N.eq_dec r r); [|congruence]. pose proof (i_chan s I r) as HC.
  unfold respSet. destruct (chanClosed s r); [eexists; split; [reflexivity|reflexivity]|].
  destruct (chanF s r); [eexists; split; reflexivity|]. cbn in HC. lia.
Qed.

(** *** C24: no Response is missed *)

(** At every moment a Response whose Request returned without error either has its outcome, or is found under its
    id in the table of a connection that is up, or is in the reader's or the closer's hands. *)
Theorem C24_never_lost : forall isClient s r, reachable (pstep isClient) pinit s -> returnedOk s r ->
  (sends s r + closes s r = 1)%nat \/ (up s = true /\ tget (tab s) (rid s r) = Some r) \/
  (exists f, hand s = Some (r, f)) \/ In r (closing s).
Proof.
  intros isClient s r HR HO. pose proof (pinv_reachable _ _ HR) as I. pose proof (i_places s I r) as P.
  rewrite (i_res s I r HO) in P. unfold places in P.
  destruct (occ r (closing s)) eqn:E1; [|right; right; right; apply occ_in; lia].
  destruct (occ r (handR s)) eqn:E2.
  - destruct (occ r (tabR (tab s))) eqn:E3; [left; lia|]. right. left. assert (HI : In r (tabR (tab s))) by (apply occ_in; lia).
    unfold tabR in HI. apply in_map_iff in HI. destruct HI as ((i & q) & A & B). cbn in A. subst.
    split.
    + destruct (up s) eqn:EU; [reflexivity|]. rewrite (i_down s I EU) in B. contradiction.
    + rewrite (i_tab s I i r B). apply tget_unique; [apply (i_nodup s I)|assumption].
  - right. right. left. assert (HI : In r (handR s)) by (apply occ_in; lia). unfold handR in HI. destruct (hand s) as [[q f]|]; [|contradiction].
    destruct HI as [->|[]]. exists f. reflexivity.
Qed.

Lemma resolved_get : forall isClient s r, reachable (pstep isClient) pinit s -> returnedOk s r -> (sends s r + closes s r = 1)%nat ->
  canGet isClient s r \/ gotFrame s r.
Proof.
  intros isClient s r HR HO E. pose proof (pinv_reachable _ _ HR) as I. unfold canGet, returnedOk in *. cbn. rewrite HO.
  pose proof (i_chan s I r) as HC. destruct (chanF s r) eqn:EC; [|left; eexists; reflexivity].
  destruct (chanClosed s r) eqn:ECC; [left; eexists; reflexivity|]. right. assert (closes s r = 0%nat).
  { destruct (closes s r) eqn:EQ; [reflexivity|]. assert (chanClosed s r = true) by (apply (i_closed s I); lia). congruence. }
  cbn in HC. destruct (filter isF (gots s r)) as [|o l] eqn:EF; [cbn in HC; lia|].
  assert (HI : In o (filter isF (gots s r))) by (rewrite EF; left; reflexivity). apply filter_In in HI. destruct o as [f|]; [|destruct HI; discriminate].
  exists f. tauto.
Qed.

(** Once a connection is closed, GetFrame does not block on a Response whose Request returned without error, whatever
    happened before, unless a GetFrame call has already had its frame; and if no frame came it gives ErrStreamClosed. *)
Theorem C24_closed_resolves : forall isClient s r, reachable (pstep isClient) pinit s -> closedDown s -> returnedOk s r ->
  (canGet isClient s r \/ gotFrame s r) /\
  (sends s r = 0%nat -> exists s', pstep isClient s (PGet r) = Some s' /\ gots s' r = None :: gots s r).
Proof.
  intros isClient s r HR (HU & HC & HH) HO. destruct (C24_never_lost isClient s r HR HO) as [E|[[E _]|[[f E]|E]]].
  - split; [apply resolved_get; assumption|]. intros E0. pose proof (pinv_reachable _ _ HR) as I. cbn. rewrite HO.
    pose proof (i_chan s I r) as C. destruct (chanF s r) eqn:EC; [|cbn in C; lia]. assert (chanClosed s r = true) as -> by (apply (i_closed s I); lia).
    eexists. split; [reflexivity|]. cbn. apply upd_eq.
  - congruence.
  - congruence.
  - rewrite HC in E. contradiction.
Qed.

(** Closing gets there: from every reachable state, the closer and the reader can do what they have begun and close the
    connection, with no help from callers, the writer or the peer. *)
Lemma drain : forall isClient n s, length (closing s) = n ->
  exists s', run (pstep isClient) s (repeat PCloseOne n) = Some s' /\ closing s' = [] /\ hand s' = hand s /\ up s' = up s /\ res s' = res s.
Proof.
  intros isClient. induction n as [|n IH]; intros s H; cbn.
  - exists s. destruct (closing s); [auto|discriminate].
  - destruct (closing s) as [|r c] eqn:EC; [discriminate|]. destruct (IH (respClose r (p_closing c s))) as (s' & A & B & C & D & E).
    + unfold respClose. cbn. cbn in H. destruct (chanClosed s r); cbn; lia.
    + exists s'. unfold respClose in C, D, E. cbn in C, D, E. repeat split; auto; destruct (chanClosed s r); assumption.
Qed.

Theorem C24_close_finishes : forall isClient s, reachable (pstep isClient) pinit s ->
  exists ls s', Forall (fun l => l = PClose \/ l = PCloseOne \/ l = PHand) ls /\ run (pstep isClient) s ls = Some s' /\
    closedDown s' /\ (forall r, returnedOk s r -> canGet isClient s' r \/ gotFrame s' r).
Proof.
  intros isClient s HR.
  assert (H1 : exists l1 s1, Forall (fun l => l = PClose \/ l = PCloseOne \/ l = PHand) l1 /\ run (pstep isClient) s l1 = Some s1 /\ hand s1 = None /\ res s1 = res s).
  { destruct (hand s) as [[q f]|] eqn:EH.
    - destruct (C23_reader_goes_on isClient s HR) as (s1 & A & B); [congruence|]. exists [PHand], s1. cbn [run]. rewrite A.
      repeat split; auto. cbn in A. rewrite EH in A. unfold respSet, respClose in A. cbn in A.
      destruct (IsRst (fFlags f)); destruct (chanClosed s q); try (inversion A; subst; reflexivity). destruct (chanF s q); inversion A; subst; reflexivity.
    - exists [], s. auto. }
  destruct H1 as (l1 & s1 & F1 & R1 & N1 & Q1).
  destruct (drain isClient (length (closing s1)) s1 eq_refl) as (s2 & R2 & C2 & N2 & U2 & Q2).
  assert (H3 : exists s3, pstep isClient s2 PClose = Some s3 /\ hand s3 = None /\ up s3 = false /\ res s3 = res s2).
  { unfold pstep. rewrite C2, orb_true_r. destruct (up s2) eqn:EU; eexists; (split; [reflexivity|]); cbn; repeat split; auto; congruence. }
  destruct H3 as (s3 & R3 & N3 & U3 & Q3).
  destruct (drain isClient (length (closing s3)) s3 eq_refl) as (s4 & R4 & C4 & N4 & U4 & Q4).
  exists (l1 ++ repeat PCloseOne (length (closing s1)) ++ PClose :: repeat PCloseOne (length (closing s3))), s4.
  assert (RR : run (pstep isClient) s (l1 ++ repeat PCloseOne (length (closing s1)) ++ PClose :: repeat PCloseOne (length (closing s3))) = Some s4).
  { rewrite run_app, R1, run_app, R2. cbn [run]. rewrite R3. exact R4. }
  assert (CD : closedDown s4) by (split; [congruence|split; [assumption|congruence]]).
  split; [|split; [exact RR|split; [exact CD|]]].
  - apply Forall_app. split; [assumption|]. apply Forall_app. split; [apply Forall_forall; intros x HX; apply repeat_spec in HX; auto|].
    constructor; [auto|]. apply Forall_forall. intros x HX. apply repeat_spec in HX. auto.
  - intros r HO. assert (R4' : reachable (pstep isClient) pinit s4).
    { destruct HR as [l0 HR]. eexists (l0 ++ _). rewrite run_app, HR. exact RR. }
    apply (C24_closed_resolves isClient s4 r R4' CD). unfold returnedOk in *. congruence.
Qed.

(** A frame that answers a request written on a connection that is up always finds its Response: the Response is in
    the table from before the write until its outcome. *)
Theorem C24_frame_finds : forall isClient s r f, reachable (pstep isClient) pinit s ->
  (returnedOk s r \/ exists b, wph s = WWrite b /\ In r b) -> (sends s r + closes s r = 0)%nat ->
  up s = true -> rdAlive s = true -> hand s = None -> answers isClient f (rid s r) ->
  exists s', pstep isClient s (PFrame f true) = Some s' /\ hand s' = Some (r, f).
Proof.
  intros isClient s r f HR HO H0 HU HA HH (E1 & E2 & E3 & E4). pose proof (pinv_reachable _ _ HR) as I.
  assert (RG : reg s r = true).
  { destruct HO as [HO|(b & W & HI)]; [apply (i_res s I); assumption|]. apply (i_ok s I). unfold okPending. rewrite W. assumption. }
  pose proof (up_closing isClient s HR HU) as HC. pose proof (i_places s I r) as P. unfold places, handR in P. rewrite RG, HH, HC, !occ_nil in P.
  assert (HI : In r (tabR (tab s))) by (apply occ_in; lia). unfold tabR in HI. apply in_map_iff in HI. destruct HI as ((i & q) & A & B). cbn in A. subst.
  pose proof (i_tab s I i r B) as EI. pose proof (tget_unique (tab s) i r (i_nodup s I) B) as ET.
  cbn. rewrite HH, HA, HC, orb_true_r. unfold returned, looksUp. rewrite E2, E3. cbn.
  assert (isClient || FromServer (fRequestID f) = true)%bool as ->. { rewrite E1. destruct E4 as [->|E4]; [reflexivity|]. rewrite E4. apply orb_true_r. }
  rewrite E1, EI, ET. eexists. split; reflexivity.
Qed.

(** *** C25: a reset does not resolve the Response *)

(** What the documentation of ErrStreamClosed promises: a pending Response whose request the peer resets gets its
    outcome from the program alone, without the connection being closed and without another frame. *)
Definition C25_statement (isClient : bool) : Prop :=
  forall s r f bound s1, reachable (pstep isClient) pinit s -> returnedOk s r -> (sends s r + closes s r = 0)%nat -> up s = true ->
    IsRst (fFlags f) = true -> fRequestID f = rid s r -> pstep isClient s (PFrame f bound) = Some s1 ->
    exists ls s2, (forall l, In l ls -> l <> PClose /\ forall g b, l <> PFrame g b) /\ run (pstep isClient) s1 ls = Some s2 /\ canGet isClient s2 r.

(** The reader drops the reset: nothing changes for any Response. *)
Theorem C25_reset_ignored : forall isClient s f bound s1, IsRst (fFlags f) = true ->
  pstep isClient s (PFrame f bound) = Some s1 -> s1 = s.
Proof.
  intros isClient s f bound s1 HF H. cbn in H. unfold returned in H. rewrite HF in H. cbn in H. destruct (hand s); [discriminate|].
  destruct (rdAlive s); [|discriminate]. inversion H. reflexivity.
Qed.

(** GetFrame stays blocked whatever anybody does, resets included, as long as the connection is not closed and no answer
    to the request is read. *)
Definition waiting (s : pst) (r : N) : Prop := tget (tab s) (rid s r) = Some r /\ chanF s r = [] /\ chanClosed s r = false.

Lemma tget_del_other : forall t i j, i <> j -> tget (tdel t j) i = tget t i.
Proof.
  intros t i j NE. unfold tget, tdel. induction t as [|[k q] t IH]; [reflexivity|]. cbn. destruct (k =? j) eqn:E; cbn.
  - apply N.eqb_eq in E. subst. assert (j =? i = false) as -> by (apply N.eqb_neq; congruence). assumption.
  - destruct (k =? i); [reflexivity|assumption].
Qed.

Lemma waiting_step : forall isClient s r l s', pinv s -> waiting s r -> l <> PClose ->
  (forall f b, l = PFrame f b -> ~ answers isClient f (rid s r)) -> pstep isClient s l = Some s' -> waiting s' r /\ rid s' r = rid s r.
Proof.
  intros isClient s r l s' I (W1 & W2 & W3) NC NF H.
  assert (RO : r < nextR s /\ reg s r = true).
  { assert (reg s r = true).
    { pose proof (i_places s I r) as P. unfold places in P. apply tget_in in W1. assert (In r (tabR (tab s))) by (apply in_map_iff; exists (rid s r, r); auto).
      apply occ_in in H0. destruct (reg s r); [reflexivity|lia]. }
    split; [apply (reg_old s r I)|]; assumption. }
  assert (PR : forall x, In x (handR s) \/ In x (closing s) -> x <> r).
  { intros x HX ->. pose proof (places_le s r I) as P. unfold places in P. apply tget_in in W1.
    assert (HT : In r (tabR (tab s))) by (apply in_map_iff; exists (rid s r, r); auto). apply occ_in in HT. destruct HX as [HX|HX]; apply occ_in in HX; lia. }
  assert (G : forall t, tab t = tab s -> rid t = rid s -> chanF t = chanF s -> chanClosed t = chanClosed s -> waiting t r /\ rid t r = rid s r).
  { intros t A B C D. unfold waiting. rewrite A, B, C, D. auto. }
  assert (AR : forall x ok t, tab (answer x ok t) = tab t /\ rid (answer x ok t) = rid t /\ chanF (answer x ok t) = chanF t /\ chanClosed (answer x ok t) = chanClosed t).
  { intros. unfold answer. destruct (res t x); auto. }
  assert (AA : forall k ok t, tab (answerAll k ok t) = tab t /\ rid (answerAll k ok t) = rid t /\ chanF (answerAll k ok t) = chanF t /\ chanClosed (answerAll k ok t) = chanClosed t).
  { unfold answerAll. induction k as [|a k IH]; intros ok t; cbn; [auto|]. destruct (IH ok (answer a ok t)) as (A & B & C & D).
    destruct (AR a ok t) as (A' & B' & C' & D'). rewrite A, B, C, D. auto. }
  assert (RG : forall k t t' k', tget (tab t) (rid t r) = Some r -> register k t = (t', k') ->
     tget (tab t') (rid t' r) = Some r /\ rid t' = rid t /\ chanF t' = chanF t /\ chanClosed t' = chanClosed t).
  { induction k as [|a k IH]; intros t t' k' HT HH; cbn in HH; [inversion HH; subst; auto|]. destruct (tget (tab t) (rid t a)) eqn:ET.
    - destruct (AR a false t) as (A' & B' & C' & D'). apply IH in HH; [|rewrite A', B'; assumption]. destruct HH as (A & B & C & D). rewrite B, C, D in *.
      repeat split; auto.
    - destruct (register k _) as [s1 l1] eqn:E. inversion HH; subst. apply IH in E; [exact E|]. cbn. unfold tget. cbn.
      destruct (rid t a =? rid t r) eqn:EQ; [|exact HT]. apply N.eqb_eq in EQ. rewrite EQ in ET. congruence. }
  unfold pstep in H. destruct l; try congruence.
  - inversion H; subst. unfold waiting. cbn. rewrite upd_neq by lia. auto.
  - destruct (wph s); try discriminate. destruct (_ && _)%bool; [|discriminate]. inversion H; subst. apply G; cbn; (congruence || auto).
  - destruct (wph s); try discriminate. destruct (_ && _)%bool; [|discriminate]. inversion H; subst.
    match goal with |- context [answer ?a ?b ?c] => destruct (AR a b c) as (A & B & C & D) end. apply G; cbn; (congruence || auto).
  - destruct (wph s); try discriminate. destruct (_ && _)%bool; [|discriminate]. destruct (up s) eqn:EU.
    + destruct (register l s) as [s1 b1] eqn:E. inversion H; subst. apply RG in E; [|assumption]. destruct E as (A & B & C & D).
      unfold waiting. cbn. rewrite C, D. rewrite B in *. auto.
    + inversion H; subst. destruct (AA l false s) as (A & B & C & D). apply G; cbn; (congruence || auto).
  - destruct (wph s); try discriminate. inversion H; subst. apply G; cbn; (congruence || auto).
  - destruct (wph s); try discriminate. inversion H; subst. apply G; cbn; (congruence || auto).
  - destruct (wph s) as [|?|[|[x ok] a] e]; try discriminate; inversion H; subst; [apply G; cbn; (congruence || auto)|].
    match goal with |- context [answer ?a ?b ?c] => destruct (AR a b c) as (A & B & C & D) end. apply G; cbn; (congruence || auto).
  - destruct (r0 <? nextR s); [|discriminate]. inversion H; subst. destruct (AR r0 false s) as (A & B & C & D). apply G; cbn; (congruence || auto).
  - destruct (hand s) eqn:EH; [discriminate|]. destruct (rdAlive s); [|discriminate].
    destruct (_ && _)%bool eqn:EB; [|inversion H; subst; apply G; cbn; (congruence || auto)].
    destruct (_ || _)%bool; [|discriminate]. destruct (tget (tab s) (fRequestID f)) as [q|] eqn:ET.
    + inversion H; subst; clear H. assert (NE : fRequestID f <> rid s r).
      { intros E. apply (NF f bound eq_refl). unfold returned, looksUp in EB. split; [assumption|]. rewrite <- E.
        destruct (IsRst (fFlags f)), (IsPush (fFlags f)), isClient, (FromServer (fRequestID f)), bound; cbn in EB; try discriminate; auto. }
      unfold waiting. cbn. rewrite tget_del_other by congruence. auto.
    + destruct (isClient && negb (up s))%bool; inversion H; subst; apply G; cbn; (congruence || auto).
  - destruct (hand s) as [[x f]|] eqn:EH; [|discriminate].
    assert (NE : x <> r) by (apply PR; left; unfold handR; rewrite EH; left; reflexivity).
    destruct (IsRst (fFlags f)).
    + inversion H; subst. unfold respClose. cbn. destruct (chanClosed s x); unfold waiting; cbn; rewrite ?upd_neq by congruence; auto.
    + unfold respSet in H. destruct (chanClosed s x); [inversion H; subst; apply G; cbn; (congruence || auto)|]. destruct (chanF s x); [inversion H; subst|discriminate].
      unfold waiting; cbn; rewrite ?upd_neq by congruence; auto.
  - destruct (hand s); [discriminate|]. inversion H; subst. apply G; cbn; (congruence || auto).
  - destruct (wph s); try discriminate. inversion H; subst. destruct (AA l false s) as (A & B & C & D). apply G; cbn; (congruence || auto).
  - destruct (closing s) as [|x c] eqn:EC; [discriminate|]. inversion H; subst. assert (NE : x <> r) by (apply PR; right; left; reflexivity).
    unfold respClose. cbn. destruct (chanClosed s x); unfold waiting; cbn; rewrite ?upd_neq by congruence; auto.
  - destruct (_ && _)%bool eqn:E; [|discriminate]. inversion H; subst. apply G; cbn; (congruence || auto).
  - destruct (res s r0) as [[|]|]; try discriminate. destruct (chanF s r0) as [|g c] eqn:EC.
    + destruct (chanClosed s r0); [|discriminate]. inversion H; subst. apply G; cbn; (congruence || auto).
    + inversion H; subst. unfold waiting. cbn. destruct (N.eq_dec r r0) as [->|NE]; [congruence|]. rewrite upd_neq by assumption. auto.
Qed.

(** A Response waits, resets or not, until its answer is read or the connection is closed. *)
Theorem C25_waits : forall isClient ls s r s', reachable (pstep isClient) pinit s ->
  returnedOk s r -> (sends s r + closes s r = 0)%nat -> up s = true -> hand s = None ->
  (forall l, In l ls -> l <> PClose) -> (forall f b, In (PFrame f b) ls -> ~ answers isClient f (rid s r)) ->
  run (pstep isClient) s ls = Some s' -> ~ canGet isClient s' r.
Proof.
  intros isClient ls s r s' HR HO H0 HU HH HL HF HX.
  assert (W : waiting s r).
  { pose proof (pinv_reachable _ _ HR) as I. destruct (C24_never_lost isClient s r HR HO) as [E|[[_ E]|[[f E]|E]]]; [lia| |congruence|].
    - split; [assumption|]. pose proof (i_chan s I r) as C. split.
      + destruct (chanF s r); [reflexivity|]. cbn in C. lia.
      + destruct (chanClosed s r) eqn:EC; [|reflexivity]. apply (i_closed s I) in EC. lia.
    - rewrite (up_closing isClient s HR HU) in E. contradiction. }
  clear HO H0 HU HH. revert s HR W HF HX. induction ls as [|l ls IH]; intros s HR W HF HX; cbn in HX.
  - inversion HX; subst. intros [s2 H]. destruct W as (W1 & W2 & W3). cbn in H. rewrite W2, W3 in H. destruct (res s' r) as [[|]|]; discriminate.
  - destruct (pstep isClient s l) as [s1|] eqn:E; [|discriminate].
    destruct (waiting_step isClient s r l s1 (pinv_reachable _ _ HR) W) as [W' Q]; auto.
    + apply HL. left. reflexivity.
    + intros f b ->. apply (HF f b). left. reflexivity.
    + apply (IH (fun l H => HL l (or_intror H)) s1); auto.
      * eapply reachable_step; eassumption.
      * intros f b HI. rewrite Q. apply (HF f b). right. assumption.
Qed.

(** A request of id 4 is written on a fresh connection (ids of both ends are possible). *)
Definition demoReq : list plabel := [PRequest 4; PCollect 0; PRegister; PWrite; PAnswer; PAnswer].
Definition rstFrame : Frame := mkFrame 4 StreamRstFlag 0 [].
Definition respFrame (id : N) : Frame := mkFrame id 0 7 [1; 2].

Theorem C25_refuted : forall isClient, ~ C25_statement isClient.
Proof.
  intros isClient H.
  destruct (run (pstep isClient) pinit demoReq) as [s|] eqn:E; [|destruct isClient; vm_compute in E; discriminate].
  assert (HR : reachable (pstep isClient) pinit s) by (exists demoReq; exact E).
  assert (F : returnedOk s 0 /\ (sends s 0 + closes s 0 = 0)%nat /\ up s = true /\ rid s 0 = 4 /\ hand s = None /\ rdAlive s = true).
  { destruct isClient; vm_compute in E; inversion E; subst; repeat split; reflexivity. }
  destruct F as (F1 & F2 & F3 & F4 & F5 & F6).
  assert (S1 : pstep isClient s (PFrame rstFrame true) = Some s) by (cbn; rewrite F5, F6; reflexivity).
  destruct (H s 0 rstFrame true s HR F1 F2 F3 eq_refl (eq_sym F4) S1) as (ls & s2 & A & B & C).
  apply (C25_waits isClient ls s 0 s2 HR F1 F2 F3 F5); auto.
  - intros l HI. apply A in HI. tauto.
  - intros f b HI. apply A in HI. destruct HI as [_ HI]. exfalso. apply (HI f b). reflexivity.
Qed.

(** What does hold: the Response of a reset request is resolved when the connection is closed.  Missing: anything
    sooner. *)
Theorem C25_resolved_by_close_partial : forall isClient s r f bound s1, reachable (pstep isClient) pinit s -> returnedOk s r ->
  IsRst (fFlags f) = true -> pstep isClient s (PFrame f bound) = Some s1 ->
  exists ls s2, Forall (fun l => l = PClose \/ l = PCloseOne \/ l = PHand) ls /\ run (pstep isClient) s1 ls = Some s2 /\
    (canGet isClient s2 r \/ gotFrame s2 r).
Proof.
  intros isClient s r f bound s1 HR HO HF HS. apply C25_reset_ignored in HS; [|assumption]. subst s1.
  destruct (C24_close_finishes isClient s HR) as (ls & s2 & A & B & _ & C). exists ls, s2. auto.
Qed.

(** *** Examples *)

(** two requests, one answered, the other one closed; both callers get their result (client; then the same on the server) *)
Definition demoTwo : list plabel :=
  [PRequest 4; PRequest 6; PCollect 0; PCollect 1; PRegister; PWrite; PFrame (respFrame 6) true; PAnswer; PAnswer; PHand; PGet 1;
   PAnswer; PClose; PCloseOne; PGet 0; PGet 0].

Example demoTwo_client : exists s, run (pstep true) pinit demoTwo = Some s /\ gots s 1 = [Some (respFrame 6)] /\ gots s 0 = [None; None] /\ closedDown s
  /\ returnedOk s 0 /\ returnedOk s 1.
Proof. eexists. vm_compute. repeat split. Qed.
Example demoTwo_server : exists s, run (pstep false) pinit demoTwo = Some s /\ gots s 1 = [Some (respFrame 6)] /\ gots s 0 = [None; None] /\ closedDown s.
Proof. eexists. vm_compute. repeat split. Qed.

(** the hypotheses of C23_reader_goes_on, C24_frame_finds and C25_waits hold along the way *)
Example demo_hand : exists s, run (pstep true) pinit (demoReq ++ [PFrame (respFrame 4) true]) = Some s /\ hand s = Some (0, respFrame 4).
Proof. eexists. vm_compute. repeat split. Qed.
Example demo_pending : exists s, run (pstep true) pinit demoReq = Some s /\ returnedOk s 0 /\ (sends s 0 + closes s 0 = 0)%nat /\ up s = true /\
  rdAlive s = true /\ hand s = None /\ answers true (respFrame 4) (rid s 0).
Proof. eexists. vm_compute. repeat split; auto. Qed.
(** a request that loses the race with close gets an error and no Response; after a reconnect the client goes on *)
Example demo_late : exists s, run (pstep true) pinit [PRequest 3; PCollect 0; PClose; PRegister; PReadQuit; PConnect; PRequest 5; PCollect 1; PRegister; PWrite; PAnswer; PAnswer; PFrame (respFrame 5) true; PHand; PGet 1]
  = Some s /\ res s 0 = Some false /\ gots s 1 = [Some (respFrame 5)].
Proof. eexists. vm_compute. repeat split. Qed.
(** equal ids: the second request is refused *)
Example demo_same_id : exists s, run (pstep true) pinit [PRequest 3; PRequest 3; PCollect 0; PCollect 1; PRegister] = Some s /\ res s 1 = Some false /\ tab s = [(3, 0)].
Proof. eexists. vm_compute. repeat split. Qed.
(** the reset request still waits, and is resolved by the close *)
Example demo_reset : exists s, run (pstep true) pinit (demoReq ++ [PFrame rstFrame true]) = Some s /\ ~ canGet true s 0 /\
  exists s', run (pstep true) s [PClose; PCloseOne; PGet 0] = Some s' /\ gots s' 0 = [None].
Proof. eexists. split; [vm_compute; reflexivity|]. split; [intros [s H]; vm_compute in H; discriminate|]. eexists. vm_compute. split; reflexivity. Qed.

Print Assumptions C23_one_outcome.
Print Assumptions C23_results_agree.
Print Assumptions C23_own_frame.
Print Assumptions C23_no_panic.
Print Assumptions C23_reader_goes_on.
Print Assumptions C24_never_lost.
Print Assumptions C24_closed_resolves.
Print Assumptions C24_close_finishes.
Print Assumptions C24_frame_finds.
Print Assumptions C25_reset_ignored.
Print Assumptions C25_waits.
Print Assumptions C25_refuted.
Print Assumptions C25_resolved_by_close_partial.
