(** C61: Shutdown is graceful. *)
From Verif Require Import Model.GoBase Model.Machine Model.Graceful.
Open Scope N_scope.

(** The full claim ("Shutdown gracefully shutdown the server", server.go:514): a request that was being handled when
    Shutdown was called is answered, unless its link is lost for another reason; and when Shutdown has returned no handler
    is running. *)
Definition answered (s : gst) : Prop :=
  forall r q, reqs s r = Some q -> before q = true -> lostLink s (rconn q) = false -> wrote q <> Some false.
Definition quiet (s : gst) : Prop :=
  shut s = SReturned -> forall r q, reqs s r = Some q -> running q = false.
Definition C61_statement : Prop := forall s, reachable gstep ginit s -> answered s /\ quiet s.

(** A request is being handled, Shutdown is called, Serve returns; the connection is closed under the handler, which then gets
    an error for its response. *)
Definition cutSchedule : list glabel :=
  [GAccept 1; GRequest 7 1; GShutdown; GDoneChan; GServeReturn; GLoopEnd 1; GWriteErr 7; GReturn 7; GConnEnd 1; GShutReturn].

Theorem C61_response_lost : exists s, run gstep ginit cutSchedule = Some s /\
  shut s = SReturned /\ lostLink s 1 = false /\ reqs s 7 = Some (mkReq 1 false (Some false) true).
Proof. eexists. split; [vm_compute; reflexivity|]. split; [reflexivity|]. split; reflexivity. Qed.
Print Assumptions C61_response_lost.

Theorem C61_refuted : ~ C61_statement.
Proof.
  intro H. destruct C61_response_lost as (s & HR & _ & HL & HQ).
  destruct (H s (ex_intro _ _ HR)) as [A _]. exact (A 7 _ HQ eq_refl HL eq_refl).
Qed.
Print Assumptions C61_refuted.

Record ginv (s : gst) : Prop := {
  v_hs : forall r q, reqs s r = Some q -> running q = true -> In r (hs s (rconn q));
  v_hsn : forall c r, In r (hs s c) -> exists q, reqs s r = Some q /\ rconn q = c /\ running q = true;
  v_act : forall c, In c (act s) <-> conn s c = CLoop \/ conn s c = CWait;
  v_ended : forall c, hs s c <> [] -> conn s c = CLoop \/ conn s c = CWait;
  v_ret : shut s = SReturned -> act s = [];
  v_link : forall c, conn s c = CWait \/ conn s c = CEnded -> link s c = false;
  v_served : served s = true -> shut s = SWait \/ shut s = SReturned;
  v_lost : forall r q, reqs s r = Some q -> wrote q = Some false -> served s = true \/ lostLink s (rconn q) = true;
  v_down : forall c, conn s c <> CNone -> link s c = false -> served s = true \/ lostLink s c = true
}.

Lemma nochange_hs : forall (f : N -> list N) c l c', upd f c l c' = l \/ upd f c l c' = f c'.
Proof. intros. unfold upd. destruct (N.eqb c' c); auto. Qed.

Ltac u := unfold upd in *; repeat match goal with
  | H : context [N.eqb ?a ?b] |- _ => destruct (N.eqb_spec a b); subst
  | |- context [N.eqb ?a ?b] => destruct (N.eqb_spec a b); subst
  end.
Ltac inj := repeat match goal with H : Some _ = Some _ |- _ => inversion H; subst; clear H end.

Lemma ginv_step : forall s l s', ginv s -> gstep s l = Some s' -> ginv s'.
Proof.
  intros s l s' I H.
  assert (LIVE : forall r q, reqs s r = Some q -> running q = true -> conn s (rconn q) = CLoop \/ conn s (rconn q) = CWait).
  { intros r q E R. apply (v_ended s I). pose proof (v_hs s I r q E R) as Hin. intro Z. rewrite Z in Hin. destruct Hin. }
  destruct l as [c|r c|r|r|r| | | | |c|c|c|c]; cbn in H.
  - (* GAccept *) destruct (shut s) eqn:S; try discriminate. destruct (conn s c) eqn:C; try discriminate. inj.
    constructor; cbn; try apply I.
    + intro c'. destruct (N.eqb_spec c' c) as [->|N].
      * rewrite upd_eq. tauto.
      * rewrite upd_neq by assumption. rewrite <- (v_act s I c'). split; [intros [|]; [congruence|assumption]|auto].
    + intros c' Z. destruct (N.eqb_spec c' c) as [->|N]; [rewrite upd_eq; auto|rewrite upd_neq by assumption; apply (v_ended s I c' Z)].
    + congruence.
    + intros c'. destruct (N.eqb_spec c' c) as [->|N]; [rewrite upd_eq; intros [|]; discriminate|rewrite !upd_neq by assumption; apply (v_link s I c')].
    + intro D. destruct (v_served s I D); congruence.
    + intros c'. destruct (N.eqb_spec c' c) as [->|N]; [rewrite !upd_eq; discriminate|rewrite !upd_neq by assumption; apply (v_down s I c')].
  - (* GRequest *) destruct (conn s c) eqn:C; try discriminate. destruct (reqs s r) eqn:E; try discriminate. inj.
    assert (NE : forall r' q, reqs s r' = Some q -> r' <> r) by (intros r' q Hq ->; congruence).
    constructor; cbn; try apply I.
    + intros r' q Hq HR. unfold upd in Hq. destruct (N.eqb_spec r' r) as [->|N].
      * inj. cbn. rewrite upd_eq. left. reflexivity.
      * pose proof (v_hs s I r' q Hq HR) as Hin. destruct (N.eqb_spec (rconn q) c) as [EC|N']; [rewrite EC in *; rewrite upd_eq; right; assumption|rewrite upd_neq by assumption; assumption].
    + intros c' r' Hin. unfold upd in Hin. destruct (N.eqb_spec c' c) as [->|N].
      * destruct Hin as [<-|Hin]; [rewrite upd_eq; eexists; split; [reflexivity|]; cbn; auto|].
        destruct (v_hsn s I c r' Hin) as (q & Hq & P). exists q. rewrite upd_neq by eauto. auto.
      * destruct (v_hsn s I c' r' Hin) as (q & Hq & P). exists q. rewrite upd_neq by eauto. auto.
    + intros c' Z. destruct (N.eq_dec c' c) as [EC|N]; [rewrite EC; auto|rewrite upd_neq in Z by assumption; apply (v_ended s I c' Z)].
    + intros r' q Hq HW. unfold upd in Hq. destruct (N.eqb_spec r' r); [inj; discriminate|]. apply (v_lost s I r' q Hq HW).
  - (* GWrite *) destruct (reqs s r) as [q|] eqn:E; try discriminate. destruct (running q) eqn:R; [|discriminate]. cbn in H.
    destruct (link s (rconn q)) eqn:L; [|discriminate]. destruct (wrote q) eqn:W; [discriminate|]. inj.
    constructor; cbn; try apply I.
    + intros r' q' Hq HR. u; inj; cbn; [eapply (v_hs s I); eassumption|eapply (v_hs s I); eassumption].
    + intros c' r' Hin. destruct (v_hsn s I c' r' Hin) as (q' & Hq & P). u; [|exists q'; auto]. rewrite E in Hq. inj. eexists. split; [reflexivity|]. cbn. tauto.
    + intros r' q' Hq HW. u; inj; [discriminate|]. apply (v_lost s I r' q' Hq HW).
  - (* GWriteErr *) destruct (reqs s r) as [q|] eqn:E; try discriminate. destruct (running q) eqn:R; [|discriminate]. cbn in H.
    destruct (served s || lostLink s (rconn q) || negb (link s (rconn q))) eqn:B; [|discriminate]. destruct (wrote q) eqn:W; [discriminate|]. inj.
    constructor; cbn; try apply I.
    + intros r' q' Hq HR. u; inj; cbn; [eapply (v_hs s I); eassumption|eapply (v_hs s I); eassumption].
    + intros c' r' Hin. destruct (v_hsn s I c' r' Hin) as (q' & Hq & P). u; [|exists q'; auto]. rewrite E in Hq. inj. eexists. split; [reflexivity|]. cbn. tauto.
    + intros r' q' Hq HW. u; inj; cbn; [|apply (v_lost s I r' q' Hq HW)].
      apply orb_true_iff in B. destruct B as [B|B]; [apply orb_true_iff in B; tauto|]. apply negb_true_iff in B.
      apply (v_down s I); [|assumption]. destruct (LIVE r q E R); congruence.
  - (* GReturn *) destruct (reqs s r) as [q|] eqn:E; try discriminate. destruct (running q) eqn:R; [|discriminate]. inj.
    constructor; cbn; try apply I.
    + intros r' q' Hq HR. unfold upd in Hq. destruct (N.eqb_spec r' r) as [->|N]; [inj; discriminate|].
      pose proof (v_hs s I r' q' Hq HR) as Hin. unfold upd. destruct (N.eqb_spec (rconn q') (rconn q)) as [EC|]; [|assumption].
      rewrite EC in Hin. apply filter_In. split; [assumption|]. destruct (N.eqb_spec r' r); [contradiction|reflexivity].
    + intros c' r' Hin. assert (Hin' : In r' (hs s c') /\ r' <> r).
      { unfold upd in Hin. destruct (N.eqb_spec c' (rconn q)) as [->|].
        - apply filter_In in Hin. destruct Hin as [Hin B]. split; [assumption|]. intros ->. rewrite N.eqb_refl in B. discriminate.
        - split; [assumption|]. intros ->. destruct (v_hsn s I c' r Hin) as (q' & Hq & P & _). rewrite E in Hq. inj. congruence. }
      destruct Hin' as [Hin' N]. rewrite upd_neq by assumption. apply (v_hsn s I c' r' Hin').
    + intros c' Z. apply (v_ended s I). intro ZZ. apply Z. unfold upd. destruct (N.eqb_spec c' (rconn q)) as [->|]; [rewrite ZZ; reflexivity|assumption].
    + intros r' q' Hq HW. u; inj; cbn in *; [apply (v_lost s I r q E HW)|apply (v_lost s I r' q' Hq HW)].
  - (* GShutdown *) destruct (shut s) eqn:S; try discriminate. inj. constructor; cbn; try apply I; [discriminate|].
    intro D. destruct (v_served s I D); congruence.
  - (* GDoneChan *) destruct (shut s) eqn:S; try discriminate. inj. constructor; cbn; try apply I; [discriminate|auto].
  - (* GShutReturn *) destruct (shut s) eqn:S; try discriminate. destruct (act s) eqn:A; try discriminate. inj. constructor; cbn; try apply I; auto.
    intro c. rewrite <- (v_act s I c), A. reflexivity.
  - (* GServeReturn *) destruct (shut s) eqn:S; try discriminate; inj; (constructor; cbn; try apply I; auto);
      try (intro; exact (v_ret s I S)); congruence.
  - (* GLost *) destruct (conn s c) eqn:C; try discriminate. inj. constructor; cbn; try apply I.
    + intros r q Hq HW. destruct (v_lost s I r q Hq HW); [auto|]. right. u; auto.
    + intros c' HN HL. destruct (v_down s I c' HN HL); [auto|]. right. u; auto.
  - (* GClose *) destruct (conn s c) eqn:C; try discriminate. destruct (served s || lostLink s c) eqn:B; [|discriminate]. inj. constructor; cbn; try apply I.
    + intros c' HC. u; [reflexivity|apply (v_link s I c' HC)].
    + intros c' HN HL. u; [apply orb_true_iff in B; exact B|apply (v_down s I c' HN HL)].
  - (* GLoopEnd *) destruct (conn s c) eqn:C; try discriminate. destruct (served s || lostLink s c) eqn:B; [|discriminate]. inj. constructor; cbn; try apply I.
    + intro c'. rewrite (v_act s I c'). u; [rewrite C; intuition discriminate|tauto].
    + intros c' Z. u; [auto|apply (v_ended s I c' Z)].
    + intros c' HC. u; [reflexivity|apply (v_link s I c' HC)].
    + intros c' HN HL. u; [apply orb_true_iff in B; exact B|apply (v_down s I c' HN HL)].
  - (* GConnEnd *) destruct (conn s c) eqn:C; try discriminate. destruct (hs s c) eqn:Hh; [|discriminate]. inj. constructor; cbn; try apply I.
    + intro c'. rewrite filter_In, (v_act s I c'). destruct (N.eqb_spec c' c) as [->|N]; [rewrite upd_eq, C; cbn; intuition discriminate|rewrite upd_neq by assumption; cbn; tauto].
    + intros c' Z. u; [congruence|apply (v_ended s I c' Z)].
    + intro D. rewrite (v_ret s I D). reflexivity.
    + intros c' HC. u; [apply (v_link s I c); auto|apply (v_link s I c' HC)].
    + intros c' HN HL. u; [apply (v_down s I c); [congruence|assumption]|apply (v_down s I c' HN HL)].
Qed.

Lemma ginv_reach : forall s, reachable gstep ginit s -> ginv s.
Proof.
  apply reachable_inv; [|apply ginv_step]. constructor; cbn; try discriminate; try tauto; try congruence.
  intro c. split; [tauto|]. intros [|]; discriminate.
Qed.

(** Partial: when Shutdown has returned no handler is running; ... *)
Theorem C61_no_handler_left_partial : forall s, reachable gstep ginit s -> quiet s.
Proof.
  intros s HR HS r q E. destruct (running q) eqn:R; [|reflexivity]. exfalso. pose proof (ginv_reach s HR) as I.
  assert (HC : conn s (rconn q) = CLoop \/ conn s (rconn q) = CWait).
  { apply (v_ended s I). intro Z. pose proof (v_hs s I r q E R) as Hin. rewrite Z in Hin. destruct Hin. }
  apply (v_act s I) in HC. rewrite (v_ret s I HS) in HC. destruct HC.
Qed.
Print Assumptions C61_no_handler_left_partial.

(** ... and a response is lost only once Serve has returned.  Missing: responses written after that, for which it is false. *)
Theorem C61_answered_until_serve_returns_partial : forall s, reachable gstep ginit s -> served s = false -> answered s.
Proof.
  intros s HR HS r q E _ HL HW. destruct (v_lost s (ginv_reach s HR) r q E HW); congruence.
Qed.
Print Assumptions C61_answered_until_serve_returns_partial.

(** Once serve of a connection has closed it, which it does as soon as it sees that Serve has returned, no handler still
    running on it can be answered any more, whatever happens. *)
Theorem C61_too_late : forall s ls s' r q, reachable gstep ginit s -> run gstep s ls = Some s' ->
  conn s (rconn q) = CWait -> reqs s r = Some q -> wrote q <> Some true ->
  forall q', reqs s' r = Some q' -> wrote q' <> Some true.
Proof.
  intros s ls s' r q HR HRun HC E HW.
  set (P := fun s => ginv s /\ (conn s (rconn q) = CWait \/ conn s (rconn q) = CEnded) /\ exists q', reqs s r = Some q' /\ rconn q' = rconn q /\ wrote q' <> Some true).
  assert (HP : P s').
  { refine (run_inv gstep P _ ls s s' _ HRun); [|split; [apply ginv_reach; assumption|split; [left; assumption|exists q; auto]]].
    clear. intros s l s' (I & HC & q' & E & HQ & HW) H. split; [eapply ginv_step; eassumption|].
    pose proof (v_link s I _ HC) as HL.
    destruct l as [c|r' c|r'|r'|r'| | | | |c|c|c|c]; cbn in H;
      repeat match goal with
        | H : context [match ?x with _ => _ end] |- _ => destruct x eqn:?; try discriminate
        end; inj; cbn;
      (split; [try (unfold upd; destruct (N.eqb_spec (rconn q) c); subst); try assumption; try (right; reflexivity); intuition congruence|]);
      try (exists q'; split; [assumption|split; assumption]);
      unfold upd; destruct (N.eqb_spec r r'); subst; try (exists q'; split; [assumption|split; assumption]); try congruence.
    all: repeat match goal with H : reqs ?s ?r = Some ?a, H' : reqs ?s ?r = Some ?b |- _ => rewrite H in H'; inversion H'; subst; clear H' end.
    all: eexists; (split; [reflexivity|]); cbn; (split; [assumption|]); try discriminate; try congruence.
    all: try (match goal with H : _ && _ = true |- _ => apply andb_true_iff in H; destruct H as [_ H]; congruence end). }
  destruct HP as (_ & _ & q' & E' & _ & HW'). intros q2 E2. congruence.
Qed.
Print Assumptions C61_too_late.

(** Shutdown returns: after it has closed doneChan, when Serve has returned and the handlers have, every connection can end by its
    own steps, and when all have ended Shutdown returns. *)
Theorem C61_shutdown_returns : forall s, reachable gstep ginit s -> shut s = SWait -> served s = true ->
  (forall c, hs s c = []) -> exists ls s', run gstep s ls = Some s' /\ shut s' = SReturned.
Proof.
  intros s HR HS HV HH. pose proof (ginv_reach s HR) as I. clear HR.
  remember (length (act s)) as n eqn:Hn. assert (Hle : (length (act s) <= n)%nat) by lia. clear Hn.
  revert s I HS HV HH Hle. induction n as [|n IH]; intros s I HS HV HH Hle.
  - destruct (act s) eqn:A; [|cbn in Hle; lia]. exists [GShutReturn]. eexists. cbn. rewrite HS, A. split; reflexivity.
  - destruct (act s) as [|c l] eqn:A; [exists [GShutReturn]; eexists; cbn; rewrite HS, A; split; reflexivity|].
    assert (HC : conn s c = CLoop \/ conn s c = CWait) by (apply (v_act s I); rewrite A; left; reflexivity).
    assert (LEN : (length (filter (fun x => negb (N.eqb x c)) (act s)) <= n)%nat).
    { rewrite A. cbn. rewrite N.eqb_refl. cbn. cbn in Hle.
      assert (F : forall (g : N -> bool) l, (length (filter g l) <= length l)%nat) by (intros g; induction l0 as [|y l0 IHl]; cbn; [lia|destruct (g y); cbn; lia]).
      specialize (F (fun x => negb (N.eqb x c)) l). lia. }
    assert (ONE : forall s, ginv s -> conn s c = CWait -> hs s c = [] -> exists s1, gstep s (GConnEnd c) = Some s1 /\ ginv s1 /\
       act s1 = filter (fun x => negb (N.eqb x c)) (act s) /\ shut s1 = shut s /\ served s1 = served s /\ hs s1 = hs s).
    { intros t It Ct Ht. destruct (gstep t (GConnEnd c)) as [s1|] eqn:E; cbn in E; rewrite Ct, Ht in E; [|discriminate].
      exists s1. split; [reflexivity|]. inversion E; subst. split; [eapply (ginv_step t (GConnEnd c)); [assumption|]; cbn; rewrite Ct, Ht; reflexivity|]. repeat split. }
    destruct HC as [HC|HC].
    + assert (EL : exists t, gstep s (GLoopEnd c) = Some t /\ shut t = shut s /\ served t = served s /\ hs t = hs s /\ act t = act s /\ conn t c = CWait)
        by (cbn; rewrite HC, HV; cbn; eexists; split; [reflexivity|]; cbn; rewrite upd_eq; auto).
      destruct EL as (t & EL & ES & EV & EH & EA & EC).
      assert (It : ginv t) by (eapply (ginv_step s (GLoopEnd c)); eassumption).
      destruct (ONE _ It EC) as (s1 & E1 & I1 & A1 & S1 & V1 & H1); [rewrite EH; apply HH|].
      destruct (IH s1 I1) as (ls & s' & R & Q); [congruence|congruence|intro; rewrite H1, EH; apply HH|rewrite A1, EA; exact LEN|].
      exists (GLoopEnd c :: GConnEnd c :: ls), s'. split; [|assumption]. cbn [run]. rewrite EL. rewrite E1. exact R.
    + destruct (ONE s I HC (HH c)) as (s1 & E1 & I1 & A1 & S1 & V1 & H1).
      destruct (IH s1 I1) as (ls & s' & R & Q); [congruence|congruence|intro; rewrite H1; apply HH|rewrite A1; exact LEN|].
      exists (GConnEnd c :: ls), s'. split; [|assumption]. cbn [run]. rewrite E1. exact R.
Qed.
Print Assumptions C61_shutdown_returns.

(** Two connections; one request is answered after Shutdown was called but before Serve has returned, another after that, by
    luck; Shutdown returns when all is over. *)
Example C61_example : exists s, run gstep ginit
    [GAccept 1; GAccept 2; GRequest 7 1; GRequest 8 2; GShutdown; GWrite 7; GReturn 7; GDoneChan; GServeReturn; GWrite 8;
     GLoopEnd 1; GConnEnd 1; GReturn 8; GClose 2; GLoopEnd 2; GConnEnd 2; GShutReturn] = Some s /\
  shut s = SReturned /\ reqs s 7 = Some (mkReq 1 false (Some true) true) /\ reqs s 8 = Some (mkReq 2 false (Some true) true).
Proof. eexists. split; [vm_compute; reflexivity|]. repeat split. Qed.
