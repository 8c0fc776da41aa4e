(** What one action does to the Responses of a client (Model/Response.v). *)
From Coq Require Import ZifyBool ZifyNat ZifyN.
From Verif Require Import Model.GoBase Model.Machine Model.Qrpc Model.FrameReader Model.Response Proofs.ResponseP Props.Response.
Open Scope N_scope.

(** fields the registration and the answers leave alone *)
Definition same (s s' : pst) : Prop :=
  queue s' = queue s /\ wAlive s' = wAlive s /\ hand s' = hand s /\ sends s' = sends s /\ closes s' = closes s /\
  chanF s' = chanF s /\ gots s' = gots s /\ up s' = up s /\ rid s' = rid s.

Lemma answer_same : forall r ok s, same s (answer r ok s) /\ reg (answer r ok s) = reg s /\ tab (answer r ok s) = tab s /\ wph (answer r ok s) = wph s.
Proof. intros. unfold answer, same. destruct (res s r); cbn; repeat split. Qed.
Lemma answerAll_same : forall l ok s, same s (answerAll l ok s) /\ reg (answerAll l ok s) = reg s /\ tab (answerAll l ok s) = tab s.
Proof.
  unfold answerAll. induction l as [|r l IH]; intros ok s; cbn [fold_left]; [unfold same; tauto|].
  destruct (answer_same r ok s) as (A & B & C & _). destruct (IH ok (answer r ok s)) as (A' & B' & C'). unfold same in *.
  rewrite B', C', B, C. intuition congruence.
Qed.

Lemma register_eff : forall l s s' l', register l s = (s', l') ->
  same s s' /\ (forall r, reg s r = true -> reg s' r = true) /\ (forall id r, In (id, r) (tab s') -> In (id, r) (tab s) \/ In r l).
Proof.
  induction l as [|x l IH]; intros s s' l' E; cbn in E.
  - injection E as <- <-. unfold same. tauto.
  - destruct (tget _ _).
    + destruct (IH _ _ _ E) as (A & B & C). destruct (answer_same x false s) as (A' & B' & C' & _). rewrite B' in B. rewrite C' in C.
      split; [unfold same in *; intuition congruence|]. split; [assumption|]. intros id r H. destruct (C id r H); cbn; auto.
    + destruct (register l _) as [s1 l1] eqn:ER. injection E as <- <-. destruct (IH _ _ _ ER) as (A & B & C). split; [exact A|]. split.
      * intros r H. apply B. cbn. destruct (N.eq_dec r x) as [->|N]; [apply upd_eq|rewrite upd_neq by assumption; assumption].
      * intros id r H. destruct (C id r H) as [[X|X]|X]; cbn; auto. injection X as _ <-. auto.
Qed.

Lemma register_all : forall l s s' l', register l s = (s', l') -> NoDup (map (rid s) l) ->
  (forall r, In r l -> ~ In (rid s r) (map fst (tab s))) -> forall r, In r l -> reg s' r = true.
Proof.
  induction l as [|x l IH]; intros s s' l' E ND NT r HR; [contradiction|]. cbn in E, ND. inversion ND as [|? ? N1 N2]; subst.
  destruct (tget _ _) as [q|] eqn:ET.
  - exfalso. apply (NT x); [left; reflexivity|]. apply tget_in in ET. apply in_map_iff. exists (rid s x, q). auto.
  - destruct (register l _) as [s1 l1] eqn:ER. injection E as <- <-. destruct HR as [<-|HR].
    + destruct (register_eff _ _ _ _ ER) as (_ & B & _). apply B. cbn. apply upd_eq.
    + eapply IH; [exact ER|exact N2| |exact HR]. cbn. intros y Hy [X|X].
      * apply N1. rewrite X. apply in_map. assumption.
      * apply (NT y); [right; assumption|assumption].
Qed.

(** the effects used by Proofs/CallQ.v *)
Record eff (s : pst) (l : plabel) (s' : pst) : Prop := {
  f_reg : forall r, reg s r = true -> reg s' r = true;
  f_queue : forall r, In r (queue s) -> In r (queue s') \/ l = PCollect r \/ l = PReject r;
  f_tab : forall id r, In (id, r) (tab s') -> In (id, r) (tab s) \/ (l = PRegister /\ In r (unreg s));
  f_dead : wAlive s = false -> wAlive s' = false \/ l = PConnect;
  f_coll : forall b r, wph s = WCollect b -> In r b -> (exists b', wph s' = WCollect b' /\ In r b') \/ l = PRegister \/ wAlive s' = false;
  f_hand : forall r f, hand s' = Some (r, f) -> hand s = Some (r, f) \/
    (exists b, l = PFrame f b /\ In (fRequestID f, r) (tab s) /\ IsPush (fFlags f) = false);
  f_sends : forall r, sends s' r = sends s r \/ (l = PHand /\ exists f, hand s = Some (r, f));
  f_closes : forall r, closes s' r = closes s r \/ closing s <> [];
  f_up : up s' = true -> up s = true \/ l = PConnect;
  f_fr : forall r f, In f (chanF s' r) \/ In (Some f) (gots s' r) -> In f (chanF s r) \/ In (Some f) (gots s r) \/ hand s = Some (r, f);
}.

Lemma eff_same : forall s l s', queue s' = queue s -> hand s' = hand s -> sends s' = sends s -> closes s' = closes s ->
  chanF s' = chanF s -> gots s' = gots s -> (up s' = true -> up s = true \/ l = PConnect) -> reg s' = reg s -> (forall p, In p (tab s') -> In p (tab s)) ->
  (wAlive s = false -> wAlive s' = false \/ l = PConnect) ->
  (wph s' = wph s \/ wAlive s' = false \/ match wph s with WCollect _ => False | _ => True end) -> eff s l s'.
Proof.
  intros s l s' Q H S C F G U R T D W. constructor; intros; try (left; congruence); auto.
  - rewrite R. assumption.
  - destruct W as [W|[W|W]]; [left; exists b; split; [congruence|assumption]|auto|]. rewrite H0 in W. contradiction.
  - rewrite F, G in H0. tauto.
Qed.

Lemma pstep_eff {isC} : forall s l s', pinv s -> pstep isC s l = Some s' -> eff s l s'.
Proof.
  intros s l s' I E. unfold pstep in E. destruct l.
  - injection E as <-. constructor; cbn; intros; auto; [left; apply in_app_iff; auto|left; eauto|tauto].
  - destruct (wph s) eqn:EW; try discriminate. destruct (_ && _) eqn:EB; [|discriminate]. injection E as <-. constructor; cbn; intros; auto; try tauto.
    + destruct (N.eq_dec r r0) as [->|N]; [auto|left]. unfold remove1. apply filter_In. split; [assumption|]. apply negb_true_iff, N.eqb_neq. congruence.
    + left. exists (l ++ [r]). split; [reflexivity|]. apply in_app_iff. left. congruence.
  - destruct (wph s) eqn:EW; try discriminate. destruct (_ && _) eqn:EB; [|discriminate]. injection E as <-.
    destruct (answer_same r false (p_queue (remove1 r (queue s)) s)) as (A & B & C & D). unfold same in A. cbn in *. destruct A as (Q & WA & HD & SE & CL & CH & GO & UP & RI).
    constructor; intros; try (rewrite ?B, ?C, ?D in *; left; congruence); auto.
    + rewrite B. assumption.
    + destruct (N.eq_dec r r0) as [->|N]; [auto|left]. rewrite Q. unfold remove1. apply filter_In. split; [assumption|]. apply negb_true_iff, N.eqb_neq. congruence.
    + left. exists b. split; congruence.
    + rewrite CH, GO in H. tauto.
  - destruct (wph s) eqn:EW; try discriminate. destruct (_ && _) eqn:EB; [|discriminate]. destruct (up s) eqn:EU.
    + destruct (register l s) as [s1 b1] eqn:ER. injection E as <-. destruct (register_eff _ _ _ _ ER) as (A & B & C). unfold same in A. destruct A as (Q & WA & HD & SE & CL & CH & GO & UP & RI).
      constructor; cbn; intros; auto; try (left; congruence).
      * destruct (C id r H); auto. right. split; [reflexivity|]. unfold unreg. rewrite EW. assumption.
      * rewrite CH, GO in H. tauto.
    + injection E as <-. destruct (answerAll_same l false s) as (A & B & C). unfold same in A. destruct A as (Q & WA & HD & SE & CL & CH & GO & UP & RI). apply eff_same; cbn; rewrite ?B, ?C; auto; congruence.
  - destruct (wph s) eqn:EW; try discriminate. injection E as <-. apply eff_same; cbn; auto. rewrite EW. auto.
  - destruct (wph s) eqn:EW; try discriminate. injection E as <-. apply eff_same; cbn; auto. rewrite EW. auto.
  - destruct (wph s) as [|?|[|[r ok] a] e] eqn:EW; try discriminate; injection E as <-.
    + apply eff_same; cbn; auto; [|rewrite EW; auto]. intros ->. auto.
    + destruct (answer_same r ok (p_wph (WAnswer a e) s)) as (A & B & C & D). unfold same in A. cbn in *. destruct A as (Q & WA & HD & SE & CL & CH & GO & UP & RI).
      apply eff_same; rewrite ?B, ?C; auto; try congruence; [rewrite UP; auto|rewrite WA; auto|rewrite EW; auto].
  - destruct (r <? nextR s); [|discriminate]. injection E as <-. destruct (answer_same r false s) as (A & B & C & D). unfold same in A. destruct A as (Q & WA & HD & SE & CL & CH & GO & UP & RI).
    apply eff_same; rewrite ?B, ?C; auto; try congruence; [rewrite UP; auto|rewrite WA; auto].
  - destruct (hand s) eqn:EH; [discriminate|]. destruct (rdAlive s); [|discriminate]. destruct (_ && _)%bool eqn:EB; [|injection E as <-; apply eff_same; auto].
    destruct (_ || _)%bool; [|discriminate]. destruct (tget _ _) as [q|] eqn:ET.
    + injection E as <-. constructor; cbn; intros; auto; try tauto.
      * left. eapply tdel_sub. eassumption.
      * left. eauto.
      * injection H as <- <-. right. exists bound. split; [reflexivity|]. split; [apply tget_in; assumption|].
        apply andb_true_iff in EB. destruct EB as [_ EB]. unfold looksUp in EB. apply andb_true_iff in EB. destruct EB as [EB _]. apply negb_true_iff in EB. assumption.
    + match type of E with (if ?b then _ else _) = _ => destruct b end; injection E as <-; apply eff_same; auto.
  - destruct (hand s) as [[r f]|] eqn:EH; [|discriminate]. destruct (i_hand s I r f EH) as (_ & HR & _). rewrite HR in E.
    unfold respSet in E. assert (X : forall v c, s' = p_hand None v -> (v = p_panic true (p_sends (upd (sends s) r (S (sends s r))) s) \/ (chanF s r = [] /\ c = tt /\ v = p_chanF (upd (chanF s) r [f]) (p_sends (upd (sends s) r (S (sends s r))) s))) -> eff s PHand s').
    { intros v c -> [->|(EC & _ & ->)]; constructor; cbn; intros; auto; try tauto; try discriminate; try (left; eauto; fail).
      - destruct (N.eq_dec r0 r) as [->|N]; [right; eauto|left; apply upd_neq; assumption].
      - destruct (N.eq_dec r0 r) as [->|N]; [right; eauto|left; apply upd_neq; assumption].
      - destruct (N.eq_dec r0 r) as [->|N]; [|rewrite upd_neq in H by assumption; tauto]. rewrite upd_eq in H. destruct H as [[<-|[]]|H]; auto. }
    destruct (chanClosed s r); [injection E as <-; eapply (X _ tt); [reflexivity|auto]|]. destruct (chanF s r) eqn:EC; [|discriminate]. injection E as <-. eapply (X _ tt); [reflexivity|auto].
  - destruct (hand s); [discriminate|]. injection E as <-. apply eff_same; auto.
  - destruct (wph s) eqn:EW; try discriminate. injection E as <-. destruct (answerAll_same l false s) as (A & B & C). unfold same in A. destruct A as (Q & WA & HD & SE & CL & CH & GO & UP & RI).
    apply eff_same; cbn; rewrite ?B, ?C; auto. rewrite UP. auto.
  - destruct (_ || _)%bool; [|discriminate]. destruct (up s) eqn:EU; injection E as <-.
    + apply eff_same; cbn; auto; tauto.
    + apply eff_same; cbn; auto.
  - destruct (closing s) as [|r c] eqn:EC; [discriminate|]. injection E as <-. unfold respClose. cbn.
    destruct (chanClosed s r); constructor; cbn; intros; auto; try tauto; try (left; eauto; fail); right; congruence.
  - destruct (_ && _)%bool; [|discriminate]. injection E as <-. apply eff_same; cbn; auto.
  - destruct (res s r) as [[|]|]; try discriminate. destruct (chanF s r) as [|f c] eqn:EC.
    + destruct (chanClosed s r); [|discriminate]. injection E as <-. constructor; cbn; intros; auto; try (left; eauto; fail).
      destruct (N.eq_dec r0 r) as [->|N]; [rewrite upd_eq in H|rewrite upd_neq in H by assumption; tauto]. destruct H as [H|[H|H]]; auto; discriminate.
    + injection E as <-. constructor; cbn; intros; auto; try (left; eauto; fail).
      destruct (N.eq_dec r0 r) as [->|N]; [rewrite !upd_eq in H|rewrite !upd_neq in H by assumption; tauto]. rewrite EC. cbn. destruct H as [H|[H|H]]; auto. injection H as <-. auto.
Qed.
