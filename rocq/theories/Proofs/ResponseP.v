(** Invariant of the Response machine (Model/Response.v). *)
From Verif Require Import Model.GoBase Model.Qrpc Model.FrameReader Model.Machine Model.Response.
From Coq Require Import ZifyBool ZifyNat ZifyN.
Open Scope N_scope.

Definition occ (r : N) (l : list N) : nat := count_occ N.eq_dec l r.
Arguments occ : simpl never.

Lemma occ_nil : forall r, occ r [] = 0%nat.
Proof. reflexivity. Qed.
Lemma occ_cons : forall r a l, occ r (a :: l) = ((if N.eq_dec a r then 1 else 0) + occ r l)%nat.
Proof. intros. unfold occ. cbn. destruct (N.eq_dec a r); reflexivity. Qed.
Lemma occ_app : forall r l l', occ r (l ++ l') = (occ r l + occ r l')%nat.
Proof. intros. unfold occ. apply count_occ_app. Qed.
Lemma occ_in : forall r l, In r l <-> (1 <= occ r l)%nat.
Proof. intros. unfold occ. rewrite (count_occ_In N.eq_dec). split; lia. Qed.
Lemma occ_remove1 : forall r x l, occ r (remove1 x l) = if N.eq_dec x r then 0%nat else occ r l.
Proof.
  intros r x. unfold remove1. induction l as [|a l IH]; [destruct (N.eq_dec x r); reflexivity|]. cbn [filter].
  destruct (a =? x) eqn:E; cbn [negb]; rewrite ?occ_cons, IH; destruct (N.eq_dec x r), (N.eq_dec a r); try reflexivity; lia.
Qed.

(** *** The table *)

Definition tabR (t : list (N * N)) : list N := map snd t.
Arguments tabR : simpl never.

Lemma tget_in : forall t id r, tget t id = Some r -> In (id, r) t.
Proof.
  unfold tget. intros t id r H. destruct (find (fun p => fst p =? id) t) as [[i q]|] eqn:E; [|discriminate]. inversion H; subst.
  apply find_some in E. cbn in E. destruct E as [A B]. apply N.eqb_eq in B. subst. assumption.
Qed.

Lemma tget_none : forall t id, tget t id = None -> ~ In id (map fst t).
Proof.
  unfold tget. intros t id H HI. destruct (find (fun p => fst p =? id) t) as [p|] eqn:E; [discriminate|].
  apply in_map_iff in HI. destruct HI as ((i & q) & A & B). cbn in A. subst. pose proof (find_none _ _ E _ B) as C. cbn in C.
  rewrite N.eqb_refl in C. discriminate.
Qed.

Lemma tget_unique : forall t id r, NoDup (map fst t) -> In (id, r) t -> tget t id = Some r.
Proof.
  induction t as [|[i q] t IH]; intros id r ND HI; [contradiction|]. cbn in ND. inversion ND; subst. unfold tget. cbn [find fst].
  destruct HI as [E|HI].
  - inversion E; subst. rewrite N.eqb_refl. reflexivity.
  - destruct (i =? id) eqn:E; [|apply IH; assumption]. apply N.eqb_eq in E. subst. exfalso. apply H1.
    apply in_map_iff. exists (id, r). auto.
Qed.

Lemma tdel_notin : forall t id, ~ In id (map fst t) -> tdel t id = t.
Proof.
  unfold tdel. induction t as [|[i q] t IH]; intros id H; [reflexivity|]. cbn in *. destruct (i =? id) eqn:E.
  - apply N.eqb_eq in E. subst. tauto.
  - cbn. rewrite IH; [reflexivity|tauto].
Qed.

Lemma occ_tdel : forall t id r x, NoDup (map fst t) -> In (id, r) t ->
  (occ x (tabR (tdel t id)) + (if N.eq_dec r x then 1 else 0) = occ x (tabR t))%nat.
Proof.
  unfold tabR. induction t as [|[i q] t IH]; intros id r x ND HI; [contradiction|]. cbn in ND. inversion ND; subst.
  destruct HI as [E|HI].
  - inversion E; subst. cbn [map snd]. rewrite occ_cons.
    unfold tdel. cbn [filter fst]. rewrite N.eqb_refl. cbn [negb]. fold (tdel t id). rewrite tdel_notin by assumption. lia.
  - cbn [map snd]. rewrite occ_cons. specialize (IH id r x H2 HI). unfold tdel in *. cbn [filter fst]. destruct (i =? id) eqn:E.
    + apply N.eqb_eq in E. subst. exfalso. apply H1. apply in_map_iff. exists (id, r). auto.
    + cbn [negb map snd]. rewrite occ_cons. lia.
Qed.

Lemma tdel_sub : forall t id p, In p (tdel t id) -> In p t.
Proof. unfold tdel. intros t id p H. apply filter_In in H. tauto. Qed.

Lemma tdel_nodup : forall t id, NoDup (map fst t) -> NoDup (map fst (tdel t id)).
Proof.
  unfold tdel. induction t as [|[i q] t IH]; intros id ND; [constructor|]. cbn in ND. inversion ND; subst. cbn.
  destruct (i =? id); cbn; [apply IH; assumption|]. constructor; [|apply IH; assumption]. intros HI.
  apply H1. apply in_map_iff in HI. destruct HI as (p & A & B). apply in_map_iff. exists p. split; [assumption|].
  apply filter_In in B. tauto.
Qed.

(** *** The invariant *)

Definition handR (s : pst) : list N := match hand s with Some (r, _) => [r] | None => [] end.
Definition unreg (s : pst) : list N := match wph s with WCollect l => l | _ => [] end.
Definition okPending (s : pst) : list N :=
  match wph s with WCollect _ => [] | WWrite l => l | WAnswer a _ => map fst a end.

(** where a registered Response is: in the table, with the reader, with the closer, or it has its outcome *)
Definition places (s : pst) (r : N) : nat :=
  (occ r (tabR (tab s)) + occ r (handR s) + occ r (closing s) + sends s r + closes s r)%nat.

Definition isF (o : option Frame) : bool := match o with Some _ => true | None => false end.

Record pinv (s : pst) : Prop := mkPinv {
  i_places : forall r, places s r = (if reg s r then 1 else 0)%nat;
  i_unreg : forall r, (occ r (queue s) + occ r (unreg s) + (if reg s r then 1 else 0) <= 1)%nat;
  i_fresh : forall r, nextR s <= r -> reg s r = false /\ occ r (queue s) = 0%nat /\ occ r (unreg s) = 0%nat /\ res s r = None;
  i_nodup : NoDup (map fst (tab s));
  i_tab : forall id r, In (id, r) (tab s) -> rid s r = id;
  i_hand : forall r f, hand s = Some (r, f) -> fRequestID f = rid s r /\ IsRst (fFlags f) = false /\ rdAlive s = true;
  i_down : up s = false -> tab s = [];
  i_ok : forall r, In r (okPending s) -> reg s r = true;
  i_res : forall r, res s r = Some true -> reg s r = true;
  i_closed : forall r, chanClosed s r = true <-> (1 <= closes s r)%nat;
  i_chan : forall r, (length (chanF s r) + length (filter isF (gots s r)) = sends s r)%nat;
  i_frames : forall r f, In f (chanF s r) \/ In (Some f) (gots s r) -> fRequestID f = rid s r;
  i_none : forall r, In None (gots s r) -> (1 <= closes s r)%nat;
  i_panic : panic s = false }.

Lemma pinv_init : pinv pinit.
Proof. split; cbn; intros; try constructor; try tauto; try lia; try discriminate; auto; try (split; intros; [discriminate|lia]). Qed.

(** [answer] changes nothing but [res], and only from None *)
Lemma answer_frame : forall r ok s, exists v, answer r ok s = p_res v s /\
  (forall x, v x = res s x \/ (x = r /\ res s r = None /\ v x = Some ok)).
Proof.
  intros r ok s. unfold answer. destruct (res s r) eqn:E.
  - exists (res s). split; [destruct s; reflexivity|]. auto.
  - exists (upd (res s) r (Some ok)). split; [reflexivity|]. intros x. destruct (N.eq_dec x r) as [->|NE].
    + rewrite upd_eq. auto.
    + rewrite upd_neq by assumption. auto.
Qed.

Lemma pinv_res : forall s v, pinv s -> (forall x, v x = res s x \/ (v x <> None /\ x < nextR s /\ (v x = Some true -> reg s x = true))) ->
  pinv (p_res v s).
Proof.
  intros s v [] H. split; cbn; auto.
  - intros r HR. destruct (i_fresh0 r HR) as (A & B & C & D). repeat split; auto. destruct (H r) as [E|(E & F & G)]; [congruence|lia].
  - intros r HR. destruct (H r) as [E|(E & F & G)]; [apply i_res0; congruence|apply G; assumption].
Qed.

Lemma pinv_answer : forall r ok s, pinv s -> r < nextR s -> (ok = true -> reg s r = true) -> pinv (answer r ok s).
Proof.
  intros r ok s I HR HO. destruct (answer_frame r ok s) as (v & E & H). rewrite E. apply pinv_res; [assumption|].
  intros x. destruct (H x) as [A|(-> & B & C)]; [auto|]. right. rewrite C. split; [discriminate|]. split; [assumption|].
  intros D. apply HO. congruence.
Qed.

Lemma answerAll_res : forall l s, exists v, answerAll l false s = p_res v s /\
  (forall x, v x = res s x \/ (v x = Some false /\ In x l)).
Proof.
  induction l as [|r l IH]; intros s; cbn.
  - exists (res s). split; [destruct s; reflexivity|auto].
  - destruct (answer_frame r false s) as (v & E & H). rewrite E. destruct (IH (p_res v s)) as (v' & E' & H').
    unfold answerAll in E'. rewrite E'. exists v'. split; [reflexivity|]. intros x. destruct (H' x) as [A|[A B]]; [|auto]. cbn in A.
    destruct (H x) as [C|(-> & C & D)]; [left; congruence|]. right. split; [congruence|auto].
Qed.

Lemma unreg_old : forall s r, pinv s -> In r (unreg s) -> r < nextR s.
Proof.
  intros s r I HI. destruct (N.ltb_spec r (nextR s)) as [|HG]; [assumption|]. destruct (i_fresh s I r HG) as (_ & _ & A & _).
  apply occ_in in HI. lia.
Qed.

Lemma queue_old : forall s r, pinv s -> In r (queue s) -> r < nextR s.
Proof.
  intros s r I HI. destruct (N.ltb_spec r (nextR s)) as [|HG]; [assumption|]. destruct (i_fresh s I r HG) as (_ & A & _).
  apply occ_in in HI. lia.
Qed.

Lemma reg_old : forall s r, pinv s -> reg s r = true -> r < nextR s.
Proof.
  intros s r I HI. destruct (N.ltb_spec r (nextR s)) as [|HG]; [assumption|]. destruct (i_fresh s I r HG) as (A & _). congruence.
Qed.

(** the registration loop: the requests still to do play the role of [unreg] *)
Lemma register_inv : forall l s, up s = true -> wph s = WCollect l -> pinv s ->
  forall s' l', register l s = (s', l') -> pinv (p_wph (WWrite l') s') /\ nextR s' = nextR s /\
    (forall r, In r l' -> reg s' r = true) /\ up s' = true.
Proof.
  assert (G : forall l s acc, up s = true -> pinv (p_wph (WCollect l) s) -> (forall r, In r acc -> reg s r = true) ->
    forall s' l', register l s = (s', l') -> pinv (p_wph (WCollect []) s') /\ nextR s' = nextR s /\
      (forall r, In r acc \/ In r l' -> reg s' r = true) /\ up s' = true).
  { induction l as [|r l IH]; intros s acc HU I HA s' l' HE; cbn in HE.
    - inversion HE; subst. split; [assumption|]. split; [reflexivity|]. split; [|assumption]. intros r [H|[]]; auto.
    - destruct (tget (tab s) (rid s r)) as [q|] eqn:ET.
      + assert (HR : r < nextR s) by (apply (unreg_old _ _ I); cbn; auto).
        destruct (answer_frame r false s) as (v & E & H). rewrite E in HE.
        apply (IH (p_res v s) acc) in HE; auto.
        assert (J : pinv (p_wph (WCollect l) s)).
        { destruct I. split; cbn in *; auto.
          - intros x. specialize (i_unreg0 x). cbn in i_unreg0. unfold unreg in *. cbn in *. rewrite occ_cons in i_unreg0. lia.
          - intros x HX. destruct (i_fresh0 x HX) as (A & B & C & D). unfold unreg in *. cbn in *. rewrite occ_cons in C. repeat split; auto; lia. }
        change (p_wph (WCollect l) (p_res v s)) with (p_res v (p_wph (WCollect l) s)). apply pinv_res; [assumption|].
        intros x. destruct (H x) as [A|(-> & B & C)]; [auto|]. right. rewrite C. cbn. repeat split; try discriminate. assumption.
      + destruct (register l _) as [s1 l1] eqn:ER. inversion HE; subst. clear HE.
        assert (HR : r < nextR s) by (apply (unreg_old _ _ I); cbn; auto).
        assert (HN : reg s r = false /\ occ r (queue s) = 0%nat /\ occ r l = 0%nat).
        { pose proof (i_unreg _ I r) as A. unfold unreg in A. cbn in A. rewrite occ_cons in A. destruct (N.eq_dec r r); [|congruence].
          destruct (reg s r); repeat split; lia. }
        apply (IH _ (r :: acc)) in ER.
        * destruct ER as (A & B & C & D). split; [assumption|]. split; [exact B|]. split; [|assumption]. intros x [HI|[->|HI]]; apply C; cbn; auto.
        * cbn. assumption.
        * destruct I. split; cbn in *; auto.
          -- intros x. unfold places in *. cbn in *. specialize (i_places0 x). cbn in i_places0. unfold tabR in *; cbn [map snd] in *; rewrite occ_cons.
             unfold handR in *. cbn in *. destruct (N.eq_dec r x) as [->|NE].
             ++ rewrite upd_eq. rewrite (proj1 HN) in i_places0. lia.
             ++ rewrite upd_neq by congruence. lia.
          -- intros x. specialize (i_unreg0 x). unfold unreg in *. cbn in *. rewrite occ_cons in i_unreg0. destruct (N.eq_dec r x) as [->|NE].
             ++ rewrite upd_eq. lia.
             ++ rewrite upd_neq by congruence. lia.
          -- intros x HX. destruct (i_fresh0 x HX) as (A & B & C & D). unfold unreg in *. cbn in *. rewrite occ_cons in C.
             rewrite upd_neq by lia. repeat split; auto; lia.
          -- constructor; [apply tget_none; assumption|assumption].
          -- intros id x [E|HI]; [congruence|]. apply i_tab0; assumption.
          -- intros HD. congruence.
          -- intros x HX. destruct (N.eq_dec x r) as [->|NE]; [apply upd_eq|]. rewrite upd_neq by assumption. apply i_res0; assumption.
        * intros x [->|HI]; cbn; [apply upd_eq|]. destruct (N.eq_dec x r) as [->|NE]; [apply upd_eq|]. rewrite upd_neq by assumption. auto. }
  intros l s HU HW I s' l' HE.
  assert (J : pinv (p_wph (WCollect l) s)).
  { replace (p_wph (WCollect l) s) with s; [assumption|]. destruct s; cbn in *; subst; reflexivity. }
  destruct (G l s [] HU J (fun r H => match H with end) s' l' HE) as (A & B & C & D).
  split; [|auto]. destruct A. split; cbn in *; auto.
Qed.

Lemma places_le : forall s r, pinv s -> (places s r <= 1)%nat.
Proof. intros s r I. rewrite (i_places s I r). destruct (reg s r); lia. Qed.

Lemma places_out : forall s r, pinv s -> (sends s r + closes s r <= 1)%nat.
Proof. intros s r I. pose proof (places_le s r I) as A. unfold places in A. lia. Qed.

(** closing a Response taken out of the table *)
Lemma respClose_inv : forall s r c, pinv s -> closing s = r :: c -> pinv (respClose r (p_closing c s)).
Proof.
  intros s r c I HC. pose proof (places_le s r I) as P. unfold places in P. rewrite HC, occ_cons in P.
  destruct (N.eq_dec r r) as [_|]; [|congruence]. assert (P' : closes s r = 0%nat) by lia.
  assert (NC : chanClosed s r = false).
  { destruct (chanClosed s r) eqn:E; [|reflexivity]. apply (i_closed s I) in E. lia. }
  unfold respClose. cbn. rewrite NC. destruct I. split; cbn; auto.
  - intros x. unfold places in *. cbn. specialize (i_places0 x). rewrite HC, occ_cons in i_places0. unfold handR in *. cbn in *.
    destruct (N.eq_dec r x) as [->|NE]; [rewrite upd_eq|rewrite upd_neq by congruence]; lia.
  - intros x. destruct (N.eq_dec x r) as [->|NE]; [rewrite !upd_eq; split; [lia|reflexivity]|rewrite !upd_neq by assumption; apply i_closed0].
  - intros x H. specialize (i_none0 x H). destruct (N.eq_dec x r) as [->|NE]; [rewrite upd_eq; lia|rewrite upd_neq by assumption; assumption].
Qed.

Lemma pinv_step : forall isClient s l s', pinv s -> pstep isClient s l = Some s' -> pinv s'.
Proof.
  intros isClient s l s' I H. unfold pstep in H. destruct l.
  - (* PRequest *)
    inversion H; subst; clear H. destruct (i_fresh s I (nextR s) ltac:(lia)) as (A & B & C & D).
    assert (RN : forall x, reg s x = true -> upd (rid s) (nextR s) id x = rid s x).
    { intros x HX. apply upd_neq. pose proof (reg_old s x I HX). lia. }
    assert (PL : forall x, (1 <= places s x)%nat -> upd (rid s) (nextR s) id x = rid s x).
    { intros x HX. apply RN. pose proof (i_places s I x) as E. destruct (reg s x); [reflexivity|lia]. }
    unfold places in PL. destruct I. split; cbn; auto.
    + intros x. specialize (i_unreg0 x). unfold unreg in *. cbn. rewrite occ_app, occ_cons, occ_nil. destruct (N.eq_dec (nextR s) x) as [E0|NE]; [rewrite <- E0 in *; rewrite A in i_unreg0; rewrite A|]; lia.
    + intros x HX. destruct (i_fresh0 x) as (A' & B' & C' & D'); [lia|]. rewrite occ_app, occ_cons, occ_nil.
      destruct (N.eq_dec (nextR s) x); [lia|]. unfold unreg in *. cbn. repeat split; auto; lia.
    + intros i x HI. rewrite PL; [apply i_tab0; assumption|]. assert (In x (tabR (tab s))) by (apply in_map_iff; exists (i, x); auto).
      apply occ_in in H. lia.
    + intros x f HI. rewrite PL; [apply i_hand0; assumption|]. assert (In x (handR s)) by (unfold handR; rewrite HI; left; reflexivity).
      apply occ_in in H. lia.
    + intros x f HI. rewrite PL; [apply i_frames0; assumption|]. specialize (i_chan0 x).
      destruct HI as [HI|HI].
      * destruct (chanF s x); [contradiction|]. cbn in i_chan0. lia.
      * assert (In (Some f) (filter isF (gots s x))) by (apply filter_In; auto). destruct (filter isF (gots s x)); [contradiction|]. cbn in i_chan0. lia.
  - (* PCollect *)
    destruct (wph s) eqn:EW; try discriminate. destruct (wAlive s && existsb (N.eqb r) (queue s))%bool eqn:E; [|discriminate]. inversion H; subst; clear H.
    apply andb_prop in E. destruct E as [_ E]. apply existsb_exists in E. destruct E as (q & HI & E). apply N.eqb_eq in E. subst q.
    pose proof (queue_old s r I HI) as HO. apply occ_in in HI.
    destruct I. split; cbn; auto.
    + intros x. specialize (i_unreg0 x). unfold unreg in *. rewrite EW in i_unreg0. cbn. rewrite occ_remove1, occ_app, occ_cons, occ_nil.
      destruct (N.eq_dec r x) as [->|]; lia.
    + intros x HX. destruct (i_fresh0 x HX) as (A & B & C & D). unfold unreg in *. rewrite EW in C. cbn. rewrite occ_remove1, occ_app, occ_cons, occ_nil.
      destruct (N.eq_dec r x) as [->|]; [lia|]. repeat split; auto; lia.
  - (* PReject *)
    destruct (wph s) eqn:EW; try discriminate. destruct (wAlive s && existsb (N.eqb r) (queue s))%bool eqn:E; [|discriminate]. inversion H; subst; clear H.
    apply andb_prop in E. destruct E as [_ E]. apply existsb_exists in E. destruct E as (q & HI & E). apply N.eqb_eq in E. subst q.
    pose proof (queue_old s r I HI) as HO. apply pinv_answer; [|exact HO|discriminate].
    destruct I. split; cbn; auto.
    + intros x. specialize (i_unreg0 x). unfold unreg in *. cbn. rewrite occ_remove1. destruct (N.eq_dec r x); lia.
    + intros x HX. destruct (i_fresh0 x HX) as (A & B & C & D). unfold unreg in *. cbn. rewrite occ_remove1. destruct (N.eq_dec r x); auto.
  - (* PRegister *)
    destruct (wph s) eqn:EW; try discriminate. destruct (wAlive s && _)%bool; [|discriminate]. destruct (up s) eqn:EU.
    + destruct (register l s) as [s1 b1] eqn:ER. inversion H; subst; clear H. eapply register_inv; eassumption.
    + inversion H; subst; clear H. destruct (answerAll_res l s) as (v & E & HV). rewrite E.
      assert (J : pinv (p_res v s)).
      { apply pinv_res; [assumption|]. intros x. destruct (HV x) as [A|[A B]]; [auto|]. right. rewrite A. repeat split; try discriminate.
        apply (unreg_old s x I). unfold unreg. rewrite EW. assumption. }
      destruct J. split; cbn in *; auto.
      * intros x. specialize (i_unreg0 x). unfold unreg in *. cbn in *. rewrite occ_nil. lia.
      * intros x HX. destruct (i_fresh0 x HX) as (A & B & C & D). auto.
  - (* PWrite *)
    destruct (wph s) eqn:EW; try discriminate. inversion H; subst; clear H. destruct I. split; cbn; auto.
    + intros x. specialize (i_unreg0 x). unfold unreg in *. rewrite EW in i_unreg0. assumption.
    + intros x HX. specialize (i_fresh0 x HX). unfold unreg in *. rewrite EW in i_fresh0. assumption.
    + intros x HI. apply i_ok0. unfold okPending. cbn in *. rewrite EW. rewrite map_map in HI. cbn in HI. rewrite map_id in HI. assumption.
  - (* PWriteErr *)
    destruct (wph s) eqn:EW; try discriminate. inversion H; subst; clear H. destruct I. split; cbn; auto.
    + intros x. specialize (i_unreg0 x). unfold unreg in *. rewrite EW in i_unreg0. assumption.
    + intros x HX. specialize (i_fresh0 x HX). unfold unreg in *. rewrite EW in i_fresh0. assumption.
    + intros x HI. apply i_ok0. unfold okPending. cbn in *. rewrite EW. rewrite map_map in HI. cbn in HI. rewrite map_id in HI. assumption.
  - (* PAnswer *)
    destruct (wph s) as [|? |[|[r ok] a] e] eqn:EW; try discriminate; inversion H; subst; clear H.
    + destruct I. split; cbn; auto.
      * intros x. specialize (i_unreg0 x). unfold unreg in *. rewrite EW in i_unreg0. assumption.
      * intros x HX. specialize (i_fresh0 x HX). unfold unreg in *. rewrite EW in i_fresh0. assumption.
    + assert (HR : reg s r = true) by (apply (i_ok s I); unfold okPending; rewrite EW; left; reflexivity).
      apply pinv_answer; [|cbn; apply (reg_old s r I HR)|auto]. destruct I. split; cbn; auto.
      * intros x. specialize (i_unreg0 x). unfold unreg in *. rewrite EW in i_unreg0. assumption.
      * intros x HX. specialize (i_fresh0 x HX). unfold unreg in *. rewrite EW in i_fresh0. assumption.
      * intros x HI. apply i_ok0. unfold okPending. rewrite EW. right. assumption.
  - (* PAbort *)
    destruct (r <? nextR s) eqn:E; [|discriminate]. inversion H; subst. apply pinv_answer; [assumption|lia|discriminate].
  - (* PFrame *)
    destruct (hand s) eqn:EH; [discriminate|]. destruct (rdAlive s) eqn:ER; [|discriminate].
    destruct (returned f bound && looksUp isClient f)%bool eqn:EB; [|inversion H; subst; assumption].
    destruct (negb isClient || _)%bool; [|discriminate].
    destruct (tget (tab s) (fRequestID f)) as [r|] eqn:ET.
    + inversion H; subst; clear H. pose proof (tget_in _ _ _ ET) as HI.
      destruct I. split; cbn; auto.
      * intros x. unfold places in *. cbn. specialize (i_places0 x). unfold handR in *. rewrite EH in i_places0. cbn in *.
        pose proof (occ_tdel (tab s) (fRequestID f) r x i_nodup0 HI) as Q. rewrite occ_cons, occ_nil in *. lia.
      * apply tdel_nodup. assumption.
      * intros i x HX. apply tdel_sub in HX. apply i_tab0. assumption.
      * intros x g HX. inversion HX; subst. split; [symmetry; apply i_tab0; assumption|]. split; [|assumption].
        unfold returned in EB. destruct (IsRst (fFlags g)); [discriminate|reflexivity].
      * intros HX. rewrite (i_down0 HX). reflexivity.
    + destruct (isClient && negb (up s))%bool; inversion H; subst; [|assumption]. destruct I. split; cbn; auto. intros x g HX. congruence.
  - (* PHand *)
    destruct (hand s) as [[r f]|] eqn:EH; [|discriminate].
    destruct (i_hand s I r f EH) as (A & B & C). rewrite B in H. pose proof (places_le s r I) as P. unfold places in P.
    unfold handR in P. rewrite EH, occ_cons, occ_nil in P. destruct (N.eq_dec r r) as [_|]; [|congruence].
    assert (P1 : closes s r = 0%nat) by lia. assert (P2 : sends s r = 0%nat) by lia.
    unfold respSet in H. assert (NC : chanClosed s r = false).
    { destruct (chanClosed s r) eqn:E; [|reflexivity]. apply (i_closed s I) in E. lia. }
    rewrite NC in H. destruct (chanF s r) eqn:EC; [|discriminate]. inversion H; subst; clear H.
    destruct I. split; cbn; auto.
    + intros x. specialize (i_places0 x). unfold places, handR in *. rewrite EH in i_places0. cbn. rewrite occ_cons, occ_nil in *.
      destruct (N.eq_dec r x) as [->|NE]; [rewrite upd_eq|rewrite upd_neq by congruence]; lia.
    + discriminate.
    + intros x. specialize (i_chan0 x). destruct (N.eq_dec x r) as [->|NE]; [rewrite !upd_eq|rewrite !upd_neq by assumption; assumption].
      rewrite EC in i_chan0. cbn in *. lia.
    + intros x g [HX|HX]; [|apply i_frames0; auto]. destruct (N.eq_dec x r) as [->|NE].
      * rewrite upd_eq in HX. destruct HX as [->|[]]. assumption.
      * rewrite upd_neq in HX by assumption. apply i_frames0; auto.
  - (* PReadQuit *)
    destruct (hand s) eqn:EH; [discriminate|]. inversion H; subst. destruct I. split; cbn; auto. intros r f HX. congruence.
  - (* PWriteQuit *)
    destruct (wph s) eqn:EW; try discriminate. inversion H; subst; clear H. destruct (answerAll_res l s) as (v & E & HV). rewrite E.
    assert (J : pinv (p_res v s)).
    { apply pinv_res; [assumption|]. intros x. destruct (HV x) as [A|[A B]]; [auto|]. right. rewrite A. repeat split; try discriminate.
      apply (unreg_old s x I). unfold unreg. rewrite EW. assumption. }
    destruct J. split; cbn in *; auto.
    + intros x. specialize (i_unreg0 x). unfold unreg in *. cbn in *. rewrite occ_nil. lia.
    + intros x HX. destruct (i_fresh0 x HX) as (A & B & C & D). auto.
  - (* PClose *)
    destruct (negb isClient || _)%bool; [|discriminate]. destruct (up s) eqn:EU; inversion H; subst; [|assumption].
    destruct I. split; cbn; auto.
    + intros x. specialize (i_places0 x). unfold places, handR in *. cbn. rewrite occ_app, occ_nil. unfold tabR in *. cbn in *. lia.
    + constructor.
    + intros i x [].
  - (* PCloseOne *)
    destruct (closing s) as [|r c] eqn:EC; [discriminate|]. inversion H; subst. apply respClose_inv; assumption.
  - (* PConnect *)
    destruct (_ && _)%bool; [|discriminate]. inversion H; subst. destruct I. split; cbn; auto.
    + intros r f HX. destruct (i_hand0 r f HX) as (A & B & C). auto.
    + discriminate.
  - (* PGet *)
    destruct (res s r) as [[|]|] eqn:ER; try discriminate. destruct (chanF s r) as [|f c] eqn:EC.
    + destruct (chanClosed s r) eqn:ECC; [|discriminate]. inversion H; subst; clear H. destruct I. split; cbn; auto.
      * intros x. specialize (i_chan0 x). destruct (N.eq_dec x r) as [->|NE]; [rewrite !upd_eq|rewrite !upd_neq by assumption; assumption]. cbn. assumption.
      * intros x g [HX|HX]; [apply i_frames0; auto|]. destruct (N.eq_dec x r) as [->|NE].
        -- rewrite upd_eq in HX. destruct HX as [HX|HX]; [discriminate|]. apply i_frames0; auto.
        -- rewrite upd_neq in HX by assumption. apply i_frames0; auto.
      * intros x HX. destruct (N.eq_dec x r) as [->|NE]; [apply i_closed0; assumption|]. rewrite upd_neq in HX by assumption. apply i_none0; assumption.
    + inversion H; subst; clear H. destruct I. split; cbn; auto.
      * intros x. specialize (i_chan0 x). destruct (N.eq_dec x r) as [->|NE]; [rewrite !upd_eq|rewrite !upd_neq by assumption; assumption].
        rewrite EC in i_chan0. cbn in *. lia.
      * intros x g HX. destruct (N.eq_dec x r) as [->|NE].
        -- rewrite !upd_eq in HX. apply i_frames0. rewrite EC. destruct HX as [HX|[HX|HX]]; [left; right; assumption|left; left; congruence|auto].
        -- rewrite !upd_neq in HX by assumption. apply i_frames0; auto.
      * intros x HX. destruct (N.eq_dec x r) as [->|NE]; [|rewrite upd_neq in HX by assumption; apply i_none0; assumption].
        rewrite upd_eq in HX. destruct HX as [HX|HX]; [discriminate|]. apply i_none0; assumption.
Qed.

Lemma pinv_reachable : forall isClient s, reachable (pstep isClient) pinit s -> pinv s.
Proof. intros isClient s H. exact (reachable_inv (pstep isClient) pinv pinit pinv_init (pinv_step isClient) s H). Qed.
