(** Invariant of Model/BufReuse.v. *)
From Verif Require Import Model.GoBase Model.Machine Model.BufReuse.
Open Scope N_scope.

Section Inv.
  Variable recon : N -> bool.

  (** a call that gave up after its frame was queued *)
  Definition lost (x : call) (c : N) : Prop := ph x = Returned /\ gaveUp x = true /\ recon c = false.

  Record inv (s : bst) : Prop := mkInv {
    i_live : forall k x, calls s k = Some x -> ph x <> Returned ->
      cur s (cw x) = Some k /\ owner s (cw x) = Some (cconn x) /\ show s (slice s (cw x)) = built x;
    i_cur : forall w k, cur s w = Some k -> exists x, calls s k = Some x /\ cw x = w /\ ph x <> Returned;
    i_inj : forall w w', fst (slice s w) = fst (slice s w') -> w = w';
    i_arr : forall w, fst (slice s w) = 2 * w \/ exists n, fst (slice s w) = 2 * n + 1 /\ n < grown s;
    i_queue : forall c k, In k (queue s c) -> exists x, calls s k = Some x /\ cconn x = c /\ (ph x = Queued \/ lost x c);
    i_batch : forall c k sl, In (k, sl) (batch s c) -> exists x, calls s k = Some x /\ cconn x = c /\
      ((ph x = Collected /\ sl = slice s (cw x)) \/ lost x c);
    i_nodup : forall c, NoDup (queue s c ++ map fst (batch s c));
    i_wire : forall c k b, In (k, b) (wire s c) -> exists x, calls s k = Some x /\ cconn x = c /\ (b = built x \/ lost x c);
    i_gave : forall k x, calls s k = Some x -> gaveUp x = true -> done s (cconn x) = true /\ ph x = Returned;
    i_nil : forall k x, calls s k = Some x -> res x = Some true -> gaveUp x = false -> In (k, built x) (wire s (cconn x));
    i_res : forall k x, calls s k = Some x -> (ph x = Resolved \/ ph x = Returned /\ gaveUp x = false) -> exists b, res x = Some b
  }.

  Lemma inv_init : inv binit.
  Proof.
    constructor; cbn; try discriminate; try tauto.
    - intros w w' H. change (2 * w = 2 * w') in H. lia.
    - intros. constructor.
  Qed.

  Ltac u := unfold upd in *; repeat match goal with
    | H : context [N.eqb ?a ?b] |- _ => destruct (N.eqb_spec a b); subst
    | |- context [N.eqb ?a ?b] => destruct (N.eqb_spec a b); subst
    end.

  Ltac inj := repeat match goal with H : Some _ = Some _ |- _ => inversion H; subst; clear H end.

  Lemma resolve_inv : forall s k ok,
    inv s -> (forall c, ~ In k (queue s c)) -> (forall c sl, ~ In (k, sl) (batch s c)) ->
    (ok = true -> forall x, calls s k = Some x -> gaveUp x = false -> In (k, built x) (wire s (cconn x))) ->
    inv (resolve s k ok).
  Proof.
    intros s k ok I HQ HB HW. unfold resolve. destruct (calls s k) as [x|] eqn:E; [|assumption].
    assert (NR : forall p, match p with Returned => Returned | _ => Resolved end = Returned -> p = Returned) by (intros []; congruence).
    constructor; cbn.
    - intros k' x' H HP. u; inj; cbn in *.
      + apply (i_live s I k x E). intro HR. rewrite HR in HP. congruence.
      + apply (i_live s I k' x' H HP).
    - intros w k' H. destruct (i_cur s I w k' H) as (y & Hy & Hw & HP). u.
      + rewrite E in Hy. inj. eexists. split; [reflexivity|]. cbn. split; [reflexivity|]. intro HR. apply NR in HR. contradiction.
      + exists y. auto.
    - apply (i_inj s I).
    - apply (i_arr s I).
    - intros c k' Hin. destruct (i_queue s I c k' Hin) as (y & Hy & Hc & HP). u; [exfalso; eapply HQ; eassumption|]. exists y. auto.
    - intros c k' sl Hin. destruct (i_batch s I c k' sl Hin) as (y & Hy & Hc & HP). u; [exfalso; eapply HB; eassumption|]. exists y. auto.
    - apply (i_nodup s I).
    - intros c k' b Hin. destruct (i_wire s I c k' b Hin) as (y & Hy & Hc & HP). u; [|exists y; auto].
      rewrite E in Hy. inj. eexists. split; [reflexivity|]. cbn. split; [reflexivity|]. destruct HP as [HP|(HP1 & HP2 & HP3)]; [left; assumption|].
      right. unfold lost. cbn. rewrite HP1. auto.
    - intros k' y H HG. u; inj; cbn in *; [|apply (i_gave s I k' y H HG)].
      destruct (i_gave s I k x E HG) as [G1 G2]. split; [assumption|]. rewrite G2. reflexivity.
    - intros k' y H HR HG. u; inj; cbn in *; [|apply (i_nil s I k' y H HR HG)].
      destruct ok; [|discriminate]. apply HW; auto.
    - intros k' y H HP. u; inj; cbn in *; [eexists; reflexivity|]. eapply (i_res s I); eassumption.
  Qed.

  Lemma resolve_queue : forall s k ok c, queue (resolve s k ok) c = queue s c.
  Proof. intros. unfold resolve. destruct (calls s k); reflexivity. Qed.
  Lemma resolve_batch : forall s k ok c, batch (resolve s k ok) c = batch s c.
  Proof. intros. unfold resolve. destruct (calls s k); reflexivity. Qed.

  Lemma fold_resolve_inv : forall (b : list (N * (N * N))) s, inv s ->
    (forall k sl, In (k, sl) b -> (forall c, ~ In k (queue s c)) /\ (forall c sl', ~ In (k, sl') (batch s c))) ->
    inv (fold_left (fun s '(k, _) => resolve s k false) b s).
  Proof.
    induction b as [|[k sl] b IH]; intros s I H; [assumption|]. cbn. apply IH.
    - destruct (H k sl (or_introl eq_refl)). apply resolve_inv; auto; discriminate.
    - intros k' sl' Hin. destruct (H k' sl' (or_intror Hin)) as [A B].
      split; intros; [rewrite resolve_queue|rewrite resolve_batch]; auto.
  Qed.

  Lemma NoDup_app_l : forall (l l' : list N), NoDup (l ++ l') -> NoDup l.
  Proof. induction l as [|a l IH]; intros l' H; [constructor|]. cbn in H. inversion H; subst. constructor; [intro; apply H2; apply in_or_app; auto|eauto]. Qed.
  Lemma finish_inv : forall s k x gu, inv s -> calls s k = Some x -> ph x <> Returned ->
    (gu = true -> done s (cconn x) = true) ->
    (gu = true -> (ph x = Started \/ recon (cconn x) = false)) ->
    (gu = false -> ph x = Resolved) -> (gu = false -> gaveUp x = false) ->
    inv (finish s k x gu).
  Proof.
    intros s k x gu I E HP HD HS HR HG.
    destruct (i_live s I k x E HP) as (HC & HO & HSh).
    assert (NQ : gu = false -> forall c, ~ In k (queue s c)).
    { intros G c Hin. specialize (HR G). destruct (i_queue s I c k Hin) as (y & Hy & _ & [P|(P & _)]); rewrite E in Hy; inj; [congruence|contradiction]. }
    assert (NB : gu = false -> forall c sl, ~ In (k, sl) (batch s c)).
    { intros G c sl Hin. specialize (HR G). destruct (i_batch s I c k sl Hin) as (y & Hy & _ & [(P & _)|(P & _)]); rewrite E in Hy; inj; [congruence|contradiction]. }
    constructor; cbn.
    - intros k' x' H HP'. u; inj; cbn in *; try congruence.
      + exfalso. destruct (i_live s I k' x' H HP') as (C1 & _). congruence.
      + destruct (i_live s I k' x' H HP') as (C1 & C2 & C3). split; [assumption|]. split; [assumption|]. exact C3.
    - intros w k' H. u; [discriminate|discriminate| |].
      + destruct (i_cur s I w k H) as (y & Hy & Hw & _). rewrite E in Hy. inj. contradiction.
      + apply (i_cur s I w k' H).
    - intros w w' H. apply (i_inj s I). unfold upd in H. destruct (N.eqb_spec w (cw x)), (N.eqb_spec w' (cw x)); subst; cbn in H; assumption.
    - intro w. pose proof (i_arr s I w). u; cbn; assumption.
    - intros c k' Hin. destruct (i_queue s I c k' Hin) as (y & Hy & Hc & P). u; [|exists y; auto].
      rewrite E in Hy. inj. eexists. split; [reflexivity|]. cbn. split; [reflexivity|]. right. unfold lost. cbn. split; [reflexivity|].
      destruct gu; [|exfalso; eapply NQ; eauto]. split; [reflexivity|].
      destruct (HS eq_refl) as [S|S]; [|assumption]. destruct P as [P|(P & _)]; congruence.
    - intros c k' sl Hin. destruct (i_batch s I c k' sl Hin) as (y & Hy & Hc & P). destruct (N.eqb_spec k' k) as [->|NK].
      + rewrite upd_eq. rewrite E in Hy. inj. eexists. split; [reflexivity|]. cbn. split; [reflexivity|]. right. unfold lost. cbn. split; [reflexivity|].
        destruct gu; [|exfalso; eapply NB; eauto]. split; [reflexivity|].
        destruct (HS eq_refl) as [S|S]; [|assumption]. destruct P as [(P & _)|(P & _)]; congruence.
      + rewrite upd_neq by assumption. exists y. split; [assumption|]. split; [assumption|]. destruct P as [(P & PS)|P]; [left|right; assumption].
        split; [assumption|]. rewrite upd_neq; [assumption|]. intro EW.
        assert (HP' : ph y <> Returned) by congruence. destruct (i_live s I k' y Hy HP') as (C1 & _). congruence.
    - apply (i_nodup s I).
    - intros c k' b Hin. destruct (i_wire s I c k' b Hin) as (y & Hy & Hc & P). u; [|exists y; auto].
      rewrite E in Hy. inj. eexists. split; [reflexivity|]. cbn. split; [reflexivity|].
      destruct P as [P|(P & _)]; [left; assumption|contradiction].
    - intros k' y H HG'. u; inj; cbn in *; [auto|apply (i_gave s I k' y H HG')].
    - intros k' y H HRs HG'. u; inj; cbn in *; [|apply (i_nil s I k' y H HRs HG')].
      apply (i_nil s I k x E HRs). apply HG. assumption.
    - intros k' y H HPP. u; inj; cbn in *; [|eapply (i_res s I); eassumption].
      destruct HPP as [P|(_ & G)]; [discriminate|]. apply (i_res s I k x E). left. apply HR. assumption.
  Qed.

  Lemma some_inj : forall (A : Type) (a b : A), Some a = Some b -> b = a. Proof. congruence. Qed.

  Lemma step_inv : forall s l s', inv s -> bstep recon s l = Some s' -> inv s'.
  Proof.
    intros s l s' I H. destruct l as [w c|w f grow|w|k w|k|k|c|c|c|c|k|c]; cbn -[N.mul] in H.
    - (* BGet *) destruct (owner s w) eqn:O; [discriminate|]. inj. constructor; cbn; try apply I.
      intros k x E HP. destruct (i_live s I k x E HP) as (C1 & C2 & C3). split; [assumption|]. split; [|assumption].
      u; [congruence|assumption].
    - (* BBuild *) destruct (owner s w) eqn:O; [|discriminate]. destruct (cur s w) eqn:C; [discriminate|].
      destruct (slice s w) as [a len] eqn:SL.
      assert (LIVE : forall k x, calls s k = Some x -> ph x <> Returned -> cw x <> w).
      { intros k x E HP Hw. destruct (i_live s I k x E HP) as (C1 & _). congruence. }
      assert (OTHER : forall w', w' <> w -> fst (slice s w') <> a).
      { intros w' Hw E. apply Hw. apply (i_inj s I). rewrite SL. cbn. assumption. }
      destruct grow as [np|]; apply some_inj in H; subst s'.
      + set (a' := 2 * grown s + 1) in *. assert (Ea : a' = 2 * grown s + 1) by reflexivity. clearbody a'.
        assert (NEW : forall w', fst (slice s w') <> a').
        { intros w' E. destruct (i_arr s I w') as [A|(m & A & B)]; lia. }
        constructor; cbn -[N.mul]; try apply I.
        * intros k x E HP. pose proof (LIVE k x E HP) as NW. destruct (i_live s I k x E HP) as (C1 & C2 & C3).
          split; [assumption|]. split; [assumption|]. unfold show in *; cbn. rewrite (upd_neq _ _ w _ (cw x)) by assumption.
          rewrite (upd_neq _ _ a' _ (fst (slice s (cw x)))) by apply NEW. rewrite (upd_neq _ _ a _ (fst (slice s (cw x)))) by (apply OTHER; exact NW). assumption.
        * intros w1 w2 E. unfold upd in E. destruct (N.eqb_spec w1 w), (N.eqb_spec w2 w); subst; auto; cbn in E.
          -- exfalso. eapply NEW. symmetry. eassumption.
          -- exfalso. eapply NEW. eassumption.
          -- apply (i_inj s I). assumption.
        * intro w'. unfold upd. destruct (N.eqb_spec w' w); cbn -[N.mul]; [right; exists (grown s); lia|].
          destruct (i_arr s I w') as [A|(m & A & B)]; [left; assumption|right; exists m; lia].
        * intros c k sl Hin. destruct (i_batch s I c k sl Hin) as (x & E & Hc & [(P & Hs)|P]); exists x; (split; [assumption|]); (split; [assumption|]); [left|right; assumption].
          split; [assumption|]. rewrite upd_neq; [assumption|]. apply (LIVE k x E). congruence.
      + constructor; cbn; try apply I.
        * intros k x E HP. pose proof (LIVE k x E HP) as NW. destruct (i_live s I k x E HP) as (C1 & C2 & C3).
          split; [assumption|]. split; [assumption|]. unfold show in *; cbn. rewrite (upd_neq _ _ w _ (cw x)) by assumption.
          rewrite (upd_neq _ _ a _ (fst (slice s (cw x)))) by (apply OTHER; exact NW). assumption.
        * intros w1 w2 E. unfold upd in E. destruct (N.eqb_spec w1 w), (N.eqb_spec w2 w); subst; auto; cbn in E.
          -- exfalso. eapply OTHER; [|symmetry; eassumption]. assumption.
          -- exfalso. eapply OTHER; eassumption.
          -- apply (i_inj s I). assumption.
        * intro w'. unfold upd. destruct (N.eqb_spec w' w) as [->|]; cbn; [|apply (i_arr s I w')].
          pose proof (i_arr s I w) as A. rewrite SL in A. exact A.
        * intros c k sl Hin. destruct (i_batch s I c k sl Hin) as (x & E & Hc & [(P & Hs)|P]); exists x; (split; [assumption|]); (split; [assumption|]); [left|right; assumption].
          split; [assumption|]. rewrite upd_neq; [assumption|]. apply (LIVE k x E). congruence.
    - (* BPut *) destruct (owner s w) eqn:O; [|discriminate]. destruct (cur s w) eqn:C; [discriminate|]. inj. constructor; cbn; try apply I.
      intros k x E HP. destruct (i_live s I k x E HP) as (C1 & C2 & C3). split; [assumption|]. split; [|assumption].
      u; [congruence|assumption].
    - (* BCall *) destruct (owner s w) as [c|] eqn:O; [|discriminate]. destruct (cur s w) eqn:C; [discriminate|].
      destruct (calls s k) eqn:E; [discriminate|]. inj.
      assert (NE : forall k' x, calls s k' = Some x -> k' <> k) by (intros k' x Hx ->; congruence).
      constructor; cbn; try apply I.
      + intros k' x H HP. u; inj; cbn in *; try congruence.
        * split; [reflexivity|]. split; [assumption|reflexivity].
        * destruct (i_live s I k' x H HP) as (C1 & _). congruence.
        * destruct (i_live s I k' x H HP) as (C1 & C2 & C3). split; [assumption|]. split; [assumption|]. exact C3.
      + intros w' k' H. unfold upd in H. destruct (N.eqb_spec w' w) as [->|Hw].
        * inj. rewrite upd_eq. eexists. split; [reflexivity|]. cbn. split; [reflexivity|discriminate].
        * destruct (i_cur s I w' k' H) as (x & Hx & P). exists x. rewrite upd_neq by eauto. auto.
      + intros c' k' Hin. destruct (i_queue s I c' k' Hin) as (x & Hx & P). exists x. rewrite upd_neq by eauto. auto.
      + intros c' k' sl Hin. destruct (i_batch s I c' k' sl Hin) as (x & Hx & P). exists x. rewrite upd_neq by eauto. auto.
      + intros c' k' b Hin. destruct (i_wire s I c' k' b Hin) as (x & Hx & P). exists x. rewrite upd_neq by eauto. auto.
      + intros k' x H HG. u; inj; cbn in *; [discriminate|]. apply (i_gave s I k' x H HG).
      + intros k' x H HR HG. u; inj; cbn in *; [discriminate|]. apply (i_nil s I k' x H HR HG).
      + intros k' x H HP. u; inj; cbn in *; [destruct HP as [|[]]; discriminate|]. eapply (i_res s I); eassumption.
    - (* BQueue *) destruct (calls s k) as [x|] eqn:E; [|discriminate]. destruct (ph x) eqn:P; try discriminate. inj.
      assert (NQ : forall c, ~ In k (queue s c)).
      { intros c Hin. destruct (i_queue s I c k Hin) as (y & Hy & _ & [Q|(Q & _)]); rewrite E in Hy; inj; congruence. }
      assert (NB : forall c sl, ~ In (k, sl) (batch s c)).
      { intros c sl Hin. destruct (i_batch s I c k sl Hin) as (y & Hy & _ & [(Q & _)|(Q & _)]); rewrite E in Hy; inj; congruence. }
      constructor; cbn; try apply I.
      + intros k' y H HP. u; inj; cbn in *.
        * apply (i_live s I k x E). congruence.
        * apply (i_live s I k' y H HP).
      + intros w k' H. destruct (i_cur s I w k' H) as (y & Hy & Q). u; [|exists y; auto].
        rewrite E in Hy. inj. eexists. split; [reflexivity|]. cbn. split; [apply Q|discriminate].
      + intros c k' Hin. unfold upd at 1 in Hin. destruct (N.eqb_spec c (cconn x)) as [->|].
        * apply in_app_or in Hin. destruct Hin as [Hin|[<-|[]]].
          -- destruct (i_queue s I _ k' Hin) as (y & Hy & Q). exists y. rewrite upd_neq; [auto|]. intros ->. eapply NQ; eassumption.
          -- rewrite upd_eq. eexists. split; [reflexivity|]. cbn. auto.
        * destruct (i_queue s I _ k' Hin) as (y & Hy & Q). exists y. rewrite upd_neq; [auto|]. intros ->. eapply NQ; eassumption.
      + intros c k' sl Hin. destruct (i_batch s I _ k' sl Hin) as (y & Hy & Q). exists y. rewrite upd_neq; [auto|]. intros ->. eapply NB; eassumption.
      + intro c. unfold upd. destruct (N.eqb_spec c (cconn x)) as [->|]; [|apply (i_nodup s I)].
        rewrite <- app_assoc. cbn. apply NoDup_Add with (a := k) (l := queue s (cconn x) ++ map fst (batch s (cconn x))).
        * apply Add_app.
        * split; [apply (i_nodup s I)|]. intro Hin. apply in_app_or in Hin. destruct Hin as [Hin|Hin]; [eapply NQ; eassumption|].
          apply in_map_iff in Hin. destruct Hin as ([k' sl] & EE & Hin). cbn in EE. subst. eapply NB; eassumption.
      + intros c k' b Hin. destruct (i_wire s I _ k' b Hin) as (y & Hy & Hc & Q). u; [|exists y; auto].
        rewrite E in Hy. inj. eexists. split; [reflexivity|]. cbn. split; [reflexivity|]. destruct Q as [Q|(Q & _)]; [auto|congruence].
      + intros k' y H HG. u; inj; cbn in *; [|apply (i_gave s I k' y H HG)]. destruct (i_gave s I k x E HG). congruence.
      + intros k' y H HR HG. u; inj; cbn in *; [|apply (i_nil s I k' y H HR HG)]. apply (i_nil s I k x E HR HG).
      + intros k' y H HP. u; inj; cbn in *; [destruct HP as [|[]]; discriminate|]. eapply (i_res s I); eassumption.
    - (* BGiveUp *) destruct (calls s k) as [x|] eqn:E; [|discriminate]. destruct (done s (cconn x)) eqn:D; [|discriminate].
      destruct (ph x) eqn:P; try discriminate; [|destruct (recon (cconn x)) eqn:R; [discriminate|]..]; inj;
        (apply finish_inv; [assumption|assumption|congruence|auto|auto|discriminate|discriminate]).
    - (* BTake *) destruct (queue s c) as [|k q] eqn:Q; [discriminate|]. destruct (calls s k) as [x|] eqn:E; [|discriminate]. inj.
      destruct (i_queue s I c k) as (y & Hy & Hc & HP); [rewrite Q; left; reflexivity|]. rewrite E in Hy. inj.
      pose proof (i_nodup s I (cconn y)) as ND. rewrite Q in ND. cbn in ND. inversion ND as [|? ? N1 N2]; subst.
      assert (NB : forall c sl, ~ In (k, sl) (batch s c)).
      { intros c sl Hin. destruct (i_batch s I c k sl Hin) as (z & Hz & Hc & _). rewrite E in Hz. inj.
        apply N1. apply in_or_app. right. apply in_map_iff. exists (k, sl). auto. }
      assert (NQ : forall c k', In k' (upd (queue s) (cconn y) q c) -> k' <> k /\ In k' (queue s c)).
      { intros c k' Hin. unfold upd in Hin. destruct (N.eqb_spec c (cconn y)) as [->|Hc].
        - split; [intros ->; apply N1; apply in_or_app; auto|rewrite Q; right; assumption].
        - split; [|assumption]. intros ->. destruct (i_queue s I c k Hin) as (z & Hz & Hc' & _). rewrite E in Hz. inj. congruence. }
      assert (NRet : forall p, match p with Returned => Returned | _ => Collected end <> Returned -> p <> Returned) by (intros []; congruence).
      constructor; cbn; try apply I.
      + intros k' z H HP'. u; inj; cbn in *; [apply (i_live s I k y E); auto|apply (i_live s I k' z H HP')].
      + intros w k' H. destruct (i_cur s I w k' H) as (z & Hz & Hw & HPz). u; [|exists z; auto].
        rewrite E in Hz. inj. eexists. split; [reflexivity|]. cbn. split; [reflexivity|]. destruct (ph z); congruence.
      + intros c k' Hin. destruct (NQ c k' Hin) as [Hne Hin']. destruct (i_queue s I c k' Hin') as (z & Hz & Hr). exists z. rewrite upd_neq by assumption. auto.
      + intros c k' sl Hin. unfold upd at 1 in Hin. destruct (N.eqb_spec c (cconn y)) as [->|Hc].
        * apply in_app_or in Hin. destruct Hin as [Hin|[Hin|[]]].
          -- destruct (i_batch s I _ k' sl Hin) as (z & Hz & Hr). exists z. rewrite upd_neq; [auto|]. intros ->. eapply NB; eassumption.
          -- inversion Hin; subst. rewrite upd_eq. eexists. split; [reflexivity|]. cbn. split; [reflexivity|].
             destruct HP as [HP|(P1 & P2 & P3)]; [left; rewrite HP; auto|right]. unfold lost. cbn. rewrite P1. auto.
        * destruct (i_batch s I _ k' sl Hin) as (z & Hz & Hr). exists z. rewrite upd_neq; [auto|]. intros ->. eapply NB; eassumption.
      + intro c. unfold upd. destruct (N.eqb_spec c (cconn y)) as [->|]; [|apply (i_nodup s I)].
        rewrite map_app. cbn. rewrite app_assoc. apply NoDup_Add with (a := k) (l := q ++ map fst (batch s (cconn y))).
        * pose proof (Add_app k (q ++ map fst (batch s (cconn y))) []) as A. rewrite app_nil_r in A. exact A.
        * split; assumption.
      + intros c k' b Hin. destruct (i_wire s I _ k' b Hin) as (z & Hz & Hc & HQ). u; [|exists z; auto].
        rewrite E in Hz. inj. eexists. split; [reflexivity|]. cbn. split; [reflexivity|].
        destruct HQ as [HQ|(P1 & P2 & P3)]; [auto|right]. unfold lost. cbn. rewrite P1. auto.
      + intros k' z H HG. u; inj; cbn in *; [|apply (i_gave s I k' z H HG)]. destruct (i_gave s I k y E HG) as [G1 G2].
        split; [assumption|]. rewrite G2. reflexivity.
      + intros k' z H HR HG. u; inj; cbn in *; [|apply (i_nil s I k' z H HR HG)]. apply (i_nil s I k y E HR HG).
      + intros k' z H HPP. u; inj; cbn in *; [|eapply (i_res s I); eassumption]. apply (i_res s I k y E).
        destruct HPP as [HPP|[HPP G]]; destruct (ph y); try discriminate; auto.
    - (* BRefuse *) destruct (queue s c) as [|k q] eqn:Q; [discriminate|]. inj.
      destruct (i_queue s I c k) as (y & Hy & Hc & HP); [rewrite Q; left; reflexivity|]. subst c.
      pose proof (i_nodup s I (cconn y)) as ND. rewrite Q in ND. cbn in ND. inversion ND as [|? ? N1 N2]; subst.
      apply resolve_inv; [| | |discriminate].
      + constructor; cbn; try apply I.
        * intros c k' Hin. apply (i_queue s I). u; [rewrite Q; right|]; assumption.
        * intro c. u; [assumption|apply (i_nodup s I)].
      + cbn. intros c Hin. u; [apply N1; apply in_or_app; auto|]. destruct (i_queue s I c k Hin) as (z & Hz & Hc & _). congruence.
      + cbn. intros c sl Hin. destruct (i_batch s I c k sl Hin) as (z & Hz & Hc & _). rewrite Hy in Hz. inj.
        apply N1. apply in_or_app. right. apply in_map_iff. exists (k, sl). auto.
    - (* BWrite *) destruct (batch s c) as [|[k sl] b] eqn:B; [discriminate|]. inj.
      destruct (i_batch s I c k sl) as (y & Hy & Hc & HP); [rewrite B; left; reflexivity|]. subst c.
      pose proof (i_nodup s I (cconn y)) as ND. rewrite B in ND. cbn in ND. apply NoDup_remove in ND. destruct ND as [N2 N1].
      assert (SH : ph y = Collected /\ sl = slice s (cw y) -> show s sl = built y).
      { intros (P & ->). apply (i_live s I k y Hy). congruence. }
      apply resolve_inv.
      + constructor; cbn; try apply I.
        * intros c k' sl' Hin. apply (i_batch s I). u; [rewrite B; right|]; assumption.
        * intro c. u; [assumption|apply (i_nodup s I)].
        * intros c k' b' Hin. unfold upd in Hin. destruct (N.eqb_spec c (cconn y)) as [->|]; [|apply (i_wire s I _ _ _ Hin)].
          apply in_app_or in Hin. destruct Hin as [Hin|[Hin|[]]]; [apply (i_wire s I _ _ _ Hin)|].
          inversion Hin; subst. exists y. split; [assumption|]. split; [reflexivity|]. destruct HP as [HP|HP]; [left; auto|right; assumption].
        * intros k' x H HR HG. unfold upd. pose proof (i_nil s I k' x H HR HG). destruct (N.eqb_spec (cconn x) (cconn y)) as [EC|]; [|assumption].
          rewrite EC in *. apply in_or_app. left. assumption.
      + cbn. intros c Hin. destruct (i_queue s I c k Hin) as (z & Hz & Hc & _). rewrite Hy in Hz. inj. apply N1. apply in_or_app. auto.
      + cbn. intros c sl' Hin. u.
        * apply N1. apply in_or_app. right. apply in_map_iff. exists (k, sl'). auto.
        * destruct (i_batch s I c k sl' Hin) as (z & Hz & Hc & _). congruence.
      + cbn. intros _ x Hx HG. rewrite Hy in Hx. inj. rewrite upd_eq. apply in_or_app. right. left. f_equal.
        destruct HP as [HP|(_ & HP & _)]; [auto|congruence].
    - (* BFail *) destruct (batch s c) as [|e b] eqn:B; [discriminate|]. assert (s' = fold_left (fun s '(k, _) => resolve s k false) (e :: b) (setBatch s c [])) by (inversion H; reflexivity).
      subst s'. clear H. rewrite <- B. apply fold_resolve_inv.
      + constructor; cbn; try apply I.
        * intros c' k sl Hin. apply (i_batch s I). u; [destruct Hin|assumption].
        * intro c'. u; [|apply (i_nodup s I)]. cbn. rewrite app_nil_r. eapply NoDup_app_l. apply (i_nodup s I).
      + intros k sl Hin. destruct (i_batch s I c k sl Hin) as (y & Hy & Hc & _). subst c. cbn. split.
        * intros c Hq. destruct (i_queue s I c k Hq) as (z & Hz & Hc & _). rewrite Hy in Hz. inj.
          pose proof (i_nodup s I (cconn z)) as ND. assert (HM : In k (map fst (batch s (cconn z)))) by (apply in_map_iff; exists (k, sl); auto).
          clear - ND HM Hq. induction (queue s (cconn z)) as [|a q IH]; [destruct Hq|]. cbn in ND. inversion ND; subst.
          destruct Hq as [->|Hq]; [apply H1; apply in_or_app; auto|auto].
        * intros c sl' Hb. u; [destruct Hb|]. destruct (i_batch s I c k sl' Hb) as (z & Hz & Hc & _). congruence.
    - (* BReturn *) destruct (calls s k) as [x|] eqn:E; [|discriminate]. destruct (ph x) eqn:P; try discriminate. inj.
      assert (G : gaveUp x = false).
      { destruct (gaveUp x) eqn:G; [|reflexivity]. destruct (i_gave s I k x E G). congruence. }
      apply finish_inv; try assumption; try congruence; intros; congruence.
    - (* BDone *) inj. constructor; cbn; try apply I.
      intros k x E HG. destruct (i_gave s I k x E HG). split; [|assumption]. u; auto.
  Qed.

  Lemma reach_inv : forall s, reachable (bstep recon) binit s -> inv s.
  Proof. apply reachable_inv; [apply inv_init|apply step_inv]. Qed.
End Inv.
