(** C74: walking over the connections of a server. *)
From Coq Require Import Sorted.
From Verif Require Import Model.GoBase Model.Machine Model.Lifecycle Model.Walk Proofs.LifecycleP.
Open Scope N_scope.

(** *** Lemmas *)

Lemma inb_in : forall c l, inb c l = true <-> In c l.
Proof.
  intros c l. unfold inb. rewrite existsb_exists. split.
  - intros (x & A & B). apply N.eqb_eq in B. subst x. assumption.
  - intro A. exists c. split; [assumption|apply N.eqb_refl].
Qed.

Lemma nodupb_ok : forall l, nodupb l = true -> NoDup l.
Proof.
  induction l as [|c l IH]; intro H; [constructor|]. cbn in H. apply andb_prop in H. destruct H as [A B]. constructor; [|auto].
  intro X. apply inb_in in X. rewrite X in A. discriminate.
Qed.

Lemma trace_snoc : forall S L (step : S -> L -> option S) ls s s1 l s2, run step s ls = Some s1 -> step s1 l = Some s2 ->
  trace step s (ls ++ [l]) = trace step s ls ++ [s2].
Proof.
  induction ls as [|x ls IH]; intros s s1 l s2 R E; cbn [run] in R.
  - inversion R; subst. cbn. rewrite E. reflexivity.
  - cbn [trace app]. destruct (step s x) as [t|]; [|discriminate]. rewrite (IH t s1 l s2 R E). reflexivity.
Qed.

Lemma trace_last : forall S L (step : S -> L -> option S) ls s s1, run step s ls = Some s1 -> In s1 (trace step s ls).
Proof.
  induction ls as [|x ls IH]; intros s s1 R; cbn [run] in R.
  - inversion R; subst. left. reflexivity.
  - cbn [trace]. destruct (step s x) as [t|]; [|discriminate]. right. auto.
Qed.

Lemma trace_ind : forall S L (step : S -> L -> option S) (P : list L -> list S -> S -> Prop) s0,
  P [] [s0] s0 -> (forall ls T s l s', P ls T s -> In s T -> step s l = Some s' -> P (ls ++ [l]) (T ++ [s']) s') ->
  forall ls s, run step s0 ls = Some s -> P ls (trace step s0 ls) s.
Proof.
  intros S L step P s0 H0 HS ls. induction ls as [|l ls IH] using rev_ind; intros s R.
  - inversion R; subst. exact H0.
  - rewrite run_app in R. destruct (run step s0 ls) as [s1|] eqn:E; [|discriminate]. cbn in R. destruct (step s1 l) as [s2|] eqn:E2; [|discriminate].
    inversion R; subst s2. rewrite (trace_snoc _ _ step ls s0 s1 l s E E2).
    apply (HS _ _ s1); [apply IH; reflexivity|apply trace_last; assumption|assumption].
Qed.

(** what lstep does to ids and to activeConn *)
Lemma lstep_mono : forall s l s', lstep s l = Some s' ->
  (forall c i, cid s c = Some i -> cid s' c = Some i) /\ (forall c, act s c = false -> act s' c = false).
Proof.
  intros s l s' H. destruct l; cbn [lstep] in H.
  - destruct (lp s g); try discriminate. destruct (cid s c) eqn:E; inversion H; subst; clear H; [auto|]. split; [|auto].
    intros c' i' X. cbn. unfold upd. destruct (N.eqb_spec c' c); [subst; congruence|assumption].
  - destruct (lp s g); try discriminate. inversion H; subst. auto.
  - destruct (lp s g); try discriminate. destruct (clsd s c); inversion H; subst; auto.
  - unfold gstep in H. destruct (lp s g) as [|c i|c k ct|c k ct|c i k ct|c k ct|c ct|c ct|c ct|c ct|c td ct|c [|f fs] ct|c f]; try discriminate.
    + destruct (id2 s i) as [v|]; [destruct (v =? c)|]; inversion H; subst; auto.
    + destruct (untr s c); inversion H; subst; auto.
    + destruct (cid s c); inversion H; subst; auto.
    + inversion H; subst; auto.
    + inversion H; subst. split; [auto|]. intros c' X. cbn. unfold upd. destruct (c' =? c); [reflexivity|assumption].
    + inversion H; subst; auto.
    + inversion H; subst; auto.
    + destruct (utch s c); inversion H; subst; auto.
    + destruct (clsd s c); inversion H; subst; auto.
    + inversion H; subst; auto.
    + inversion H; subst; auto.
    + inversion H; subst; auto.
    + inversion H; subst; auto.
Qed.

(** connections that goroutines and the id map speak of *)
Definition cok (m : list N) (ct : cont) : Prop := match ct with CRet => True | CBind c _ => In c m end.
Definition lok (m : list N) (p : lpc) : Prop :=
  match p with
  | LIdle => True
  | LBind c _ => In c m
  | LCas c _ ct | LGetID c _ ct | LDelID c _ _ ct | LDelAct c _ ct | LKickCB c ct | LCloseCh c ct | LWaitCh c ct | LLock c ct
  | LCancel c _ ct | LNotify c _ ct => In c m /\ cok m ct
  | LLate c _ => In c m
  end.
Definition K (m : list N) (s : lst) : Prop :=
  (forall g, lok m (lp s g)) /\ (forall i c, id2 s i = Some c -> In c m) /\ (forall c, ~ In c m -> act s c = true).

Lemma lok_cons : forall m c p, lok m p -> lok (c :: m) p.
Proof. intros m c p. destruct p; cbn; try tauto; try (intros [A B]; split; [auto|]; destruct ct; cbn in *; auto). Qed.

Lemma resume_ok : forall m ct, cok m ct -> lok m (resume ct).
Proof. intros m [|c i] H; cbn in *; auto. Qed.

Lemma K_lstep : forall m s l s', K m s -> known m l = true -> lstep s l = Some s' -> K m s'.
Proof.
  intros m s l s' (A & B & C) KN H.
  assert (UP : forall g p, lok m p -> forall x, lok m (upd (lp s) g p x)).
  { intros g p X x. unfold upd. destruct (x =? g); [assumption|apply A]. }
  destruct l; cbn [lstep known] in *.
  - apply inb_in in KN. destruct (lp s g) eqn:L; try discriminate. destruct (cid s c) eqn:E; inversion H; subst; clear H; [repeat split; assumption|].
    split; [|split; assumption]. cbn. apply UP. assumption.
  - apply inb_in in KN. destruct (lp s g) eqn:L; try discriminate. inversion H; subst; clear H. split; [|split; assumption]. cbn. apply UP. cbn. auto.
  - apply inb_in in KN. destruct (lp s g) eqn:L; try discriminate. destruct (clsd s c); inversion H; subst; clear H; (split; [|split; assumption]); cbn.
    + apply UP. assumption.
    + assumption.
  - pose proof (A g) as P. unfold gstep in H. destruct (lp s g) as [|c i|c k ct|c k ct|c i k ct|c k ct|c ct|c ct|c ct|c ct|c td ct|c [|f fs] ct|c f]; try discriminate; cbn in P.
    + destruct (id2 s i) as [v|] eqn:E; [destruct (v =? c)|]; inversion H; subst; clear H.
      * split; [|split; assumption]. apply UP. exact Logic.I.
      * split; [|split; assumption]. cbn. apply UP. cbn. split; [apply (B i); assumption|assumption].
      * split; [cbn; apply UP; exact Logic.I|]. split; [|assumption]. cbn. intros j d. unfold upd. destruct (j =? i); [intro X; inversion X; subst; assumption|apply B].
    + destruct (untr s c); inversion H; subst; clear H; (split; [|split; assumption]); cbn; apply UP; cbn; assumption.
    + destruct (cid s c); inversion H; subst; clear H; (split; [|split; assumption]); cbn; apply UP; cbn; assumption.
    + inversion H; subst; clear H. split; [cbn; apply UP; assumption|]. split; [|assumption]. cbn. intros j d. unfold upd. destruct (j =? i); [discriminate|apply B].
    + inversion H; subst; clear H. split; [cbn; apply UP; destruct k; assumption|]. split; [assumption|]. cbn. intros d X. unfold upd.
      destruct (N.eqb_spec d c); [subst; tauto|apply C; assumption].
    + inversion H; subst; clear H. split; [cbn; apply UP; assumption|]. split; assumption.
    + inversion H; subst; clear H. split; [cbn; apply UP; assumption|]. split; assumption.
    + destruct (utch s c); inversion H; subst; clear H. split; [cbn; apply UP; assumption|]. split; assumption.
    + destruct (clsd s c); inversion H; subst; clear H; (split; [|split; assumption]); cbn; apply UP; [apply resume_ok; tauto|assumption].
    + inversion H; subst; clear H. split; [cbn; apply UP; assumption|]. split; assumption.
    + inversion H; subst; clear H. split; [cbn; apply UP; apply resume_ok; tauto|]. split; assumption.
    + inversion H; subst; clear H. split; [cbn; apply UP; assumption|]. split; assumption.
    + inversion H; subst; clear H. split; [cbn; apply UP; exact Logic.I|]. split; assumption.
Qed.

(** everything wstep does to the connections *)
Lemma wstep_wl : forall s l s', wstep s l = Some s' ->
  (wl s' = wl s /\ made s' = made s) \/
  (exists x, l = WL x /\ known (made s) x = true /\ lstep (wl s) x = Some (wl s') /\ made s' = made s) \/
  (exists c, l = WNew c /\ wl s' = wl s /\ made s' = c :: made s /\ ~ In c (made s)).
Proof.
  intros s l s' H. destruct l as [x|c|w ids|w order|w|w b|w]; cbn [wstep] in H.
  - right. left. exists x. destruct (known (made s) x); [|discriminate]. destruct (lstep (wl s) x); inversion H; subst. auto.
  - right. right. exists c. destruct (inb c (made s)) eqn:E; inversion H; subst. repeat split. intro X. apply inb_in in X. congruence.
  - left. destruct (wk s w); inversion H; subst; auto.
  - left. destruct (wk s w); try discriminate. match goal with H : (if ?b then _ else _) = _ |- _ => destruct b; inversion H; subst; auto end.
  - left. destruct (wk s w) as [|ids pos|[|c td] gone|]; try discriminate; [|inversion H; subst; auto].
    destruct (nth_error ids pos) as [i|]; [|inversion H; subst; auto]. destruct (id2 (wl s) i); inversion H; subst; auto.
  - left. destruct (wk s w) as [|ids pos|[|c td] gone|]; try discriminate. destruct (inb c (made s) && negb (gone c)); inversion H; subst; auto.
  - left. destruct (wk s w) as [|ids pos|[|c td] gone|]; try discriminate. destruct (inb c (made s) && act (wl s) c); inversion H; subst; auto.
Qed.

(** everything wstep does to walk w *)
Lemma wstep_wk : forall s l s' w, wstep s l = Some s' ->
  (wk s' w = wk s w /\ ilog s' w = ilog s w /\ clog s' w = clog s w /\ l <> WStep w /\ l <> WSkip w /\ (forall b, l <> WVisit w b)) \/
  (exists ids, l = WWalkIDs w ids) \/ (exists o, l = WWalk w o) \/ l = WStep w \/ l = WSkip w \/ (exists b, l = WVisit w b).
Proof.
  intros s l s' w H. destruct l as [x|c|v ids|v order|v|v b|v].
  - left. cbn [wstep] in H. destruct (known (made s) x); [|discriminate]. destruct (lstep (wl s) x); inversion H; subst. repeat split; discriminate.
  - left. cbn [wstep] in H. destruct (inb c (made s)); inversion H; subst. repeat split; discriminate.
  - destruct (N.eq_dec v w); [subst; right; left; eauto|]. left. cbn [wstep] in H. destruct (wk s v); inversion H; subst. cbn. rewrite upd_neq by congruence. repeat split; discriminate.
  - destruct (N.eq_dec v w); [subst; right; right; left; eauto|]. left. cbn [wstep] in H. destruct (wk s v); try discriminate.
    match goal with H : (if ?b then _ else _) = _ |- _ => destruct b; inversion H; subst end. cbn. rewrite upd_neq by congruence. repeat split; discriminate.
  - destruct (N.eq_dec v w); [subst; auto|]. left. cbn [wstep] in H. destruct (wk s v) as [|ids pos|[|c td] gone|]; try discriminate.
    + destruct (nth_error ids pos) as [i|].
      * destruct (id2 (wl s) i); inversion H; subst; cbn; rewrite !upd_neq by congruence; (repeat split; try discriminate; congruence).
      * inversion H; subst; cbn; rewrite !upd_neq by congruence; (repeat split; try discriminate; congruence).
    + inversion H; subst; cbn; rewrite !upd_neq by congruence; (repeat split; try discriminate; congruence).
  - destruct (N.eq_dec v w); [subst; right; right; right; right; right; eauto|]. left. cbn [wstep] in H. destruct (wk s v) as [|ids pos|[|c td] gone|]; try discriminate.
    destruct (inb c (made s) && negb (gone c)); inversion H; subst; cbn; rewrite !upd_neq by congruence; (repeat split; try discriminate; congruence).
  - destruct (N.eq_dec v w); [subst; auto 6|]. left. cbn [wstep] in H. destruct (wk s v) as [|ids pos|[|c td] gone|]; try discriminate.
    destruct (inb c (made s) && act (wl s) c); inversion H; subst; cbn; rewrite !upd_neq by congruence; (repeat split; try discriminate; congruence).
Qed.

(** the connections of a reachable state *)
Lemma w_reach : forall s, reachable wstep winit s -> reachable lstep linit (wl s) /\ K (made s) (wl s).
Proof.
  apply reachable_inv.
  - split; [exists []; reflexivity|]. split; [intro; exact Logic.I|]. split; [discriminate|reflexivity].
  - intros s l s' [R KK] H. destruct (wstep_wl s l s' H) as [[A B]|[(x & _ & A & B & C)|(c & _ & A & B & C)]].
    + rewrite A, B. auto.
    + rewrite C. split; [eapply reachable_step; eassumption|eapply K_lstep; eassumption].
    + rewrite A, B. split; [assumption|]. destruct KK as (K1 & K2 & K3). split; [intro g; apply lok_cons; apply K1|].
      split; [intros i d E; right; apply (K2 i); assumption|intros d X; apply K3; intro Y; apply X; right; assumption].
Qed.

Lemma no_log : forall s, reachable wstep winit s -> forall w, wk s w = WNo -> ilog s w = [] /\ clog s w = [].
Proof.
  apply (reachable_inv wstep (fun s => forall w, wk s w = WNo -> ilog s w = [] /\ clog s w = [])); [auto|].
  intros s l s' IH H w E. destruct (wstep_wk s l s' w H) as [(A & B & C & _)|[(ids & ->)|[(o & ->)|[->|[->|(b & ->)]]]]].
  - rewrite A in E. rewrite B, C. auto.
  - cbn [wstep] in H. destruct (wk s w); inversion H; subst. cbn in E. rewrite upd_eq in E. discriminate.
  - cbn [wstep] in H. destruct (wk s w); try discriminate. match goal with H : (if ?b then _ else _) = _ |- _ => destruct b; inversion H; subst end.
    cbn in E. rewrite upd_eq in E. discriminate.
  - cbn [wstep] in H. destruct (wk s w) as [|ids pos|[|c td] gone|]; try discriminate.
    + destruct (nth_error ids pos) as [i|]; [destruct (id2 (wl s) i)|]; inversion H; subst; cbn in E; rewrite upd_eq in E; discriminate.
    + inversion H; subst; cbn in E; rewrite upd_eq in E; discriminate.
  - cbn [wstep] in H. destruct (wk s w) as [|ids pos|[|c td] gone|]; try discriminate.
    destruct (inb c (made s) && act (wl s) c); inversion H; subst; cbn in E; rewrite upd_eq in E; discriminate.
  - cbn [wstep] in H. destruct (wk s w) as [|ids pos|[|c td] gone|]; try discriminate.
    destruct (inb c (made s) && negb (gone c)); inversion H; subst; cbn in E; rewrite upd_eq in E; destruct b; discriminate.
Qed.

Lemma cid_stays : forall s l s' c i, wstep s l = Some s' -> cid (wl s) c = Some i -> cid (wl s') c = Some i.
Proof.
  intros s l s' c i H E. destruct (wstep_wl s l s' H) as [[A B]|[(x & _ & A & B & C)|(d & _ & A & B & C)]].
  - rewrite A. assumption.
  - destruct (lstep_mono _ _ _ B) as [M _]. auto.
  - rewrite A. assumption.
Qed.

Lemma act_stays : forall s l s' c, wstep s l = Some s' -> In c (made s) -> In c (made s') /\ (act (wl s) c = false -> act (wl s') c = false).
Proof.
  intros s l s' c H E. destruct (wstep_wl s l s' H) as [[A B]|[(x & _ & A & B & C)|(d & _ & A & B & C)]].
  - rewrite A, B. auto.
  - rewrite C. destruct (lstep_mono _ _ _ B) as [_ M]. auto.
  - rewrite A, B. split; [right; assumption|auto].
Qed.

Lemma sorted_snoc : forall l p, StronglySorted lt l -> (forall x, In x l -> (x < p)%nat) -> StronglySorted lt (l ++ [p]).
Proof.
  induction l as [|a l IH]; intros p S H; cbn.
  - constructor; constructor.
  - inversion S; subst. constructor; [apply IH; [assumption|intros x X; apply H; right; assumption]|].
    apply Forall_app. split; [assumption|]. constructor; [apply H; left; reflexivity|constructor].
Qed.

(** how often walk w took a step in a schedule *)
Definition mine (w : N) (l : wlabel) : bool :=
  match l with WStep v => v =? w | WVisit v _ => v =? w | WSkip v => v =? w | _ => false end.
Definition turns (w : N) (ls : list wlabel) : nat := length (filter (mine w) ls).

Lemma turns_snoc : forall w ls l, turns w (ls ++ [l]) = (turns w ls + if mine w l then 1 else 0)%nat.
Proof. intros. unfold turns. rewrite filter_app, app_length. cbn. destruct (mine w l); reflexivity. Qed.

(** *** WalkConnByID *)

(** what holds while WalkConnByID(ids) of w goes on; T: the states since it began *)
Definition byid (w : N) (ids : list N) (ls : list wlabel) (T : list wst) (s : wst) : Prop :=
  reachable wstep winit s /\
  exists pos, (pos <= length ids)%nat /\
    ((wk s w = WIds ids pos /\ turns w ls = pos) \/ (wk s w = WEnd /\ pos = length ids /\ turns w ls = S pos)) /\
    StronglySorted lt (map snd (ilog s w)) /\
    (forall c p, In (c, p) (ilog s w) -> (p < pos)%nat /\ exists i t, nth_error ids p = Some i /\ In t T /\ id2 (wl t) i = Some c /\ cid (wl s) c = Some i) /\
    (forall p i c, (p < pos)%nat -> nth_error ids p = Some i -> (forall t, In t T -> id2 (wl t) i = Some c) -> In (c, p) (ilog s w)) /\
    clog s w = [].

Lemma byid_keep : forall w ids T s' s,
  ilog s' w = ilog s w -> (forall c i, cid (wl s) c = Some i -> cid (wl s') c = Some i) ->
  forall pos,
  (forall c p, In (c, p) (ilog s w) -> (p < pos)%nat /\ exists i t, nth_error ids p = Some i /\ In t T /\ id2 (wl t) i = Some c /\ cid (wl s) c = Some i) ->
  (forall c p, In (c, p) (ilog s' w) -> (p < pos)%nat /\ exists i t, nth_error ids p = Some i /\ In t (T ++ [s']) /\ id2 (wl t) i = Some c /\ cid (wl s') c = Some i).
Proof.
  intros w ids T s' s E M pos H c p X. rewrite E in X. destruct (H c p X) as (A & i & t & B & C & D & F). split; [assumption|].
  exists i, t. repeat split; auto. apply in_or_app. auto.
Qed.

Lemma byid_step : forall w ids ls T s l s', byid w ids ls T s -> In s T -> wstep s l = Some s' -> byid w ids (ls ++ [l]) (T ++ [s']) s'.
Proof.
  intros w ids ls T s l s' (R & pos & PL & PK & SS & LG & CP & CE) HIT H.
  split; [eapply reachable_step; eassumption|].
  pose proof (fun c i => cid_stays s l s' c i H) as CS.
  assert (CP' : forall p i c, (p < pos)%nat -> nth_error ids p = Some i -> (forall t, In t (T ++ [s']) -> id2 (wl t) i = Some c) -> In (c, p) (ilog s w)).
  { intros p i c A B C. apply (CP p i c A B). intros t X. apply C. apply in_or_app. auto. }
  assert (FI : forall i c, id2 (wl s) i = Some c -> cid (wl s) c = Some i).
  { intros i c E. destruct (w_reach s R) as [RL _]. apply (i_id _ (lreach _ RL) i c E). }
  destruct (wstep_wk s l s' w H) as [(A & B & C & N1 & N2 & N3)|D].
  - exists pos. rewrite A, B, C. split; [assumption|]. split.
    { rewrite turns_snoc. replace (mine w l) with false; [rewrite Nat.add_0_r; assumption|]. symmetry. destruct l; cbn; try reflexivity; apply N.eqb_neq; intros ->; [apply N1|apply (N3 b)|apply N2]; reflexivity. }
    split; [assumption|]. split; [|split; assumption]. rewrite <- B. apply byid_keep with (s := s); assumption.
  - destruct PK as [[EW TU]|(EW & EL & TU)].
    2:{ exfalso. destruct D as [(x & ->)|[(o & ->)|[->|[->|(b & ->)]]]]; cbn [wstep] in H; rewrite EW in H; discriminate. }
    destruct D as [(x & ->)|[(o & ->)|[->|[->|(b & ->)]]]]; cbn [wstep] in H; rewrite EW in H; try discriminate.
    rewrite turns_snoc. cbn [mine]. rewrite N.eqb_refl.
    destruct (nth_error ids pos) as [i|] eqn:EN.
    + assert (PL' : (S pos <= length ids)%nat) by (apply (proj1 (nth_error_Some ids pos)); congruence).
      exists (S pos). split; [assumption|]. destruct (id2 (wl s) i) as [c|] eqn:EI; inversion H; subst s'; clear H; cbn [wl wk ilog clog setw] in *.
      * rewrite !upd_eq. split; [left; split; [reflexivity|lia]|]. split; [|split; [|split; [|assumption]]].
        -- rewrite map_app. cbn. apply sorted_snoc; [assumption|]. intros x X. apply in_map_iff in X. destruct X as ((d & q) & <- & X). apply (LG d q X).
        -- intros d q X. apply in_app_or in X. destruct X as [X|[X|[]]].
           ++ destruct (LG d q X) as (A & j & t & B & C & D & F). split; [lia|]. exists j, t. repeat split; auto. apply in_or_app; auto.
           ++ inversion X; subst. split; [lia|]. exists i, s. repeat split; auto. apply in_or_app; auto.
        -- intros q j d A B C. apply in_or_app. destruct (Nat.eq_dec q pos) as [->|NE].
           ++ right. left. rewrite EN in B. inversion B; subst. assert (X : id2 (wl s) j = Some d) by (apply C; apply in_or_app; auto). congruence.
           ++ left. apply (CP' q j d); [lia|assumption|assumption].
      * rewrite !upd_eq. split; [left; split; [reflexivity|lia]|]. split; [assumption|]. split; [|split; [|assumption]].
        -- intros d q X. destruct (LG d q X) as (A & j & t & B & C & D & F). split; [lia|]. exists j, t. repeat split; auto. apply in_or_app; auto.
        -- intros q j d A B C. destruct (Nat.eq_dec q pos) as [->|NE].
           ++ rewrite EN in B. inversion B; subst. assert (X : id2 (wl s) j = Some d) by (apply C; apply in_or_app; auto). congruence.
           ++ apply (CP' q j d); [lia|assumption|assumption].
    + apply nth_error_None in EN. exists pos. inversion H; subst s'; clear H; cbn [wl wk ilog clog setw] in *. rewrite !upd_eq.
      split; [assumption|]. split; [right; repeat split; lia|]. split; [assumption|]. split; [|split; assumption].
      intros d q X. destruct (LG d q X) as (A & j & t & B & C & D & F). split; [lia|]. exists j, t. repeat split; auto. apply in_or_app; auto.
Qed.

Lemma byid_run : forall w ids s0 s1 ls s2, reachable wstep winit s0 -> wstep s0 (WWalkIDs w ids) = Some s1 -> run wstep s1 ls = Some s2 ->
  byid w ids ls (trace wstep s1 ls) s2.
Proof.
  intros w ids s0 s1 ls s2 R E. revert ls s2. apply trace_ind; [|intros; eapply byid_step; eassumption].
  split; [eapply reachable_step; eassumption|]. exists 0%nat. cbn [wstep] in E. destruct (wk s0 w) eqn:EW; inversion E; subst s1; clear E.
  destruct (no_log s0 R w EW) as [A B]. cbn [wk ilog clog setw]. rewrite upd_eq, A, B. split; [lia|]. split; [left; split; reflexivity|].
  split; [constructor|]. split; [intros c p []|]. split; [intros; lia|reflexivity].
Qed.

(** The calls of f that WalkConnByID(ids, f) makes, whatever happens to connections and ids meanwhile: one per
    position at most, in order; the connection given was found under the id at that position at some moment of the
    walk, and GetID on it gives that id; and when the walk has returned, every position whose id designated one
    connection during the whole walk got its call, with that connection. *)
Theorem C74_by_id :
  forall w ids s0 s1 ls s2, reachable wstep winit s0 -> wstep s0 (WWalkIDs w ids) = Some s1 -> run wstep s1 ls = Some s2 ->
  let during t := In t (trace wstep s1 ls) in
  StronglySorted lt (map snd (ilog s2 w)) /\
  (forall c p, In (c, p) (ilog s2 w) -> exists i t, nth_error ids p = Some i /\ during t /\ GetConnectionInfoByID t i = Some c /\ cid (wl s2) c = Some i) /\
  (wk s2 w = WEnd -> forall p i c, nth_error ids p = Some i -> (forall t, during t -> GetConnectionInfoByID t i = Some c) -> In (c, p) (ilog s2 w)).
Proof.
  intros w ids s0 s1 ls s2 R E H during. destruct (byid_run w ids s0 s1 ls s2 R E H) as (_ & pos & PL & PK & SS & LG & CP & _).
  split; [assumption|]. split.
  - intros c p X. apply (LG c p X).
  - intros EW p i c EN HC. apply (CP p i c); [|assumption|assumption]. destruct PK as [[PK _]|(_ & -> & _)]; [congruence|].
    apply (proj1 (nth_error_Some ids p)). congruence.
Qed.
Print Assumptions C74_by_id.

(** It looks each position up once and returns: until it has, its next turn is possible, and there are exactly
    len(ids) turns and the return. *)
Theorem C74_by_id_ends :
  forall w ids s0 s1 ls s2, reachable wstep winit s0 -> wstep s0 (WWalkIDs w ids) = Some s1 -> run wstep s1 ls = Some s2 ->
  (wk s2 w <> WEnd -> wstep s2 (WStep w) <> None) /\ (turns w ls <= S (length ids))%nat /\ (wk s2 w = WEnd <-> turns w ls = S (length ids)).
Proof.
  intros w ids s0 s1 ls s2 R E H. destruct (byid_run w ids s0 s1 ls s2 R E H) as (_ & pos & PL & PK & _).
  destruct PK as [[EW TU]|(EW & EL & TU)].
  - split; [intros _; cbn [wstep]; rewrite EW; destruct (nth_error ids pos) as [i|]; [destruct (id2 (wl s2) i)|]; discriminate|].
    split; [lia|]. rewrite EW. split; [discriminate|lia].
  - split; [congruence|]. split; [lia|]. split; [lia|auto].
Qed.
Print Assumptions C74_by_id_ends.

(** GetConnectionInfoByID: what it returns has that id, then and ever after. *)
Theorem C74_info :
  forall s i c ls s', reachable wstep winit s -> GetConnectionInfoByID s i = Some c -> run wstep s ls = Some s' ->
  In c (made s) /\ cid (wl s) c = Some i /\ cid (wl s') c = Some i.
Proof.
  intros s i c ls s' R E H. destruct (w_reach s R) as [RL (_ & K2 & _)].
  assert (X : cid (wl s) c = Some i) by (apply (i_id _ (lreach _ RL) i c E)). split; [apply (K2 i); assumption|]. split; [assumption|].
  apply (run_inv wstep (fun t => cid (wl t) c = Some i)) with (ls := ls) (s := s); [|assumption|assumption].
  intros t l t' Y Z. eapply cid_stays; eassumption.
Qed.
Print Assumptions C74_info.

(** *** WalkConn *)

(** what holds while WalkConn of w goes on *)
Definition byconn (w : N) (order : list N) (ls : list wlabel) (T : list wst) (s : wst) : Prop :=
  reachable wstep winit s /\
  exists done todo gone, order = done ++ todo /\ NoDup order /\
    ((wk s w = WConns todo gone /\ turns w ls = length done) \/ (wk s w = WEnd /\ (turns w ls <= S (length done))%nat)) /\
    (wk s w = WEnd -> todo = [] \/ exists c, In (c, false) (clog s w)) /\
    (turns w ls <= S (length order))%nat /\
    NoDup (map fst (clog s w)) /\ incl (map fst (clog s w)) done /\
    (forall c b, In (c, b) (clog s w) -> exists t, In t T /\ In c (made t) /\ act (wl t) c = true) /\
    (forall c, In c done -> (forall t, In t T -> In c (made t) /\ act (wl t) c = true) -> exists b, In (c, b) (clog s w)) /\
    (forall c, (forall t, In t T -> In c (made t) /\ act (wl t) c = true) -> In c order) /\
    (forall pre c post, clog s w = pre ++ (c, false) :: post -> post = [] /\ wk s w = WEnd) /\
    (forall c, In c (made s) -> gone c = false -> exists t, In t T /\ In c (made t) /\ act (wl t) c = true) /\
    (forall c, gone c = true -> In c (made s) /\ act (wl s) c = false).

Lemma split_snoc : forall A (l pre post : list A) x y, l ++ [x] = pre ++ y :: post ->
  (post = [] /\ pre = l /\ x = y) \/ exists post', post = post' ++ [x] /\ l = pre ++ y :: post'.
Proof.
  intros A l pre post x y E. destruct post as [|z post] using rev_ind.
  - left. apply app_inj_tail in E. destruct E; subst. auto.
  - right. exists post. rewrite app_comm_cons, app_assoc in E. apply app_inj_tail in E. destruct E; subst. auto.
Qed.

Lemma byconn_step : forall w order ls T s l s', byconn w order ls T s -> In s T -> wstep s l = Some s' -> byconn w order (ls ++ [l]) (T ++ [s']) s'.
Proof.
  intros w order ls T s l s' (R & dn & todo & gone & EO & NDO & PK & WE & TL & ND & IN & LG & CP & OR & FL & GN & GT) HIT H.
  split; [eapply reachable_step; eassumption|].
  assert (RT : forall c, (forall t, In t (T ++ [s']) -> In c (made t) /\ act (wl t) c = true) -> forall t, In t T -> In c (made t) /\ act (wl t) c = true).
  { intros c X t Y. apply X. apply in_or_app. auto. }
  assert (EX : forall c, (exists t, In t T /\ In c (made t) /\ act (wl t) c = true) -> exists t, In t (T ++ [s']) /\ In c (made t) /\ act (wl t) c = true).
  { intros c (t & A & B & C). exists t. split; [apply in_or_app; auto|auto]. }
  assert (GN' : forall c, In c (made s') -> gone c = false -> exists t, In t (T ++ [s']) /\ In c (made t) /\ act (wl t) c = true).
  { intros c A B. destruct (wstep_wl s l s' H) as [[C D]|[(x & _ & C & D & F)|(d & _ & C & D & F)]].
    - rewrite D in A. auto.
    - rewrite F in A. auto.
    - rewrite D in A. destruct A as [<-|A]; [|auto]. exists s'. split; [apply in_or_app; right; left; reflexivity|]. split; [rewrite D; left; reflexivity|].
      rewrite C. destruct (w_reach s R) as [_ (_ & _ & K3)]. apply K3. assumption. }
  assert (GT' : forall c, gone c = true -> In c (made s') /\ act (wl s') c = false).
  { intros c A. destruct (GT c A) as [B C]. destruct (act_stays s l s' c H B) as [D F]. auto. }
  destruct (wstep_wk s l s' w H) as [(A & B & C & N1 & N2 & N3)|D].
  - exists dn, todo, gone. rewrite A, C, turns_snoc.
    assert (M : mine w l = false). { destruct l; cbn; try reflexivity; apply N.eqb_neq; intros ->; [apply N1|apply (N3 b)|apply N2]; reflexivity. }
    rewrite M, Nat.add_0_r. repeat (split; [solve [assumption | intros; eauto]|]). assumption.
  - destruct PK as [[EW TU]|(EW & TU)].
    2:{ exfalso. destruct D as [(x & ->)|[(o & ->)|[->|[->|(b & ->)]]]]; cbn [wstep] in H; rewrite EW in H; discriminate. }
    assert (LO : (length order = length dn + length todo)%nat) by (rewrite EO, app_length; reflexivity).
    assert (NF : forall c, ~ In (c, false) (clog s w)).
    { intros c X. apply in_split in X. destruct X as (pre & post & X). destruct (FL pre c post X). congruence. }
    destruct D as [(x & ->)|[(o & ->)|[->|[->|(b & ->)]]]]; cbn [wstep] in H; rewrite EW in H; try discriminate; destruct todo as [|c todo]; try discriminate;
      rewrite turns_snoc; cbn [mine]; rewrite N.eqb_refl; cbn [length] in LO.
    + inversion H; subst s'; clear H. exists dn, [], gone. cbn [wk clog setw wl made] in *. rewrite upd_eq.
      split; [assumption|]. split; [assumption|]. split; [right; split; [reflexivity|lia]|]. split; [intros _; left; reflexivity|]. split; [lia|].
      split; [assumption|]. split; [assumption|]. split; [intros; eauto|]. split; [intros; eauto|]. split; [intros; eauto|].
      split; [|split; assumption]. intros pre c post X. split; [apply (FL pre c post X)|reflexivity].
    + destruct (inb c (made s) && act (wl s) c) eqn:EA; inversion H; subst s'; clear H. exists (dn ++ [c]), todo, gone. cbn [wk clog setw wl made] in *. rewrite upd_eq, app_length. cbn [length].
      split; [rewrite <- app_assoc; assumption|]. split; [assumption|]. split; [left; split; [reflexivity|lia]|]. split; [discriminate|]. split; [lia|].
      split; [assumption|]. split; [apply incl_appl; assumption|]. split; [intros; eauto|].
      split.
      { intros d X Y. apply in_app_or in X. destruct X as [X|[<-|[]]]; [apply CP; [assumption|apply RT; assumption]|]. exfalso.
        destruct (RT c Y s HIT) as [Z1 Z2]. apply inb_in in Z1. rewrite Z1, Z2 in EA. discriminate. }
      split; [intros; eauto|]. split; [|split; assumption].
      intros pre d post X. exfalso. apply (NF d). rewrite X. apply in_or_app. right. left. reflexivity.
    + destruct (inb c (made s) && negb (gone c)) eqn:EA; inversion H; subst s'; clear H. apply andb_prop in EA. destruct EA as [EM EG]. apply inb_in in EM.
      exists (dn ++ [c]), todo, gone. cbn [wk clog setw wl made] in *. rewrite !upd_eq, app_length. cbn [length].
      assert (NIN : ~ In c dn). { rewrite EO in NDO. apply NoDup_remove_2 in NDO. intro X. apply NDO. apply in_or_app. auto. }
      split; [rewrite <- app_assoc; assumption|]. split; [assumption|]. split; [destruct b; [left|right]; (split; [reflexivity|lia])|].
      split; [destruct b; [discriminate|]; intros _; right; exists c; apply in_or_app; right; left; reflexivity|]. split; [lia|].
      split.
      { rewrite map_app. cbn [map fst]. apply NoDup_rev in ND. rewrite <- (rev_involutive (map fst (clog s w) ++ [c])). apply NoDup_rev. rewrite rev_app_distr. cbn.
        constructor; [|assumption]. rewrite <- in_rev. intro X. apply NIN. apply IN. assumption. }
      split; [rewrite map_app; cbn [map fst]; intros x X; apply in_app_or in X; apply in_or_app; destruct X; [left; apply IN; assumption|right; assumption]|].
      split.
      { intros d b' X. apply in_app_or in X. destruct X as [X|[X|[]]]; [eauto|]. inversion X; subst d b'. apply EX. apply GN; [assumption|]. destruct (gone c); [discriminate|reflexivity]. }
      split.
      { intros d X Y. apply in_app_or in X. destruct X as [X|[<-|[]]]; [destruct (CP d X (RT d Y)) as (b' & Z); exists b'; apply in_or_app; auto|].
        exists b. apply in_or_app. right. left. reflexivity. }
      split; [intros; eauto|]. split; [|split; assumption].
      intros pre d post X. apply split_snoc in X. destruct X as [(X & _ & Y)|(post' & _ & X)].
      * inversion Y; subst. auto.
      * exfalso. apply (NF d). rewrite X. apply in_or_app. right. left. reflexivity.
Qed.

Lemma byconn_run : forall w order s0 s1 ls s2, reachable wstep winit s0 -> wstep s0 (WWalk w order) = Some s1 -> run wstep s1 ls = Some s2 ->
  byconn w order ls (trace wstep s1 ls) s2.
Proof.
  intros w order s0 s1 ls s2 R E. revert ls s2. apply trace_ind; [|intros; eapply byconn_step; eassumption].
  split; [eapply reachable_step; eassumption|]. cbn [wstep] in E. destruct (wk s0 w) eqn:EW; try discriminate.
  destruct (nodupb order && forallb (fun c => negb (act (wl s0) c) || inb c order) (made s0)) eqn:EB; [|discriminate]. apply andb_prop in EB. destruct EB as [EN EF].
  apply nodupb_ok in EN. rewrite forallb_forall in EF. inversion E; subst s1; clear E.
  destruct (no_log s0 R w EW) as [_ B]. eexists [], order, _. cbn [wk clog setw wl made]. rewrite upd_eq, B. split; [reflexivity|]. split; [assumption|]. split; [left; split; reflexivity|].
  split; [discriminate|]. split; [cbn; lia|]. split; [constructor|]. split; [intros x []|]. split; [intros c b []|]. split; [intros c []|].
  split.
  { intros c X. destruct (X _ (or_introl eq_refl)) as [Y Z]. cbn in Y, Z. specialize (EF c Y). rewrite Z in EF. cbn in EF. apply inb_in. assumption. }
  split; [intros [|? ?] c post X; discriminate X|]. split.
  - intros c X Y. eexists. split; [left; reflexivity|]. split; [assumption|]. apply inb_in in X. rewrite X in Y. cbn in Y. change (act (wl s0) c = true). destruct (act (wl s0) c); [reflexivity|discriminate].
  - intros c X. apply andb_prop in X. destruct X as [X Y]. apply inb_in in X. split; [assumption|]. destruct (act (wl s0) c); [discriminate|reflexivity].
Qed.

(** The calls of f that WalkConn(f) makes, whatever happens to the connections meanwhile: at most one for each
    connection; only for connections the server had at some moment of the walk; none after f returned false; and
    when it has returned and f never returned false, every connection the server had during the whole walk got
    its call. *)
Theorem C74_all :
  forall w order s0 s1 ls s2, reachable wstep winit s0 -> wstep s0 (WWalk w order) = Some s1 -> run wstep s1 ls = Some s2 ->
  let during t := In t (trace wstep s1 ls) in
  let has t c := In c (made t) /\ act (wl t) c = true in
  NoDup (map fst (clog s2 w)) /\
  (forall c b, In (c, b) (clog s2 w) -> exists t, during t /\ has t c) /\
  (forall pre c post, clog s2 w = pre ++ (c, false) :: post -> post = [] /\ wk s2 w = WEnd) /\
  (wk s2 w = WEnd -> (forall c, ~ In (c, false) (clog s2 w)) -> forall c, (forall t, during t -> has t c) -> In (c, true) (clog s2 w)).
Proof.
  intros w order s0 s1 ls s2 R E H during has.
  destruct (byconn_run w order s0 s1 ls s2 R E H) as (_ & dn & todo & gone & EO & NDO & PK & WE & TL & ND & IN & LG & CP & OR & FL & GN & GT).
  split; [assumption|]. split; [intros c b X; apply (LG c b X)|]. split; [assumption|].
  intros EW NF c HC. destruct (WE EW) as [->|(d & X)]; [|exfalso; apply (NF d X)]. rewrite app_nil_r in EO. subst dn.
  destruct (CP c (OR c HC) HC) as ([|] & X); [assumption|exfalso; apply (NF c X)].
Qed.
Print Assumptions C74_all.

(** It never waits and it returns: until it has, it can take a turn, and it takes at most one for each key Range
    turns to, and one to return. *)
Theorem C74_all_ends :
  forall w order s0 s1 ls s2, reachable wstep winit s0 -> wstep s0 (WWalk w order) = Some s1 -> run wstep s1 ls = Some s2 ->
  (turns w ls <= S (length order))%nat /\
  (wk s2 w <> WEnd -> wstep s2 (WStep w) <> None \/ wstep s2 (WSkip w) <> None \/ forall b, wstep s2 (WVisit w b) <> None).
Proof.
  intros w order s0 s1 ls s2 R E H.
  destruct (byconn_run w order s0 s1 ls s2 R E H) as (_ & dn & todo & gone & EO & NDO & PK & WE & TL & _ & _ & _ & _ & _ & _ & _ & GT).
  split; [assumption|]. intro NE. destruct PK as [[EW TU]|[EW TU]]; [|contradiction]. cbn [wstep]. rewrite EW. destruct todo as [|c todo]; [left; discriminate|]. right.
  destruct (inb c (made s2) && act (wl s2) c) eqn:EA; [|left; discriminate]. right. intro b. apply andb_prop in EA. destruct EA as [A B]. rewrite A.
  destruct (gone c) eqn:G; [|discriminate]. destruct (GT c G). congruence.
Qed.
Print Assumptions C74_all_ends.

(** A connection f is given may have been closed already when the walk began (SetID racing with Close, see C32). *)
Theorem C74_given_closed :
  exists s w, reachable wstep winit s /\ ilog s w = [(1, 0%nat)] /\ clsd (wl s) 1 = true /\ wk s w = WEnd /\
  exists s0, reachable wstep winit s0 /\ wk s0 w = WNo /\ clsd (wl s0) 1 = true.
Proof.
  pose (pre := WNew 1 :: map WL [LSetID 1 1 5; LClose 2 1; LG 2; LG 2; LG 2; LG 2; LG 2; LG 2; LG 2; LG 2; LG 1]).
  destruct (run wstep winit (pre ++ [WWalkIDs 7 [5]; WStep 7; WStep 7])) as [s|] eqn:E; [|exfalso; vm_compute in E; discriminate].
  destruct (run wstep winit pre) as [s0|] eqn:E0; [|exfalso; vm_compute in E0; discriminate].
  exists s, 7. split; [eexists; exact E|].
  assert (A : match run wstep winit (pre ++ [WWalkIDs 7 [5]; WStep 7; WStep 7]) with Some s => ilog s 7 = [(1, 0%nat)] /\ clsd (wl s) 1 = true /\ wk s 7 = WEnd | None => False end) by (vm_compute; auto).
  rewrite E in A. destruct A as (A & B & C). split; [assumption|]. split; [assumption|]. split; [assumption|].
  exists s0. split; [eexists; exact E0|].
  assert (D : match run wstep winit pre with Some s => wk s 7 = WNo /\ clsd (wl s) 1 = true | None => False end) by (vm_compute; auto).
  rewrite E0 in D. exact D.
Qed.
Print Assumptions C74_given_closed.

(** Ids 5 and 6 are bound; while WalkConnByID [5; 9; 6; 6] goes on connection 1 (id 5) is closed, connection 3
    takes id 6 from connection 2: f is called with 1 at 0, with 2 at 2 and with 3 at 3. *)
Example C74_by_id_case :
  match run wstep winit ([WNew 1; WNew 2; WNew 3; WL (LSetID 1 1 5); WL (LG 1); WL (LSetID 2 2 6); WL (LG 2)]) with
  | Some s0 =>
    match wstep s0 (WWalkIDs 7 [5; 9; 6; 6]) with
    | Some s1 =>
      match run wstep s1 ([WStep 7; WL (LClose 1 1)] ++ repeat (WL (LG 1)) 8 ++ [WStep 7; WStep 7; WL (LSetID 3 3 6)] ++ repeat (WL (LG 3)) 11 ++ [WStep 7; WStep 7]) with
      | Some s2 => ilog s2 7 = [(1, 0%nat); (2, 2%nat); (3, 3%nat)] /\ wk s2 7 = WEnd /\ clsd (wl s2) 1 = true /\ clsd (wl s2) 2 = true
      | None => False
      end
    | None => False
    end
  | None => False
  end.
Proof. vm_compute. repeat split. Qed.

(** Three connections; connection 2 is closed before its turn, connection 4 comes in during the walk. *)
Example C74_all_case :
  match run wstep winit [WNew 1; WNew 2; WNew 3] with
  | Some s0 =>
    match wstep s0 (WWalk 7 [3; 2; 1; 4]) with
    | Some s1 =>
      match run wstep s1 ([WVisit 7 true; WL (LClose 1 2)] ++ repeat (WL (LG 1)) 7 ++ [WSkip 7; WNew 4; WVisit 7 true; WVisit 7 true; WStep 7]) with
      | Some s2 => clog s2 7 = [(3, true); (1, true); (4, true)] /\ wk s2 7 = WEnd
      | None => False
      end
    | None => False
    end
  | None => False
  end.
Proof. vm_compute. repeat split. Qed.
