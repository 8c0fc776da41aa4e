(** Invariants of the connection life-cycle machine (Model/Lifecycle.v). *)
From Coq Require Import ZifyBool ZifyNat ZifyN.
From Verif Require Import Model.GoBase Model.Machine Model.Lifecycle.
Open Scope N_scope.

(** *** Sums over the goroutines *)

Definition gsum (G : list N) (h : N -> nat) : nat := list_sum (map h G).

Arguments gsum : simpl never.
Lemma gsum_cons : forall a G h, gsum (a :: G) h = (h a + gsum G h)%nat.
Proof. reflexivity. Qed.
Lemma gsum_nil : forall h, gsum [] h = 0%nat.
Proof. reflexivity. Qed.

Lemma gsum_ext : forall G h h', (forall g, In g G -> h g = h' g) -> gsum G h = gsum G h'.
Proof. intros G h h' H. unfold gsum. f_equal. apply map_ext_in. assumption. Qed.

Lemma gsum_upd_out : forall P (w : P -> nat) G (m : N -> P) g p, ~ In g G -> gsum G (fun x => w (upd m g p x)) = gsum G (fun x => w (m x)).
Proof. intros. apply gsum_ext. intros x HI. rewrite upd_neq; [reflexivity|]. intros ->. contradiction. Qed.

Lemma gsum_upd_in : forall P (w : P -> nat) G (m : N -> P) g p, NoDup G -> In g G ->
  (gsum G (fun x => w (upd m g p x)) + w (m g) = gsum G (fun x => w (m x)) + w p)%nat.
Proof.
  intros P w. induction G as [|a G IH]; intros m g p ND HI; [contradiction|]. inversion ND; subst. rewrite !gsum_cons.
  destruct (N.eq_dec a g) as [->|NE].
  - rewrite upd_eq. pose proof (gsum_upd_out P w G m g p H1) as E. lia.
  - destruct HI as [|HI]; [contradiction|]. rewrite upd_neq by congruence. specialize (IH m g p H2 HI). lia.
Qed.

Lemma gsum_pos : forall G h, (1 <= gsum G h)%nat -> exists g, In g G /\ (1 <= h g)%nat.
Proof.
  induction G as [|a G IH]; intros h H; [rewrite gsum_nil in H; lia|]. rewrite gsum_cons in H.
  destruct (h a) eqn:E; [|exists a; split; [left; reflexivity|lia]]. destruct (IH h) as (g & A & B); [lia|].
  exists g. split; [right; assumption|assumption].
Qed.

Lemma gsum_in : forall G h g, In g G -> (h g <= gsum G h)%nat.
Proof.
  induction G as [|a G IH]; intros h g HI; [contradiction|]. rewrite gsum_cons. destruct HI as [->|HI]; [lia|].
  specialize (IH h g HI). lia.
Qed.

Lemma gsum_two : forall G h g g', NoDup G -> In g G -> In g' G -> g <> g' -> (h g + h g' <= gsum G h)%nat.
Proof.
  induction G as [|a G IH]; intros h g g' ND HI HI' NE; [contradiction|]. inversion ND; subst.
  rewrite gsum_cons. destruct HI as [->|HI], HI' as [->|HI'].
  - contradiction.
  - pose proof (gsum_in G h g' HI'). lia.
  - pose proof (gsum_in G h g HI). lia.
  - specialize (IH h g g' H2 HI HI' NE). lia.
Qed.

Definition covers (G : list N) (m : N -> lpc) : Prop := NoDup G /\ forall g, ~ In g G -> m g = LIdle.

Lemma covers_upd : forall G m g p, covers G m -> exists G', covers G' (upd m g p) /\
  forall w : lpc -> nat, w LIdle = 0%nat -> (gsum G' (fun x => w (upd m g p x)) + w (m g) = gsum G (fun x => w (m x)) + w p)%nat.
Proof.
  intros G m g p [ND S]. destruct (in_dec N.eq_dec g G) as [HI|HI].
  - exists G. split.
    + split; [assumption|]. intros x HX. rewrite upd_neq by congruence. auto.
    + intros w _. apply gsum_upd_in; assumption.
  - exists (g :: G). split.
    + split; [constructor; assumption|]. intros x HX. rewrite upd_neq; [apply S; intro; apply HX; right; assumption|].
      intros ->. apply HX. left. reflexivity.
    + intros w HW. rewrite gsum_cons, upd_eq. pose proof (gsum_upd_out lpc w G m g p HI) as E.
      rewrite (S g HI), HW. lia.
Qed.

(** *** Weights *)

Definition is (a b : N) : nat := if a =? b then 1%nat else 0%nat.
Definition b2n (b : bool) : nat := if b then 1%nat else 0%nat.
Definition some {A} (o : option A) : nat := match o with Some _ => 1%nat | None => 0%nat end.
Definition occ (l : list N) (f : N) : nat := count_occ N.eq_dec l f.

(** between winning the CAS on c and closing untrackedCh *)
Definition wU (c : N) (p : lpc) : nat :=
  match p with LGetID d _ _ | LDelID d _ _ _ | LDelAct d _ _ | LKickCB d _ | LCloseCh d _ => is d c | _ => 0%nat end.
(** owes OnKickCB for c *)
Definition wK (c : N) (p : lpc) : nat :=
  match p with LGetID d true _ | LDelID d _ true _ | LDelAct d true _ | LKickCB d _ => is d c | _ => 0%nat end.
Definition contOf (p : lpc) : cont :=
  match p with
  | LCas _ _ ct | LGetID _ _ ct | LDelID _ _ _ ct | LDelAct _ _ ct | LKickCB _ ct | LCloseCh _ ct | LWaitCh _ ct
  | LLock _ ct | LCancel _ _ ct | LNotify _ _ ct => ct
  | LBind c i => CBind c i
  | LIdle | LLate _ _ => CRet
  end.
Definition wC (c : N) (ct : cont) : nat := match ct with CBind d _ => is d c | CRet => 0%nat end.
(** inside SetID of c, not yet bound *)
Definition wB (c : N) (p : lpc) : nat := wC c (contOf p).
(** owes a call of f registered on c *)
Definition wN (c f : N) (p : lpc) : nat :=
  match p with
  | LCancel d todo _ | LNotify d todo _ => if d =? c then occ todo f else 0%nat
  | LLate d f' => if d =? c then is f' f else 0%nat
  | _ => 0%nat
  end.
Arguments occ : simpl never.

Lemma occ_app : forall a b f, occ (a ++ b) f = (occ a f + occ b f)%nat.
Proof. intros. unfold occ. apply count_occ_app. Qed.
Lemma occ_cons : forall a l f, occ (a :: l) f = (is a f + occ l f)%nat.
Proof.
  intros. unfold occ, is. cbn. destruct (N.eq_dec a f) as [->|H]; [rewrite N.eqb_refl; reflexivity|].
  destruct (N.eqb_spec a f); [contradiction|reflexivity].
Qed.
Lemma occ_nil : forall f, occ [] f = 0%nat. Proof. reflexivity. Qed.
Lemma is_refl : forall a, is a a = 1%nat. Proof. intro. unfold is. rewrite N.eqb_refl. reflexivity. Qed.
Lemma call_get : forall r c f d h, call r c f d h = (r d h + (if (c =? d)%N then is f h else 0))%nat.
Proof.
  intros. unfold call, upd, is. rewrite (N.eqb_sym c d), (N.eqb_sym f h). destruct (N.eqb_spec d c) as [->|].
  - destruct (N.eqb_spec h f) as [->|]; lia.
  - lia.
Qed.

(** *** The general invariant *)

Definition ctk (ct : cont) : bool := match ct with CRet => false | CBind _ _ => true end.

Definition kok (s : lst) (c : N) (k : bool) (ct : cont) : Prop :=
  k = ctk ct /\ match ct with CRet => True | CBind c' i => c' <> c /\ cid s c' = Some i /\ cid s c = Some i end.

Definition pok (s : lst) (p : lpc) : Prop :=
  match p with
  | LIdle => True
  | LBind c i => cid s c = Some i
  | LCas c k ct => kok s c k ct
  | LGetID c k ct => kok s c k ct /\ untr s c = true
  | LDelID c i k ct => kok s c k ct /\ untr s c = true /\ cid s c = Some i
  | LDelAct c k ct => kok s c k ct /\ untr s c = true
  | LKickCB c ct => kok s c true ct /\ untr s c = true /\ act s c = false
  | LCloseCh c ct => kok s c (ctk ct) ct /\ untr s c = true /\ act s c = false
  | LWaitCh c ct => kok s c (ctk ct) ct /\ untr s c = true
  | LLock c ct => kok s c (ctk ct) ct /\ utch s c = true
  | LCancel c _ ct => kok s c (ctk ct) ct /\ utch s c = true /\ clsd s c = true
  | LNotify c _ ct => kok s c (ctk ct) ct /\ utch s c = true /\ clsd s c = true
  | LLate c _ => clsd s c = true
  end.

(** what only grows *)
Record mono (s s' : lst) : Prop := {
  m_cid : forall c i, cid s c = Some i -> cid s' c = Some i;
  m_untr : forall c, untr s c = true -> untr s' c = true;
  m_utch : forall c, utch s c = true -> utch s' c = true;
  m_act : forall c, act s c = false -> act s' c = false;
  m_clsd : forall c, clsd s c = true -> clsd s' c = true }.

Lemma kok_mono : forall s s' c k ct, mono s s' -> kok s c k ct -> kok s' c k ct.
Proof. intros s s' c k ct M [A B]. split; [assumption|]. destruct ct as [|c' i]; [trivial|]. destruct B as (B1 & B2 & B3). repeat split; [assumption|apply (m_cid _ _ M); assumption..]. Qed.

Lemma pok_mono : forall s s' p, mono s s' -> pok s p -> pok s' p.
Proof.
  intros s s' p M. pose proof (fun c k ct => kok_mono s s' c k ct M) as KM. destruct M as [M1 M2 M3 M4 M5].
  destruct p; cbn; try tauto; auto; intuition auto.
Qed.

Record ginv (s : lst) : Prop := {
  i_p : forall g, pok s (lp s g);
  i_ut : forall c, utch s c = true -> untr s c = true /\ act s c = false;
  i_cl : forall c, clsd s c = true -> utch s c = true /\ nfy s c = [];
  i_op : forall c, clsd s c = false -> forall f, ran s c f = 0%nat;
  i_k : forall c c', kickedBy s c = Some c' -> untr s c = true /\ c' <> c /\ exists i, cid s c = Some i /\ cid s c' = Some i;
  i_id : forall i c, id2 s i = Some c -> cid s c = Some i /\ bound s c = true;
  i_dc : dclose s = false;
  i_s : exists G, covers G (lp s) /\ forall c,
     (gsum G (fun g => wU c (lp s g)) + b2n (utch s c) = b2n (untr s c))%nat /\
     (gsum G (fun g => wK c (lp s g)) + cbs s c = some (kickedBy s c))%nat /\
     (gsum G (fun g => wB c (lp s g)) + b2n (bound s c) = some (cid s c))%nat /\
     forall f, regs s c f = (ran s c f + occ (nfy s c) f + gsum G (fun g => wN c f (lp s g)))%nat }.

Lemma ginv_init : ginv linit.
Proof.
  split; cbn; try discriminate; auto.
  exists []. split; [split; [constructor|reflexivity]|]. intro c. repeat split; reflexivity.
Qed.

Lemma in_cover : forall G s g, covers G (lp s) -> lp s g <> LIdle -> In g G.
Proof. intros G s g [_ S] H. destruct (in_dec N.eq_dec g G); [assumption|]. exfalso. auto. Qed.

(** binding twice is impossible: the goroutine inside SetID of c has not bound it *)
Lemma binder_unbound : forall s g c i, ginv s -> contOf (lp s g) = CBind c i -> bound s c = false.
Proof.
  intros s g c i I H. destruct (i_s s I) as (G & C & S). destruct (S c) as (_ & _ & B & _).
  assert (HI : In g G). { apply (in_cover G s g C). intro E. rewrite E in H. discriminate. }
  pose proof (gsum_in G (fun g => wB c (lp s g)) g HI) as X. cbn in X. unfold wB in X at 1. rewrite H in X. cbn in X. rewrite is_refl in X.
  unfold b2n, some in B. destruct (bound s c); [|reflexivity]. destruct (cid s c); lia.
Qed.

Lemma binder_unique : forall s g g' c i i', ginv s -> contOf (lp s g) = CBind c i -> contOf (lp s g') = CBind c i' -> g = g'.
Proof.
  intros s g g' c i i' I H H'. destruct (N.eq_dec g g') as [|NE]; [assumption|]. exfalso.
  destruct (i_s s I) as (G & C & S). destruct (S c) as (_ & _ & B & _).
  assert (HI : In g G) by (apply (in_cover G s g C); intro E; rewrite E in H; discriminate).
  assert (HI' : In g' G) by (apply (in_cover G s g' C); intro E; rewrite E in H'; discriminate).
  pose proof (gsum_two G (fun g => wB c (lp s g)) g g' (proj1 C) HI HI' NE) as X. cbn in X. unfold wB in X at 1 2. rewrite H, H' in X. cbn in X. rewrite is_refl in X.
  unfold b2n, some in B. destruct (bound s c); destruct (cid s c); lia.
Qed.

Lemma untracker_unique : forall s g g' c, ginv s -> wU c (lp s g) = 1%nat -> wU c (lp s g') = 1%nat -> g = g'.
Proof.
  intros s g g' c I H H'. destruct (N.eq_dec g g') as [|NE]; [assumption|]. exfalso.
  destruct (i_s s I) as (G & C & S). destruct (S c) as (B & _).
  assert (HI : In g G) by (apply (in_cover G s g C); intro E; rewrite E in H; discriminate).
  assert (HI' : In g' G) by (apply (in_cover G s g' C); intro E; rewrite E in H'; discriminate).
  pose proof (gsum_two G (fun g => wU c (lp s g)) g g' (proj1 C) HI HI' NE) as X. cbn in X. rewrite H, H' in X.
  unfold b2n in B. destruct (utch s c); destruct (untr s c); lia.
Qed.

Lemma untracker_open : forall s g c, ginv s -> wU c (lp s g) = 1%nat -> utch s c = false /\ untr s c = true.
Proof.
  intros s g c I H. destruct (i_s s I) as (G & C & S). destruct (S c) as (B & _).
  assert (HI : In g G) by (apply (in_cover G s g C); intro E; rewrite E in H; discriminate).
  pose proof (gsum_in G (fun g => wU c (lp s g)) g HI) as X. cbn in X. rewrite H in X.
  unfold b2n in B. destruct (utch s c); destruct (untr s c); try lia; auto.
Qed.

Lemma untracker_exists : forall s c, ginv s -> untr s c = true -> utch s c = false -> exists g, wU c (lp s g) = 1%nat.
Proof.
  intros s c I U H. destruct (i_s s I) as (G & C & S). destruct (S c) as (B & _). rewrite U, H in B. cbn in B.
  destruct (gsum_pos G (fun g => wU c (lp s g))) as (g & A & D); [lia|]. exists g.
  pose proof (gsum_in G (fun g => wU c (lp s g)) g A) as X. cbn in *. lia.
Qed.

(** Assembling the invariant after goroutine g moved to p.  The facts about sums that must be shown are about
    g's old and new program counter only. *)
Lemma ginv_make : forall s s' g p,
  ginv s -> lp s' = upd (lp s) g p -> mono s s' -> pok s' p ->
  (forall c, utch s' c = true -> untr s' c = true /\ act s' c = false) ->
  (forall c, clsd s' c = true -> utch s' c = true /\ nfy s' c = []) ->
  (forall c, clsd s' c = false -> forall f, ran s' c f = 0%nat) ->
  (forall c c', kickedBy s' c = Some c' -> untr s' c = true /\ c' <> c /\ exists i, cid s' c = Some i /\ cid s' c' = Some i) ->
  (forall i c, id2 s' i = Some c -> cid s' c = Some i /\ bound s' c = true) ->
  dclose s' = false ->
  (forall c,
     (wU c (lp s g) <= 1 -> wU c (lp s g) + b2n (utch s c) <= b2n (untr s c) ->
       wU c p + b2n (utch s' c) + b2n (untr s c) = wU c (lp s g) + b2n (utch s c) + b2n (untr s' c))%nat /\
     (wK c p + cbs s' c + some (kickedBy s c) = wK c (lp s g) + cbs s c + some (kickedBy s' c))%nat /\
     (wB c p + b2n (bound s' c) + some (cid s c) = wB c (lp s g) + b2n (bound s c) + some (cid s' c))%nat /\
     (forall f, regs s' c f + (ran s c f + occ (nfy s c) f + wN c f (lp s g)) = regs s c f + (ran s' c f + occ (nfy s' c) f + wN c f p))%nat) ->
  ginv s'.
Proof.
  intros s s' g p I HL M HP H1 H2 H3 H4 H5 H6 HS. split; try assumption.
  - intro x. rewrite HL. destruct (N.eq_dec x g) as [->|NE]; [rewrite upd_eq; assumption|]. rewrite upd_neq by assumption.
    eapply pok_mono; [eassumption|apply (i_p s I)].
  - destruct (i_s s I) as (G & C & S). destruct (covers_upd G (lp s) g p C) as (G' & C' & E). exists G'. rewrite HL. split; [assumption|].
    intro c. destruct (HS c) as (A1 & A2 & A3 & A4). destruct (S c) as (S1 & S2 & S3 & S4).
    pose proof (E (wU c) eq_refl) as E1. pose proof (E (wK c) eq_refl) as E2. pose proof (E (wB c) eq_refl) as E3. cbn beta in *.
    assert (L : (wU c (lp s g) <= gsum G (fun g => wU c (lp s g)))%nat).
    { destruct (in_dec N.eq_dec g G) as [HI|HI]; [apply (gsum_in G (fun g => wU c (lp s g)) g HI)|]. destruct C as [_ C]. rewrite (C g HI). cbn. lia. }
    assert (L1 : (wU c (lp s g) <= 1)%nat). { clear. destruct (lp s g); cbn; unfold is; try destruct (c0 =? c); lia. }
    specialize (A1 L1 ltac:(lia)).
    split; [lia|]. split; [lia|]. split; [lia|]. intro f. specialize (A4 f). specialize (S4 f). pose proof (E (wN c f) eq_refl) as E4. cbn beta in E4. lia.
Qed.

Ltac mono_tac :=
  split; cbn; auto; intros; unfold upd in *;
  repeat match goal with |- context [N.eqb ?a ?b] => destruct (N.eqb_spec a b); subst end; auto; try congruence.

Lemma mono_setp : forall s g p, mono s (setp s g p).
Proof. intros. split; cbn; auto. Qed.

(** moves that only change the program counter *)
Lemma ginv_setp : forall s g p, ginv s -> pok s p ->
  (forall c, wU c p = wU c (lp s g) /\ wK c p = wK c (lp s g) /\ wB c p = wB c (lp s g) /\ forall f, wN c f p = wN c f (lp s g)) ->
  ginv (setp s g p).
Proof.
  intros s g p I HP H. destruct I as [IP IU IC IO IK II ID IS].
  apply (ginv_make s (setp s g p) g p); [split; assumption|reflexivity|apply mono_setp|eapply pok_mono; [apply mono_setp|assumption]|cbn; assumption..|].
  intro c. destruct (H c) as (A & B & C & D). cbn. rewrite A, B, C. repeat split; try lia. intro f. rewrite D. lia.
Qed.

Lemma is_neq : forall a b, a <> b -> is a b = 0%nat.
Proof. intros a b H. unfold is. destruct (N.eqb_spec a b); [contradiction|reflexivity]. Qed.
Lemma is_eq_dec : forall a b, (a = b /\ is a b = 1%nat) \/ (a <> b /\ is a b = 0%nat).
Proof. intros. destruct (N.eq_dec a b) as [->|H]; [left; split; [reflexivity|apply is_refl]|right; split; [assumption|apply is_neq; assumption]]. Qed.

(** weights after a call of closeUntracked returns: back to the caller *)
Lemma resume_w : forall ct c f, wU c (resume ct) = 0%nat /\ wK c (resume ct) = 0%nat /\ wB c (resume ct) = wC c ct /\ wN c f (resume ct) = 0%nat.
Proof. intros [|d i] c f; repeat split. Qed.

Lemma resume_pok : forall s c k ct, kok s c k ct -> pok s (resume ct).
Proof. intros s c k [|d i] [_ H]; cbn; [trivial|]. apply H. Qed.

Lemma gstep_inv : forall s g s', ginv s -> gstep s g = Some s' -> ginv s'.
Proof.
  intros s g s' I H. pose proof (i_p s I g) as HP. pose proof I as I0. destruct I0 as [IP IU IC IO IK II ID IS].
  unfold gstep in H. destruct (lp s g) as [|c i|c k ct|c k ct|c i k ct|c k ct|c ct|c ct|c ct|c ct|c todo ct|c todo ct|c f] eqn:L; try discriminate; cbn [pok] in HP.
  - (* bind *)
    destruct (id2 s i) as [v|] eqn:E.
    + destruct (N.eqb_spec v c) as [->|NE].
      * exfalso. destruct (II i c E) as [_ B]. rewrite (binder_unbound s g c i I) in B; [discriminate|]. rewrite L. reflexivity.
      * inversion H; subst s'; clear H. destruct (II i v E) as [V1 V2]. eapply (ginv_make s _ g); [exact I|reflexivity|split; cbn; auto| |cbn; assumption..|].
        -- cbn. split; [reflexivity|]. repeat split; [congruence|assumption|assumption].
        -- intro d. rewrite L. cbn. repeat split; try lia.
    + inversion H; subst s'; clear H. pose proof (binder_unbound s g c i I) as UB. rewrite L in UB. specialize (UB eq_refl).
      eapply (ginv_make s _ g LIdle); [exact I|reflexivity|split; cbn; auto|exact Logic.I|cbn; try assumption..|].
      * intros j d. unfold upd. destruct (N.eqb_spec j i) as [->|NI].
        -- intro X. inversion X; subst d. rewrite N.eqb_refl. auto.
        -- intro X. destruct (II j d X) as [X1 X2]. split; [assumption|]. destruct (d =? c); [reflexivity|assumption].
      * intro d. rewrite L. cbn. repeat split; try lia. unfold wB. cbn. unfold upd.
        destruct (is_eq_dec c d) as [[-> ->]|[NE ->]].
        -- rewrite N.eqb_refl, UB. cbn. lia.
        -- destruct (N.eqb_spec d c); [congruence|]. lia.
  - (* cas *)
    destruct (untr s c) eqn:U.
    + inversion H; subst s'; clear H. destruct HP as [-> HP]. apply ginv_setp; [assumption|cbn; repeat split; assumption|].
      intro d. rewrite L. repeat split; reflexivity.
    + inversion H; subst s'; clear H. eapply (ginv_make s _ g); [exact I|reflexivity|mono_tac| |..].
      * cbn. split; [|apply upd_eq]. exact HP.
      * cbn. intros d X. destruct (IU d X) as [Y1 Y2]. split; [|assumption]. unfold upd. destruct (d =? c); [reflexivity|assumption].
      * cbn. assumption.
      * cbn. assumption.
      * cbn. destruct HP as [HK HP]. intros d d' X. assert (Y : kickedBy s d = Some d' \/ (d = c /\ exists i, ct = CBind d' i)).
        { destruct ct as [|c' i]; [left; assumption|]. unfold upd in X. destruct (N.eqb_spec d c); [|left; assumption].
          inversion X; subst. right. split; [reflexivity|]. exists i. reflexivity. }
        destruct Y as [Y|(-> & i & ->)].
        -- destruct (IK d d' Y) as (Z1 & Z2 & Z3). split; [|split; assumption]. unfold upd. destruct (d =? c); [reflexivity|assumption].
        -- rewrite upd_eq. destruct HP as (P1 & P2 & P3). split; [reflexivity|]. split; [assumption|]. exists i. split; assumption.
      * cbn. assumption.
      * cbn. assumption.
      * intro d. rewrite L. cbn. split; [|split; [|split]].
        -- intros _ W. unfold upd. destruct (is_eq_dec c d) as [[-> ->]|[NE ->]].
           ++ rewrite N.eqb_refl. rewrite U in *. unfold b2n in *. destruct (utch s d); lia.
           ++ destruct (N.eqb_spec d c); [congruence|]. lia.
        -- destruct HP as [-> HP].
           assert (KN : kickedBy s c = None). { destruct (kickedBy s c) as [c'|] eqn:KE; [|reflexivity]. destruct (IK c c' KE) as (X & _). congruence. }
           destruct ct as [|c' i]; cbn [ctk]; [lia|].
           unfold upd. destruct (is_eq_dec c d) as [[-> ->]|[NE ->]].
           ++ rewrite N.eqb_refl, KN. cbn. lia.
           ++ destruct (N.eqb_spec d c); [congruence|]. lia.
        -- unfold wB. cbn. lia.
        -- intro f. lia.
  - (* getid *)
    destruct HP as [K U]. destruct (cid s c) as [i|] eqn:E; inversion H; subst s'; clear H; (apply ginv_setp; [assumption|cbn; auto|]).
    + intro d. rewrite L. repeat split; reflexivity.
    + intro d. rewrite L. repeat split; reflexivity.
  - (* delete id *)
    destruct HP as (K & U & E). inversion H; subst s'; clear H. eapply (ginv_make s _ g); [exact I|reflexivity|mono_tac| |cbn; try assumption..|].
    + cbn. split; assumption.
    + intros j d. unfold upd. destruct (j =? i); [discriminate|apply II].
    + intro d. rewrite L. cbn. repeat split; try lia; unfold wB; cbn; lia.
  - (* delete active *)
    destruct HP as (K & U). inversion H; subst s'; clear H. pose proof K as K1. destruct K as [KE K].
    assert (AX : upd (act s) c false c = false) by apply upd_eq.
    eapply (ginv_make s _ g); [exact I|reflexivity|mono_tac| |cbn; try assumption..|].
    + destruct k; cbn; [|rewrite <- KE]; repeat split; try assumption.
    + intros d X. destruct (IU d X) as [Y1 Y2]. split; [assumption|]. unfold upd. destruct (d =? c); [reflexivity|assumption].
    + intro d. rewrite L. destruct k; cbn; repeat split; try lia; unfold wB; cbn; lia.
  - (* kick callback *)
    destruct HP as (K & U & A). inversion H; subst s'; clear H. pose proof K as K1. destruct K as [KE K].
    eapply (ginv_make s _ g); [exact I|reflexivity|mono_tac| |cbn; try assumption..|].
    + cbn. rewrite <- KE. repeat split; assumption.
    + intro d. rewrite L. cbn. repeat split; try lia; unfold wB; cbn; try lia. unfold upd.
      destruct (is_eq_dec c d) as [[-> ->]|[NE ->]]; [rewrite N.eqb_refl; lia|]. destruct (N.eqb_spec d c); [congruence|]. lia.
  - (* close untrackedCh *)
    destruct HP as (K & U & A). assert (W : wU c (lp s g) = 1%nat) by (rewrite L; cbn; apply is_refl).
    destruct (untracker_open s g c I W) as [O1 O2]. inversion H; subst s'; clear H.
    assert (UX : upd (utch s) c true c = true) by apply upd_eq.
    eapply (ginv_make s _ g); [exact I|reflexivity|mono_tac| |cbn; try assumption..|].
    + cbn. split; assumption.
    + intros d. unfold upd. destruct (N.eqb_spec d c) as [->|]; [auto|apply IU].
    + intros d X. destruct (IC d X) as [Y1 Y2]. split; [|assumption]. unfold upd. destruct (d =? c); [reflexivity|assumption].
    + rewrite ID, O1. reflexivity.
    + intro d. rewrite L. cbn. repeat split; try lia; unfold wB; cbn; try lia. unfold upd. intros _ _.
      destruct (is_eq_dec c d) as [[-> ->]|[NE ->]]; [rewrite N.eqb_refl, O1; cbn; lia|]. destruct (N.eqb_spec d c); [congruence|]. lia.
  - (* wait *)
    destruct HP as (K & U). destruct (utch s c) eqn:T; [|discriminate]. inversion H; subst s'; clear H. apply ginv_setp; [assumption|cbn; auto|].
    intro d. rewrite L. repeat split; reflexivity.
  - (* lock *)
    destruct HP as (K & U). destruct (clsd s c) eqn:T; inversion H; subst s'; clear H.
    + apply ginv_setp; [assumption|eapply resume_pok; eassumption|]. intro d. rewrite L.
      destruct (resume_w ct d 0) as (R1 & R2 & R3 & _). rewrite R1, R2, R3. repeat split. intro f. apply (resume_w ct d f).
    + assert (CX : upd (clsd s) c true c = true) by apply upd_eq.
      eapply (ginv_make s _ g); [exact I|reflexivity|mono_tac| |cbn; try assumption..|].
      * cbn. repeat split; try assumption; apply K.
      * intros d. unfold upd. destruct (N.eqb_spec d c) as [->|]; [auto|apply IC].
      * intros d. unfold upd. destruct (N.eqb_spec d c) as [->|]; [discriminate|apply IO].
      * intro d. rewrite L. cbn. repeat split; try lia; unfold wB; cbn; try lia. unfold upd. intro f.
        rewrite (N.eqb_sym c d). destruct (N.eqb_spec d c) as [->|]; rewrite ?occ_nil; lia.
  - (* cancel *)
    destruct HP as (K & U & C). inversion H; subst s'; clear H. eapply (ginv_make s _ g); [exact I|reflexivity|mono_tac| |cbn; try assumption..|].
    + cbn. auto.
    + intro d. rewrite L. cbn. repeat split; lia.
  - (* notify *)
    destruct HP as (K & U & C). destruct todo as [|f fs]; inversion H; subst s'; clear H.
    + apply ginv_setp; [assumption|eapply resume_pok; eassumption|]. intro d. rewrite L.
      destruct (resume_w ct d 0) as (R1 & R2 & R3 & _). rewrite R1, R2, R3. repeat split. intro f. cbn [wN].
      destruct (resume_w ct d f) as (_ & _ & _ & ->). rewrite occ_nil. destruct (c =? d); reflexivity.
    + eapply (ginv_make s _ g); [exact I|reflexivity|mono_tac| |cbn; try assumption..|].
      * cbn. auto.
      * intros d X f'. rewrite call_get. destruct (N.eqb_spec c d) as [->|]; [congruence|]. rewrite IO by assumption. reflexivity.
      * intro d. rewrite L. cbn. repeat split; try lia; unfold wB; cbn; try lia. intro f'. rewrite call_get, occ_cons. destruct (c =? d); lia.
  - (* late *)
    inversion H; subst s'; clear H. eapply (ginv_make s _ g LIdle); [exact I|reflexivity|mono_tac|exact Logic.I|cbn; try assumption..|].
    + intros d X f'. rewrite call_get. destruct (N.eqb_spec c d) as [->|]; [congruence|]. rewrite IO by assumption. reflexivity.
    + intro d. rewrite L. cbn. repeat split; try lia. intro f'. rewrite call_get. destruct (c =? d); lia.
Qed.

Lemma ginv_step : forall s l s', ginv s -> lstep s l = Some s' -> ginv s'.
Proof.
  intros s l s' I H. pose proof I as I0. destruct I0 as [IP IU IC IO IK II ID IS]. destruct l as [g c i|g c|g c f|g]; cbn [lstep] in H.
  - destruct (lp s g) eqn:L; try discriminate. destruct (cid s c) as [j|] eqn:E; [inversion H; subst; assumption|].
    inversion H; subst s'; clear H. eapply (ginv_make s _ g (LBind c i)); [exact I|reflexivity|mono_tac| |cbn; try assumption..|].
    + cbn. apply upd_eq.
    + intros d d' X. destruct (IK d d' X) as (Y1 & Y2 & j & Y3 & Y4). split; [assumption|]. split; [assumption|]. exists j.
      unfold upd. destruct (N.eqb_spec d c), (N.eqb_spec d' c); subst; try congruence; auto.
    + intros j d X. destruct (II j d X) as [Y1 Y2]. split; [|assumption]. unfold upd. destruct (N.eqb_spec d c); [congruence|assumption].
    + intro d. rewrite L. cbn. repeat split; try lia. unfold wB. cbn. unfold upd.
      destruct (is_eq_dec c d) as [[-> ->]|[NE ->]]; [rewrite N.eqb_refl, E; cbn; lia|]. destruct (N.eqb_spec d c); [congruence|]. lia.
  - destruct (lp s g) eqn:L; try discriminate. inversion H; subst s'; clear H. apply ginv_setp; [assumption|cbn; split; [reflexivity|exact Logic.I]|].
    intro d. rewrite L. repeat split; reflexivity.
  - destruct (lp s g) eqn:L; try discriminate. destruct (clsd s c) eqn:C; inversion H; subst s'; clear H.
    + eapply (ginv_make s _ g (LLate c f)); [exact I|reflexivity|mono_tac|exact C|cbn; try assumption..|].
      intro d. rewrite L. cbn. repeat split; try lia. intro f'. rewrite call_get. destruct (c =? d); lia.
    + split; cbn; try assumption.
      * intros d X. destruct (IC d X) as [Y1 Y2]. split; [assumption|]. unfold upd. destruct (N.eqb_spec d c); [congruence|assumption].
      * destruct IS as (G & CG & S). exists G. split; [assumption|]. intro d. destruct (S d) as (S1 & S2 & S3 & S4). repeat split; try assumption.
        intro f'. specialize (S4 f'). rewrite call_get. unfold upd. rewrite (N.eqb_sym c d). destruct (N.eqb_spec d c) as [->|]; [|lia].
        rewrite occ_app, occ_cons, occ_nil. lia.
  - eapply gstep_inv; eassumption.
Qed.

Lemma lreach : forall s, reachable lstep linit s -> ginv s.
Proof. intros s R. exact (reachable_inv lstep ginv _ ginv_init ginv_step s R). Qed.

Lemma lstepR_lstep : forall s l s', lstepR s l = Some s' -> lstep s l = Some s'.
Proof.
  intros s l s' H. destruct l; cbn in *; try assumption.
  - destruct (untr s c); [discriminate|assumption].
  - destruct (lp s g); try assumption. destruct (cid s c); [destruct (negb (bound s c))|]; try discriminate; assumption.
Qed.

Lemma lreachR : forall s, reachable lstepR linit s -> reachable lstep linit s.
Proof.
  intros s [ls R]. exists ls. revert R. generalize linit. induction ls as [|l ls IH]; intros a R; [assumption|]. cbn in *.
  destruct (lstepR a l) eqn:E; [|discriminate]. rewrite (lstepR_lstep _ _ _ E). apply IH. assumption.
Qed.

(** *** The invariant when SetID and Close of one connection are kept apart *)

Definition delPend (s : lst) (c i : N) : Prop := exists g k ct, lp s g = LGetID c k ct \/ lp s g = LDelID c i k ct.
Definition deleter (p : lpc) : bool := match p with LGetID _ _ _ | LDelID _ _ _ _ => true | _ => false end.
Definition target (p : lpc) : option N :=
  match p with
  | LCas c _ _ | LGetID c _ _ | LDelID c _ _ _ | LDelAct c _ _ | LKickCB c _ | LCloseCh c _ | LWaitCh c _
  | LLock c _ | LCancel c _ _ | LNotify c _ _ => Some c
  | _ => None
  end.

(** the connections a SetID call already went after are all through untrack, and carry the same id *)
Definition klok (s : lst) (c i : N) (l : list N) : Prop := NoDup l /\ forall v, In v l -> utch s v = true /\ cid s v = Some i /\ v <> c.

Definition kpc (s : lst) (g : N) : Prop :=
  match contOf (lp s g) with
  | CRet => True
  | CBind c i =>
    match target (lp s g) with
    | None => klok s c i (kl s g)
    | Some v => exists tl, kl s g = v :: tl /\ ~ In v tl /\ cid s v = Some i /\ v <> c /\ klok s c i tl
    end
  end.

Record rinv (s : lst) : Prop := {
  r_1 : forall i c, id2 s i = Some c -> untr s c = true -> delPend s c i;
  r_2 : forall i c, bound s c = true -> cid s c = Some i -> untr s c = false -> id2 s i = Some c;
  r_3 : forall g c k ct i, lp s g = LGetID c k ct -> cid s c = Some i -> id2 s i = Some c;
  r_3' : forall g c i k ct, lp s g = LDelID c i k ct -> id2 s i = Some c;
  r_4 : forall c, cid s c <> None -> bound s c = false -> untr s c = false;
  r_5 : forall g, kpc s g;
  r_6 : forall g, NoDup (kl s g) }.

Lemma rinv_init : rinv linit.
Proof. split; cbn; try discriminate; auto. intro; constructor. Qed.

Lemma klok_mono : forall s s' c i l, mono s s' -> klok s c i l -> klok s' c i l.
Proof. intros s s' c i l M [A B]. split; [assumption|]. intros v HI. destruct (B v HI) as (X & Y & Z). repeat split; [apply (m_utch _ _ M)|apply (m_cid _ _ M)|]; assumption. Qed.

Lemma kpc_other : forall s s' g, mono s s' -> lp s' g = lp s g -> kl s' g = kl s g -> kpc s g -> kpc s' g.
Proof.
  intros s s' g M E1 E2. unfold kpc. rewrite E1, E2. destruct (contOf (lp s g)) as [|c i]; [trivial|]. destruct (target (lp s g)) as [v|].
  - intros (tl & A & B & C & D & E). exists tl. split; [assumption|]. split; [assumption|]. split; [apply (m_cid _ _ M); assumption|]. split; [assumption|].
    eapply klok_mono; eassumption.
  - apply klok_mono. assumption.
Qed.

(** same continuation and same target: nothing to show *)
Lemma kpc_same : forall s s' g, mono s s' -> contOf (lp s' g) = contOf (lp s g) -> target (lp s' g) = target (lp s g) -> kl s' g = kl s g -> kpc s g -> kpc s' g.
Proof.
  intros s s' g M E1 E2 E3. unfold kpc. rewrite E1, E2, E3. destruct (contOf (lp s g)) as [|c i]; [trivial|]. destruct (target (lp s g)) as [v|].
  - intros (tl & A & B & C & D & E). exists tl. split; [assumption|]. split; [assumption|]. split; [apply (m_cid _ _ M); assumption|]. split; [assumption|].
    eapply klok_mono; eassumption.
  - apply klok_mono. assumption.
Qed.

Lemma resume_cont : forall ct, contOf (resume ct) = ct.
Proof. intros [|]; reflexivity. Qed.
Lemma resume_target : forall ct, target (resume ct) = None.
Proof. intros [|]; reflexivity. Qed.
Lemma resume_deleter : forall ct, deleter (resume ct) = false.
Proof. intros [|]; reflexivity. Qed.

Lemma kpc_resume : forall s s' g c, mono s s' -> target (lp s g) = Some c -> lp s' g = resume (contOf (lp s g)) -> kl s' g = kl s g ->
  utch s c = true -> kpc s g -> kpc s' g.
Proof.
  intros s s' g c M E1 E2 E3 U. unfold kpc. rewrite E2, E3, E1, resume_cont, resume_target. destruct (contOf (lp s g)) as [|c0 i]; [trivial|].
  intros (tl & A & B & C & D & E). rewrite A. destruct E as [E F]. split; [constructor; assumption|].
  intros v [<-|HI].
  - repeat split; [apply (m_utch _ _ M)|apply (m_cid _ _ M)|]; assumption.
  - destruct (F v HI) as (X & Y & Z). repeat split; [apply (m_utch _ _ M)|apply (m_cid _ _ M)|]; assumption.
Qed.

(** moves that touch neither ids nor untrack, by a goroutine that neither was nor becomes a deleter *)
Lemma rinv_frame : forall s s' g p, ginv s -> rinv s -> mono s s' ->
  id2 s' = id2 s -> cid s' = cid s -> bound s' = bound s -> untr s' = untr s -> kl s' = kl s -> lp s' = upd (lp s) g p ->
  deleter (lp s g) = false -> deleter p = false -> kpc s' g -> rinv s'.
Proof.
  intros s s' g p I [R1 R2 R3 R3' R4 R5 R6] M E1 E2 E3 E4 E5 E6 D1 D2 K.
  assert (O : forall x, x <> g -> lp s' x = lp s x) by (intros; rewrite E6; apply upd_neq; assumption).
  assert (O' : lp s' g = p) by (rewrite E6; apply upd_eq).
  split.
  - intros i c. rewrite E1, E4. intros A B. destruct (R1 i c A B) as (x & k & ct & X). exists x, k, ct. rewrite O; [assumption|].
    intros ->. destruct X as [X|X]; rewrite X in D1; discriminate.
  - intros i c. rewrite E1, E2, E3, E4. apply R2.
  - intros x c k ct i X. destruct (N.eq_dec x g) as [->|NE]; [rewrite O' in X; rewrite X in D2; discriminate D2|]. rewrite O in X by assumption. rewrite E1, E2. eapply R3. eassumption.
  - intros x c i k ct X. destruct (N.eq_dec x g) as [->|NE]; [rewrite O' in X; rewrite X in D2; discriminate D2|]. rewrite O in X by assumption. rewrite E1. eapply R3'. eassumption.
  - intro c. rewrite E2, E3, E4. apply R4.
  - intro x. destruct (N.eq_dec x g) as [->|NE]; [assumption|]. apply (kpc_other s); [assumption|apply O; assumption|rewrite E5; reflexivity|apply R5].
  - intro x. rewrite E5. apply R6.
Qed.

Lemma bound_cid : forall s c, ginv s -> bound s c = true -> cid s c <> None.
Proof. intros s c I B E. destruct (i_s s I) as (G & C & S). destruct (S c) as (_ & _ & X & _). rewrite B, E in X. cbn in X. lia. Qed.

Lemma found_open : forall s i c, ginv s -> rinv s -> id2 s i = Some c -> utch s c = false.
Proof.
  intros s i c I R E. destruct (utch s c) eqn:U; [|reflexivity]. exfalso.
  destruct (i_ut s I c U) as [T _]. destruct (r_1 s R i c E T) as (g & k & ct & X).
  assert (W : wU c (lp s g) = 1%nat) by (destruct X as [X|X]; rewrite X; cbn; apply is_refl).
  destruct (untracker_open s g c I W). congruence.
Qed.

Lemma rinv_step : forall s l s', ginv s -> rinv s -> lstepR s l = Some s' -> rinv s'.
Proof.
  intros s l s' I R H. pose proof (lstepR_lstep s l s' H) as HS. pose proof (ginv_step s l s' I HS) as I'. clear HS.
  pose proof R as R0. destruct R0 as [R1 R2 R3 R3' R4 R5 R6]. destruct l as [g c i|g c|g c f|g]; cbn [lstepR lstep] in H.
  - (* SetID *)
    destruct (untr s c) eqn:U; [discriminate|]. destruct (lp s g) eqn:L; try discriminate. destruct (cid s c) as [j|] eqn:E; [inversion H; subst; assumption|].
    inversion H; subst s'; clear H.
    assert (M : mono s (mkL (id2 s) (upd (cid s) c (Some i)) (untr s) (utch s) (act s) (clsd s) (ctxd s) (nfy s) (upd (lp s) g (LBind c i))
                  (bound s) (kickedBy s) (upd (kl s) g []) (regs s) (ran s) (cbs s) (dclose s))) by mono_tac.
    split.
    + cbn. intros j d A B. destruct (R1 j d A B) as (x & k & ct & X). exists x, k, ct. cbn. rewrite upd_neq; [assumption|].
      intros ->. destruct X as [X|X]; rewrite X in L; discriminate.
    + cbn. intros j d A B C. unfold upd in B. destruct (N.eqb_spec d c) as [->|]; [|apply R2; assumption].
      exfalso. apply (bound_cid s c I A). assumption.
    + cbn. intros x d k ct j X Y. destruct (N.eq_dec x g) as [->|NE]; [rewrite upd_eq in X; discriminate|]. rewrite upd_neq in X by assumption.
      unfold upd in Y. destruct (N.eqb_spec d c) as [->|]; [|eapply R3; eassumption].
      exfalso. pose proof (i_p s I x) as P. rewrite X in P. cbn in P. destruct P. congruence.
    + cbn. intros x d j k ct X. destruct (N.eq_dec x g) as [->|NE]; [rewrite upd_eq in X; discriminate|]. rewrite upd_neq in X by assumption. eapply R3'. eassumption.
    + cbn. intros d A B. destruct (N.eq_dec d c) as [E0|NE]; [rewrite E0; assumption|]. apply R4; [|assumption]. rewrite upd_neq in A by assumption. assumption.
    + intro x. destruct (N.eq_dec x g) as [->|NE].
      * unfold kpc. cbn. rewrite !upd_eq. cbn. split; [constructor|contradiction].
      * apply (kpc_other s); [exact M|cbn; apply upd_neq; assumption|cbn; apply upd_neq; assumption|apply R5].
    + cbn. intro x. destruct (N.eq_dec x g) as [->|NE]; [rewrite upd_eq; constructor|rewrite upd_neq by assumption; apply R6].
  - (* Close *)
    destruct (lp s g) eqn:L; try discriminate. inversion H; subst s'; clear H.
    eapply (rinv_frame s _ g); [assumption|assumption|apply mono_setp|reflexivity..|rewrite L; reflexivity|reflexivity|].
    unfold kpc. cbn. rewrite upd_eq. exact Logic.I.
  - (* NotifyWhenClose *)
    destruct (lp s g) eqn:L; try discriminate. destruct (clsd s c) eqn:C; inversion H; subst s'; clear H.
    + eapply (rinv_frame s _ g); [assumption|assumption|mono_tac|reflexivity..|rewrite L; reflexivity|reflexivity|].
      unfold kpc. cbn. rewrite upd_eq. exact Logic.I.
    + split; cbn; try assumption. 
  - (* a step of g *)
    pose proof (i_p s I g) as P. pose proof (R5 g) as K.
    assert (H' : gstep s g = Some s' /\ (forall c k ct, lp s g = LCas c k ct -> cid s c <> None -> bound s c = true)).
    { destruct (lp s g); try (split; [assumption|intros ? ? ? X; discriminate X]). destruct (cid s c) eqn:EC.
      - destruct (bound s c) eqn:EB; cbn in H; [|discriminate]. split; [assumption|]. intros c' k' ct' X _. inversion X; subst. assumption.
      - split; [assumption|]. intros c' k' ct' X Y. inversion X; subst. congruence. }
    clear H. destruct H' as [H GU]. unfold gstep in H.
    destruct (lp s g) as [|c i|c k ct|c k ct|c i k ct|c k ct|c ct|c ct|c ct|c ct|c todo ct|c todo ct|c f] eqn:L; try discriminate; cbn [pok] in P.
    + (* bind *)
      pose proof (binder_unbound s g c i I) as UB. rewrite L in UB. specialize (UB eq_refl).
      unfold kpc in K. rewrite L in K. cbn in K.
      destruct (id2 s i) as [v|] eqn:E.
      * destruct (N.eqb_spec v c) as [->|NE]; [exfalso; destruct (i_id s I i c E); congruence|]. inversion H; subst s'; clear H.
        destruct (i_id s I i v E) as [V1 V2].
        assert (NI : ~ In v (kl s g)). { intro HI. destruct K as [_ K]. destruct (K v HI) as (X & _). rewrite (found_open s i v I R E) in X. discriminate. }
        split; cbn.
        -- intros j d A B. destruct (R1 j d A B) as (x & k & ct & X). exists x, k, ct. cbn. rewrite upd_neq; [assumption|].
           intros ->. destruct X as [X|X]; rewrite X in L; discriminate.
        -- assumption.
        -- intros x d k ct j X. destruct (N.eq_dec x g) as [->|NX]; [rewrite upd_eq in X; discriminate|]. rewrite upd_neq in X by assumption. eapply R3. eassumption.
        -- intros x d j k ct X. destruct (N.eq_dec x g) as [->|NX]; [rewrite upd_eq in X; discriminate|]. rewrite upd_neq in X by assumption. eapply R3'. eassumption.
        -- assumption.
        -- intro x. destruct (N.eq_dec x g) as [->|NX].
           ++ unfold kpc. cbn. rewrite !upd_eq. cbn. exists (kl s g). repeat split; try assumption; apply K; assumption.
           ++ apply (kpc_other s); [mono_tac|cbn; apply upd_neq; assumption|cbn; apply upd_neq; assumption|apply R5].
        -- intro x. destruct (N.eq_dec x g) as [->|NX]; [rewrite upd_eq; constructor; [assumption|apply R6]|rewrite upd_neq by assumption; apply R6].
      * inversion H; subst s'; clear H.
        assert (UN : untr s c = false) by (apply R4; [congruence|assumption]).
        split; cbn.
        -- intros j d A B. unfold upd in A. destruct (N.eqb_spec j i) as [->|]; [inversion A; subst; congruence|].
           destruct (R1 j d A B) as (x & k & ct & X). exists x, k, ct. cbn. rewrite upd_neq; [assumption|].
           intros ->. destruct X as [X|X]; rewrite X in L; discriminate.
        -- intros j d A B C. destruct (N.eq_dec d c) as [E0|ND].
           ++ rewrite E0 in *. rewrite P in B. inversion B; subst j. rewrite upd_eq. reflexivity.
           ++ rewrite upd_neq in A by assumption. pose proof (R2 j d A B C) as X. unfold upd. destruct (N.eqb_spec j i) as [->|]; [congruence|assumption].
        -- intros x d k ct j X Y. destruct (N.eq_dec x g) as [->|NX]; [rewrite upd_eq in X; discriminate|]. rewrite upd_neq in X by assumption.
           pose proof (R3 x d k ct j X Y) as Z. unfold upd. destruct (N.eqb_spec j i) as [->|]; [congruence|assumption].
        -- intros x d j k ct X. destruct (N.eq_dec x g) as [->|NX]; [rewrite upd_eq in X; discriminate|]. rewrite upd_neq in X by assumption.
           pose proof (R3' x d j k ct X) as Z. unfold upd. destruct (N.eqb_spec j i) as [->|]; [congruence|assumption].
        -- intros d A B. unfold upd in B. destruct (d =? c); [discriminate|]. apply R4; assumption.
        -- intro x. destruct (N.eq_dec x g) as [->|NX].
           ++ unfold kpc. cbn. rewrite !upd_eq. exact Logic.I.
           ++ apply (kpc_other s); [mono_tac|cbn; apply upd_neq; assumption|reflexivity|apply R5].
        -- assumption.
    + (* cas *)
      specialize (GU c k ct eq_refl). destruct (untr s c) eqn:U.
      * inversion H; subst s'; clear H. eapply (rinv_frame s _ g); [assumption|assumption|apply mono_setp|reflexivity..|rewrite L; reflexivity|reflexivity|].
        apply (kpc_same s); [apply mono_setp|cbn; rewrite upd_eq, L; reflexivity..|reflexivity|assumption].
      * inversion H; subst s'; clear H. split; cbn.
        -- intros j d A B. unfold upd in B. destruct (N.eqb_spec d c) as [->|ND].
           ++ exists g, k, ct. cbn. left. apply upd_eq.
           ++ destruct (R1 j d A B) as (x & k' & ct' & X). exists x, k', ct'. cbn. rewrite upd_neq; [assumption|].
              intros ->. destruct X as [X|X]; rewrite X in L; discriminate.
        -- intros j d A B C. unfold upd in C. destruct (d =? c); [discriminate|]. apply R2; assumption.
        -- intros x d k' ct' j X Y. destruct (N.eq_dec x g) as [->|NX].
           ++ rewrite upd_eq in X. inversion X; subst. apply R2; [apply GU; congruence|assumption|assumption].
           ++ rewrite upd_neq in X by assumption. eapply R3; eassumption.
        -- intros x d j k' ct' X. destruct (N.eq_dec x g) as [->|NX]; [rewrite upd_eq in X; discriminate|]. rewrite upd_neq in X by assumption. eapply R3'. eassumption.
        -- intros d A B. destruct (N.eq_dec d c) as [E0|NE]; [rewrite E0 in *; rewrite GU in B by assumption; discriminate|]. rewrite upd_neq by assumption. apply R4; assumption.
        -- intro x. destruct (N.eq_dec x g) as [->|NX].
           ++ apply (kpc_same s); [mono_tac|cbn; rewrite upd_eq, L; reflexivity..|reflexivity|assumption].
           ++ apply (kpc_other s); [mono_tac|cbn; apply upd_neq; assumption|reflexivity|apply R5].
        -- assumption.
    + (* get id *)
      destruct P as [KK U]. destruct (cid s c) as [i|] eqn:E.
      * inversion H; subst s'; clear H. split; cbn.
        -- intros j d A B. destruct (R1 j d A B) as (x & k' & ct' & X). destruct (N.eq_dec x g) as [->|NX].
           ++ exists g, k, ct. cbn. rewrite upd_eq. right. rewrite L in X. destruct X as [X|X]; [|discriminate]. inversion X; subst.
              destruct (i_id s I j d A) as [Y _]. congruence.
           ++ exists x, k', ct'. cbn. rewrite upd_neq by assumption. assumption.
        -- assumption.
        -- intros x d k' ct' j X. destruct (N.eq_dec x g) as [->|NX]; [rewrite upd_eq in X; discriminate|]. rewrite upd_neq in X by assumption. eapply R3; eassumption.
        -- intros x d j k' ct' X. destruct (N.eq_dec x g) as [->|NX].
           ++ rewrite upd_eq in X. inversion X; subst. eapply R3; eassumption.
           ++ rewrite upd_neq in X by assumption. eapply R3'. eassumption.
        -- assumption.
        -- intro x. destruct (N.eq_dec x g) as [->|NX].
           ++ apply (kpc_same s); [mono_tac|cbn; rewrite upd_eq, L; reflexivity..|reflexivity|assumption].
           ++ apply (kpc_other s); [mono_tac|cbn; apply upd_neq; assumption|reflexivity|apply R5].
        -- assumption.
      * inversion H; subst s'; clear H. split; cbn.
        -- intros j d A B. destruct (R1 j d A B) as (x & k' & ct' & X). destruct (N.eq_dec x g) as [->|NX].
           ++ exfalso. rewrite L in X. destruct X as [X|X]; [|discriminate]. inversion X; subst.
              destruct (i_id s I j d A) as [Y _]. congruence.
           ++ exists x, k', ct'. cbn. rewrite upd_neq by assumption. assumption.
        -- assumption.
        -- intros x d k' ct' j X. destruct (N.eq_dec x g) as [->|NX]; [rewrite upd_eq in X; discriminate|]. rewrite upd_neq in X by assumption. eapply R3; eassumption.
        -- intros x d j k' ct' X. destruct (N.eq_dec x g) as [->|NX]; [rewrite upd_eq in X; discriminate|]. rewrite upd_neq in X by assumption. eapply R3'. eassumption.
        -- assumption.
        -- intro x. destruct (N.eq_dec x g) as [->|NX].
           ++ apply (kpc_same s); [mono_tac|cbn; rewrite upd_eq, L; reflexivity..|reflexivity|assumption].
           ++ apply (kpc_other s); [mono_tac|cbn; apply upd_neq; assumption|reflexivity|apply R5].
        -- assumption.
    + (* delete id *)
      destruct P as (KK & U & EC). pose proof (R3' g c i k ct L) as E. assert (W : wU c (lp s g) = 1%nat) by (rewrite L; cbn; apply is_refl).
      inversion H; subst s'; clear H. split; cbn.
      * intros j d A B. unfold upd in A. destruct (N.eqb_spec j i) as [->|NJ]; [discriminate|].
        destruct (R1 j d A B) as (x & k' & ct' & X). exists x, k', ct'. cbn. rewrite upd_neq; [assumption|].
        intros ->. rewrite L in X. destruct X as [X|X]; [discriminate|]. inversion X; subst. congruence.
      * intros j d A B C. pose proof (R2 j d A B C) as X. unfold upd. destruct (N.eqb_spec j i) as [->|]; [congruence|assumption].
      * intros x d k' ct' j X Y. destruct (N.eq_dec x g) as [->|NX]; [rewrite upd_eq in X; discriminate|]. rewrite upd_neq in X by assumption.
        pose proof (R3 x d k' ct' j X Y) as Z. unfold upd. destruct (N.eqb_spec j i) as [->|]; [|assumption]. exfalso. apply NX.
        rewrite E in Z. inversion Z; subst d. apply (untracker_unique s x g c I); [rewrite X; cbn; apply is_refl|assumption].
      * intros x d j k' ct' X. destruct (N.eq_dec x g) as [->|NX]; [rewrite upd_eq in X; discriminate|]. rewrite upd_neq in X by assumption.
        pose proof (R3' x d j k' ct' X) as Z. unfold upd. destruct (N.eqb_spec j i) as [->|]; [|assumption]. exfalso. apply NX.
        rewrite E in Z. inversion Z; subst d. apply (untracker_unique s x g c I); [rewrite X; cbn; apply is_refl|assumption].
      * assumption.
      * intro x. destruct (N.eq_dec x g) as [->|NX].
        -- apply (kpc_same s); [mono_tac|cbn; rewrite upd_eq, L; reflexivity..|reflexivity|assumption].
        -- apply (kpc_other s); [mono_tac|cbn; apply upd_neq; assumption|reflexivity|apply R5].
      * assumption.
    + inversion H; subst s'; clear H. eapply (rinv_frame s _ g); [assumption|assumption|mono_tac|reflexivity..|rewrite L; reflexivity|destruct k; reflexivity|].
      apply (kpc_same s); [mono_tac|cbn; rewrite upd_eq, L; destruct k; reflexivity..|reflexivity|assumption].
    + inversion H; subst s'; clear H. eapply (rinv_frame s _ g); [assumption|assumption|mono_tac|reflexivity..|rewrite L; reflexivity|reflexivity|].
      apply (kpc_same s); [mono_tac|cbn; rewrite upd_eq, L; reflexivity..|reflexivity|assumption].
    + inversion H; subst s'; clear H. eapply (rinv_frame s _ g); [assumption|assumption|mono_tac|reflexivity..|rewrite L; reflexivity|reflexivity|].
      apply (kpc_same s); [mono_tac|cbn; rewrite upd_eq, L; reflexivity..|reflexivity|assumption].
    + destruct (utch s c); [|discriminate]. inversion H; subst s'; clear H. eapply (rinv_frame s _ g); [assumption|assumption|apply mono_setp|reflexivity..|rewrite L; reflexivity|reflexivity|].
      apply (kpc_same s); [mono_tac|cbn; rewrite upd_eq, L; reflexivity..|reflexivity|assumption].
    + destruct P as [KK U]. destruct (clsd s c); inversion H; subst s'; clear H.
      * eapply (rinv_frame s _ g); [assumption|assumption|apply mono_setp|reflexivity..|rewrite L; reflexivity|apply resume_deleter|].
        apply (kpc_resume s _ g c); [apply mono_setp|rewrite L; reflexivity|cbn; rewrite upd_eq, L; reflexivity|reflexivity|assumption|assumption].
      * eapply (rinv_frame s _ g); [assumption|assumption|mono_tac|reflexivity..|rewrite L; reflexivity|reflexivity|].
        apply (kpc_same s); [mono_tac|cbn; rewrite upd_eq, L; reflexivity..|reflexivity|assumption].
    + inversion H; subst s'; clear H. eapply (rinv_frame s _ g); [assumption|assumption|mono_tac|reflexivity..|rewrite L; reflexivity|reflexivity|].
      apply (kpc_same s); [mono_tac|cbn; rewrite upd_eq, L; reflexivity..|reflexivity|assumption].
    + destruct P as (KK & U & CL). destruct todo as [|f fs]; inversion H; subst s'; clear H.
      * eapply (rinv_frame s _ g); [assumption|assumption|apply mono_setp|reflexivity..|rewrite L; reflexivity|apply resume_deleter|].
        apply (kpc_resume s _ g c); [apply mono_setp|rewrite L; reflexivity|cbn; rewrite upd_eq, L; reflexivity|reflexivity|assumption|assumption].
      * eapply (rinv_frame s _ g); [assumption|assumption|mono_tac|reflexivity..|rewrite L; reflexivity|reflexivity|].
        apply (kpc_same s); [mono_tac|cbn; rewrite upd_eq, L; reflexivity..|reflexivity|assumption].
    + inversion H; subst s'; clear H. eapply (rinv_frame s _ g LIdle); [assumption|assumption|mono_tac|reflexivity..|rewrite L; reflexivity|reflexivity|].
      unfold kpc. cbn. rewrite upd_eq. exact Logic.I.
Qed.

Lemma rreach : forall s, reachable lstepR linit s -> ginv s /\ rinv s.
Proof.
  intros s R. refine (reachable_inv lstepR (fun s => ginv s /\ rinv s) _ _ _ s R).
  - split; [apply ginv_init|apply rinv_init].
  - intros a l b [A B] H. split; [eapply ginv_step; [eassumption|apply lstepR_lstep; eassumption]|eapply rinv_step; eassumption].
Qed.
