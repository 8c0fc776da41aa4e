(** C78: functions of the user that panic while a connection is closed or kicked. *)
From Coq Require Import ZifyBool ZifyNat ZifyN.
From Verif Require Import Model.GoBase Model.Machine Model.Lifecycle Model.Panics Proofs.LifecycleP.
Open Scope N_scope.

(** goroutine g is inside Close of connection c (and not inside SetID) *)
Definition closing (s : lst) (g c : N) : Prop :=
  exists p, lp s g = p /\ contOf p = CRet /\
  match p with
  | LCas d _ _ | LGetID d _ _ | LDelID d _ _ _ | LDelAct d _ _ | LKickCB d _ | LCloseCh d _ | LWaitCh d _ | LLock d _ | LCancel d _ _ | LNotify d _ _ => d = c
  | _ => False
  end.
(** no further panic *)
Definition calm (l : xlabel) : bool := match l with XL (LG _) => true | _ => false end.

(** The claim: the process goes on; a Close that was called can return; and once a connection is closed and no goroutine is
    calling its functions, all of them have been called; OnKickCB is called at most once for a connection. *)
Definition C78_statement : Prop :=
  forall guarded s, reachable (xstep guarded) xinit s ->
  crashed s = false /\
  (forall g c, closing (xl s) g c -> exists ls s', Forall (fun l => calm l = true) ls /\ run (xstep guarded) s ls = Some s' /\ lp (xl s') g = LIdle) /\
  (forall c, clsd (xl s) c = true -> (forall g f, wN c f (lp (xl s) g) = 0%nat) -> forall f, ran (xl s) c f = regs (xl s) c f) /\
  (forall c, (cbs (xl s) c <= 1)%nat).

(** Goroutine 2 (say, the one that reads frames) closes connection 1, on which function 9 was registered; 9 panics. *)
Theorem C78_refuted : ~ C78_statement.
Proof.
  intro H. destruct (run (xstep (fun _ => false)) xinit ([XL (LReg 1 1 9); XL (LClose 2 1)] ++ repeat (XL (LG 2)) 6 ++ [XPanic 2])) as [s|] eqn:E; [|vm_compute in E; discriminate].
  destruct (H (fun _ => false) s) as [C _]; [eexists; exact E|].
  enough (X : match run (xstep (fun _ => false)) xinit ([XL (LReg 1 1 9); XL (LClose 2 1)] ++ repeat (XL (LG 2)) 6 ++ [XPanic 2]) with Some s => crashed s = true | None => False end) by (rewrite E in X; congruence).
  vm_compute. reflexivity.
Qed.
Print Assumptions C78_refuted.

(** *** invariant *)
Definition pox (s : xst) (p : lpc) : Prop :=
  match p with
  | LWaitCh c _ => untr (xl s) c = true
  | LKickCB c _ | LCloseCh c _ => act (xl s) c = false
  | LLock c _ => utch (xl s) c = true
  | LCancel c _ _ => clsd (xl s) c = true
  | LNotify c _ _ => clsd (xl s) c = true /\ ctxd (xl s) c = true
  | LLate c _ => clsd (xl s) c = true
  | _ => True
  end.
Record xmono (s s' : xst) : Prop := {
  m_untr : forall c, untr (xl s) c = true -> untr (xl s') c = true;
  m_utch : forall c, utch (xl s) c = true -> utch (xl s') c = true;
  m_act : forall c, act (xl s) c = false -> act (xl s') c = false;
  m_clsd : forall c, clsd (xl s) c = true -> clsd (xl s') c = true;
  m_ctxd : forall c, ctxd (xl s) c = true -> ctxd (xl s') c = true }.
Lemma pox_mono : forall s s' p, xmono s s' -> pox s p -> pox s' p.
Proof. intros s s' p [A B C D E] H. destruct p; cbn in *; intuition. Qed.

Record XInv (s : xst) : Prop := {
  x_p : forall g, pox s (lp (xl s) g);
  x_zom : forall c, zom s c = true -> act (xl s) c = false;
  x_cl : forall c, clsd (xl s) c = true -> utch (xl s) c = true /\ nfy (xl s) c = [];
  x_ctx : forall c, ctxd (xl s) c = true -> clsd (xl s) c = true;
  x_sum : exists G, covers G (lp (xl s)) /\ forall c,
    (gsum G (fun g => wU c (lp (xl s) g)) + b2n (utch (xl s) c) + b2n (zom s c) = b2n (untr (xl s) c))%nat /\
    forall f, regs (xl s) c f = (ran (xl s) c f + dropped s c f + occ (nfy (xl s) c) f + gsum G (fun g => wN c f (lp (xl s) g)))%nat;
}.

Lemma xinv_init : XInv xinit.
Proof.
  split; cbn; intros; try discriminate; auto. exists []. split; [split; [constructor|auto]|]. intro c. split; reflexivity.
Qed.

Lemma x_make : forall s s' g p, XInv s -> lp (xl s') = upd (lp (xl s)) g p -> xmono s s' -> pox s' p ->
  (forall c, zom s' c = true -> act (xl s') c = false) ->
  (forall c, clsd (xl s') c = true -> utch (xl s') c = true /\ nfy (xl s') c = []) ->
  (forall c, ctxd (xl s') c = true -> clsd (xl s') c = true) ->
  (forall c,
     (wU c (lp (xl s) g) + b2n (utch (xl s) c) + b2n (zom s c) <= b2n (untr (xl s) c) ->
      wU c p + b2n (utch (xl s') c) + b2n (zom s' c) + b2n (untr (xl s) c) = wU c (lp (xl s) g) + b2n (utch (xl s) c) + b2n (zom s c) + b2n (untr (xl s') c))%nat /\
     (forall f, regs (xl s') c f + (ran (xl s) c f + dropped s c f + occ (nfy (xl s) c) f + wN c f (lp (xl s) g)) =
        regs (xl s) c f + (ran (xl s') c f + dropped s' c f + occ (nfy (xl s') c) f + wN c f p))%nat) ->
  XInv s'.
Proof.
  intros s s' g p I HL M HP H1 H2 H3 HS. split; try assumption.
  - intro x. rewrite HL. destruct (N.eq_dec x g) as [->|NE]; [rewrite upd_eq; assumption|]. rewrite upd_neq by assumption.
    eapply pox_mono; [eassumption|apply (x_p s I)].
  - destruct (x_sum s I) as (G & C & S). destruct (covers_upd G (lp (xl s)) g p C) as (G' & C' & E). exists G'. rewrite HL. split; [assumption|].
    intro c. destruct (HS c) as (A1 & A2). destruct (S c) as (S1 & S2). pose proof (E (wU c) eq_refl) as E1. cbn beta in E1.
    assert (L : (wU c (lp (xl s) g) <= gsum G (fun g => wU c (lp (xl s) g)))%nat).
    { destruct (in_dec N.eq_dec g G) as [HI|HI]; [apply (gsum_in G (fun g => wU c (lp (xl s) g)) g HI)|]. destruct C as [_ C]. rewrite (C g HI). cbn. lia. }
    split; [lia|]. intro f. specialize (A2 f). specialize (S2 f). pose proof (E (wN c f) eq_refl) as E4. cbn beta in E4. lia.
Qed.

(** who untracks a connection *)
Lemma x_owner : forall s g c, XInv s -> wU c (lp (xl s) g) = 1%nat -> utch (xl s) c = false /\ untr (xl s) c = true /\ zom s c = false.
Proof.
  intros s g c I W. destruct (x_sum s I) as (G & C & S). destruct (S c) as [S1 _].
  assert (HI : In g G). { destruct (in_dec N.eq_dec g G) as [HI|HI]; [assumption|]. destruct C as [_ C]. rewrite (C g HI) in W. discriminate. }
  pose proof (gsum_in G (fun g => wU c (lp (xl s) g)) g HI) as L. cbn in L. unfold b2n in S1. destruct (utch (xl s) c), (untr (xl s) c), (zom s c); auto; lia.
Qed.
Lemma x_exists : forall s c, XInv s -> untr (xl s) c = true -> utch (xl s) c = false -> zom s c = false -> exists g, wU c (lp (xl s) g) = 1%nat.
Proof.
  intros s c I A B C0. destruct (x_sum s I) as (G & C & S). destruct (S c) as [S1 _]. rewrite A, B, C0 in S1. cbn in S1.
  destruct (gsum_pos G (fun g => wU c (lp (xl s) g))) as (g & _ & W); [lia|]. exists g. cbn in W.
  destruct (lp (xl s) g); cbn in *; try lia; unfold is in *; destruct (_ =? c); lia.
Qed.

Ltac mon := split; cbn; auto; intros; unfold upd in *; repeat match goal with |- context [N.eqb ?a ?b] => destruct (N.eqb_spec a b); subst end; auto; try congruence.
Ltac sums L := let c' := fresh "c'" in intro c'; cbn; rewrite ?L; cbn; split;
  [unfold upd, is; cbn; try match goal with |- context [N.eqb ?a c'] => destruct (N.eqb_spec a c'); subst end; rewrite ?N.eqb_refl;
   try (match goal with H : c' <> ?a |- _ => rewrite (proj2 (N.eqb_neq _ _) H) end); try lia|
   intro f'; try lia].

Lemma gx_inv : forall s g l' cr, XInv s -> gstep (xl s) g = Some l' -> XInv (mkX l' cr (zom s) (dropped s)).
Proof.
  intros s g l' cr I H. pose proof (x_p s I g) as HP. pose proof I as I0. destruct I0 as [IP IZ IC IX IS].
  unfold gstep in H. destruct (lp (xl s) g) as [|c i|c k ct|c k ct|c i k ct|c k ct|c ct|c ct|c ct|c ct|c todo ct|c todo ct|c f] eqn:L; try discriminate; cbn [pox] in HP.
  - destruct (id2 (xl s) i) as [v|] eqn:E.
    + destruct (N.eqb_spec v c) as [->|NE]; inversion H; subst l'; clear H;
        (eapply (x_make s _ g); [exact I|reflexivity|split; cbn; auto|exact Logic.I|cbn; assumption..|]); intro c'; cbn; rewrite L; cbn; split; [lia| |lia|]; intro; lia.
    + inversion H; subst l'; clear H. (eapply (x_make s _ g); [exact I|reflexivity|split; cbn; auto|exact Logic.I|cbn; assumption..|]); intro c'; cbn; rewrite L; cbn; split; [lia|]; intro; lia.
  - destruct (untr (xl s) c) eqn:U; inversion H; subst l'; clear H.
    + eapply (x_make s _ g); [exact I|reflexivity|split; cbn; auto|exact U|cbn; assumption..|]. intro c'. cbn. rewrite L. cbn. split; [lia|]. intro; lia.
    + eapply (x_make s _ g); [exact I|reflexivity|mon|exact Logic.I|cbn; assumption..|]. intro c'. cbn. rewrite L. cbn. split; [|intro; lia].
      unfold upd, is. rewrite (N.eqb_sym c' c). destruct (N.eqb_spec c c') as [->|]; cbn; [rewrite U; cbn|]; lia.
  - destruct (cid (xl s) c); inversion H; subst l'; clear H;
      (eapply (x_make s _ g); [exact I|reflexivity|split; cbn; auto|exact Logic.I|cbn; assumption..|]); intro c'; cbn; rewrite L; cbn; (split; [lia|]; intro; lia).
  - inversion H; subst l'; clear H. eapply (x_make s _ g); [exact I|reflexivity|split; cbn; auto|exact Logic.I|cbn; assumption..|]. intro c'. cbn. rewrite L. cbn. split; [lia|]. intro; lia.
  - inversion H; subst l'; clear H. eapply (x_make s _ g); [exact I|reflexivity|mon| | |cbn; assumption..|].
    + destruct k; cbn; apply upd_eq.
    + cbn. intros c' Z. unfold upd. destruct (c' =? c); auto.
    + intro c'. cbn. rewrite L. destruct k; cbn; (split; [lia|]; intro; lia).
  - inversion H; subst l'; clear H. eapply (x_make s _ g); [exact I|reflexivity|split; cbn; auto|exact HP|cbn; assumption..|]. intro c'. cbn. rewrite L. cbn. split; [lia|]. intro; lia.
  - inversion H; subst l'; clear H. eapply (x_make s _ g); [exact I|reflexivity|mon|cbn; apply upd_eq|cbn; try assumption..|].
    + intros c' Z. destruct (IC c' Z) as [A B]. split; [|assumption]. unfold upd. destruct (c' =? c); auto.
    + intro c'. cbn. rewrite L. cbn. split; [|intro; lia]. unfold upd, is. rewrite (N.eqb_sym c' c). destruct (N.eqb_spec c c') as [->|]; cbn; [|lia].
      unfold b2n. destruct (utch (xl s) c'), (untr (xl s) c'), (zom s c'); lia.
  - destruct (utch (xl s) c) eqn:U; inversion H; subst l'; clear H. eapply (x_make s _ g); [exact I|reflexivity|split; cbn; auto|exact U|cbn; assumption..|]. intro c'. cbn. rewrite L. cbn. split; [lia|]. intro; lia.
  - destruct (clsd (xl s) c) eqn:U; inversion H; subst l'; clear H.
    + eapply (x_make s _ g); [exact I|reflexivity|split; cbn; auto|destruct ct; exact Logic.I|cbn; assumption..|]. intro c'. cbn. rewrite L. destruct ct; cbn; (split; [lia|]; intro; lia).
    + eapply (x_make s _ g); [exact I|reflexivity|mon|cbn; apply upd_eq|cbn; try assumption..|].
      * intros c' Z. unfold upd in Z |- *. destruct (N.eqb_spec c' c) as [E0|NE]; [subst c'; split; [exact HP|reflexivity]|apply IC; assumption].
      * intros c' Z. unfold upd. destruct (c' =? c); [reflexivity|apply IX; assumption].
      * intro c'. cbn. rewrite L. cbn. split; [lia|]. intro f'. unfold upd. rewrite (N.eqb_sym c' c). destruct (N.eqb_spec c c') as [->|]; [rewrite occ_nil|]; lia.
  - inversion H; subst l'; clear H. eapply (x_make s _ g); [exact I|reflexivity|mon|cbn; rewrite upd_eq; auto|cbn; try assumption..|].
    + intros c' Z. unfold upd in Z. destruct (N.eqb_spec c' c) as [E0|NE]; [subst c'; assumption|apply IX; assumption].
    + intro c'. cbn. rewrite L. cbn. split; [lia|]. intro; lia.
  - destruct todo as [|f fs]; inversion H; subst l'; clear H.
    + eapply (x_make s _ g); [exact I|reflexivity|split; cbn; auto|destruct ct; exact Logic.I|cbn; assumption..|]. intro c'. cbn. rewrite L. destruct ct; cbn; (split; [lia|]; intro; rewrite ?occ_nil; destruct (c =? c'); lia).
    + eapply (x_make s _ g); [exact I|reflexivity|split; cbn; auto|exact HP|cbn; assumption..|]. intro c'. cbn. rewrite L. cbn. split; [lia|]. intro f'. rewrite call_get, occ_cons. destruct (c =? c'); lia.
  - inversion H; subst l'; clear H. eapply (x_make s _ g); [exact I|reflexivity|split; cbn; auto|exact Logic.I|cbn; assumption..|]. intro c'. cbn. rewrite L. cbn. split; [lia|]. intro f'. rewrite call_get. destruct (c =? c'); lia.
Qed.

Lemma x_step : forall guarded s l s', XInv s -> xstep guarded s l = Some s' -> XInv s'.
Proof.
  intros guarded s l s' I H. unfold xstep in H. destruct (crashed s); [discriminate|]. destruct l as [l|g].
  - destruct (lstep (xl s) l) as [l'|] eqn:E; [|discriminate]. injection H as <-. pose proof I as I0. destruct I0 as [IP IZ IC IX IS].
    destruct l as [g c i|g c|g c f|g]; cbn [lstep] in E; [| | |eapply gx_inv; eassumption].
    + destruct (lp (xl s) g) eqn:L; try discriminate. destruct (cid (xl s) c); inversion E; subst l'; clear E.
      * split; assumption.
      * eapply (x_make s _ g); [exact I|reflexivity|split; cbn; auto|exact Logic.I|cbn; assumption..|]. intro c'. cbn. rewrite L. cbn. split; [lia|]. intro; lia.
    + destruct (lp (xl s) g) eqn:L; try discriminate. inversion E; subst l'; clear E.
      eapply (x_make s _ g); [exact I|reflexivity|split; cbn; auto|exact Logic.I|cbn; assumption..|]. intro c'. cbn. rewrite L. cbn. split; [lia|]. intro; lia.
    + destruct (lp (xl s) g) eqn:L; try discriminate. destruct (clsd (xl s) c) eqn:U; inversion E; subst l'; clear E.
      * eapply (x_make s _ g); [exact I|reflexivity|split; cbn; auto|exact U|cbn; assumption..|]. intro c'. cbn. rewrite L. cbn. split; [lia|]. intro f'. rewrite call_get. destruct (c =? c'); lia.
      * destruct IS as (G & C & S). split; cbn; try assumption.
        -- intros c' Z. destruct (IC c' Z) as [A B]. split; [assumption|]. unfold upd. destruct (N.eqb_spec c' c) as [E0|NE]; [subst c'; congruence|assumption].
        -- exists G. split; [assumption|]. intro c'. destruct (S c') as [S1 S2]. split; [assumption|]. intro f'. specialize (S2 f'). rewrite call_get. unfold upd. rewrite (N.eqb_sym c' c).
           destruct (N.eqb_spec c c') as [->|]; [rewrite occ_app, occ_cons, occ_nil|]; lia.
  - destruct (thrown s g) as [t|] eqn:E; [|discriminate]. injection H as <-. pose proof (x_p s I g) as HP. pose proof I as I0. destruct I0 as [IP IZ IC IX IS].
    unfold thrown in E. destruct (lp (xl s) g) as [|c i|c k ct|c k ct|c i k ct|c k ct|c ct|c ct|c ct|c ct|c todo ct|c todo ct|c f] eqn:L; try discriminate; cbn [pox] in HP.
    + inversion E; subst t; clear E. eapply (x_make s _ g); [exact I|reflexivity|split; cbn; auto|exact Logic.I|cbn; try assumption..|].
      * intros c' Z. unfold upd in Z. destruct (N.eqb_spec c' c) as [E0|NE]; [subst c'; assumption|apply IZ; assumption].
      * intro c'. cbn. rewrite L. cbn. split; [|intro; lia]. unfold upd, is. rewrite (N.eqb_sym c' c). destruct (N.eqb_spec c c') as [->|]; cbn; [|lia].
        unfold b2n. destruct (utch (xl s) c'), (untr (xl s) c'), (zom s c'); lia.
    + destruct todo as [|f fs]; [discriminate|]. inversion E; subst t; clear E. eapply (x_make s _ g); [exact I|reflexivity|split; cbn; auto|exact Logic.I|cbn; assumption..|].
      intro c'. cbn. rewrite L. cbn. split; [lia|]. intro f'. rewrite call_get, occ_cons. unfold drop, upd. rewrite (N.eqb_sym c' c). destruct (N.eqb_spec c c') as [->|]; fold (occ fs f'); lia.
    + inversion E; subst t; clear E. eapply (x_make s _ g); [exact I|reflexivity|split; cbn; auto|exact Logic.I|cbn; assumption..|].
      intro c'. cbn. rewrite L. cbn. split; [lia|]. intro f'. rewrite call_get. destruct (c =? c'); lia.
Qed.
Lemma xreach : forall guarded s, reachable (xstep guarded) xinit s -> XInv s.
Proof. intros guarded s R. exact (reachable_inv (xstep guarded) XInv _ xinv_init (x_step guarded) s R). Qed.

(** *** theorems *)

(** A panic in a goroutine that runs a handler does not end the process. *)
Theorem C78_handlers_contained_partial :
  forall guarded ls s, run (xstep guarded) xinit ls = Some s -> (forall g, In (XPanic g) ls -> guarded g = true) -> crashed s = false.
Proof.
  intros guarded ls. induction ls as [|l ls IH] using rev_ind; intros s E H.
  - injection E as <-. reflexivity.
  - rewrite run_app in E. destruct (run (xstep guarded) xinit ls) as [s0|] eqn:E0; [|discriminate]. cbn in E.
    destruct (xstep guarded s0 l) as [s1|] eqn:E1; [|discriminate]. injection E as <-. unfold xstep in E1. destruct (crashed s0); [discriminate|]. destruct l as [l|g].
    + destruct (lstep (xl s0) l); [|discriminate]. injection E1 as <-. reflexivity.
    + destruct (thrown s0 g); [|discriminate]. injection E1 as <-. cbn. rewrite H; [reflexivity|]. apply in_elt.
Qed.
Print Assumptions C78_handlers_contained_partial.

Lemma lift : forall guarded ls s l', crashed s = false -> run lstep (xl s) ls = Some l' ->
  run (xstep guarded) s (map XL ls) = Some (mkX l' false (zom s) (dropped s)).
Proof.
  intros guarded. induction ls as [|l ls IH]; intros s l' HC E.
  - injection E as <-. cbn. destruct s; cbn in *; subst; reflexivity.
  - cbn [run] in E. destruct (lstep (xl s) l) as [l1|] eqn:E1; [|discriminate]. cbn [map run]. unfold xstep at 1. rewrite HC, E1. cbn [option_map].
    apply (IH (mkX l1 false (zom s) (dropped s))); [reflexivity|exact E].
Qed.
Lemma calm_map : forall g n, Forall (fun l => calm l = true) (map XL (repeat (LG g) n)).
Proof. intros. apply Forall_forall. intros l H. apply in_map_iff in H. destruct H as (y & <- & Y). apply repeat_spec in Y. subst. reflexivity. Qed.

(** the goroutine that untracks c gets to closing untrackedCh *)
Lemma drive : forall l g c, wU c (lp l g) = 1%nat -> exists n l', run lstep l (repeat (LG g) n) = Some l' /\ utch l' c = true /\ forall x, x <> g -> lp l' x = lp l x.
Proof.
  intros l g c W.
  assert (K4 : forall l ct, lp l g = LCloseCh c ct -> exists n l', run lstep l (repeat (LG g) n) = Some l' /\ utch l' c = true /\ forall x, x <> g -> lp l' x = lp l x).
  { intros l1 ct L. exists 1%nat. cbn [repeat run lstep]. unfold gstep. rewrite L. eexists. split; [reflexivity|]. cbn. rewrite upd_eq. split; [reflexivity|]. intros. apply upd_neq. assumption. }
  assert (step1 : forall l l1, lstep l (LG g) = Some l1 -> (forall x, x <> g -> lp l1 x = lp l x) ->
    (exists n l', run lstep l1 (repeat (LG g) n) = Some l' /\ utch l' c = true /\ forall x, x <> g -> lp l' x = lp l1 x) ->
    exists n l', run lstep l (repeat (LG g) n) = Some l' /\ utch l' c = true /\ forall x, x <> g -> lp l' x = lp l x).
  { intros l0 l1 E X (n & l' & R & A & B). exists (S n), l'. cbn [repeat run]. rewrite E. split; [exact R|]. split; [assumption|]. intros x NE. rewrite B, X; auto. }
  assert (K3 : forall l ct, lp l g = LKickCB c ct -> exists n l', run lstep l (repeat (LG g) n) = Some l' /\ utch l' c = true /\ forall x, x <> g -> lp l' x = lp l x).
  { intros l1 ct L. eapply step1; [cbn [lstep]; unfold gstep; rewrite L; reflexivity|intros; cbn; apply upd_neq; assumption|]. eapply K4. cbn. apply upd_eq. }
  assert (K2 : forall l k ct, lp l g = LDelAct c k ct -> exists n l', run lstep l (repeat (LG g) n) = Some l' /\ utch l' c = true /\ forall x, x <> g -> lp l' x = lp l x).
  { intros l1 k ct L. eapply step1; [cbn [lstep]; unfold gstep; rewrite L; reflexivity|intros; cbn; apply upd_neq; assumption|]. destruct k; [eapply K3|eapply K4]; cbn; apply upd_eq. }
  assert (K1 : forall l i k ct, lp l g = LDelID c i k ct -> exists n l', run lstep l (repeat (LG g) n) = Some l' /\ utch l' c = true /\ forall x, x <> g -> lp l' x = lp l x).
  { intros l1 i k ct L. eapply step1; [cbn [lstep]; unfold gstep; rewrite L; reflexivity|intros; cbn; apply upd_neq; assumption|]. eapply K2. cbn. apply upd_eq. }
  destruct (lp l g) as [|d i|d k ct|d k ct|d i k ct|d k ct|d ct|d ct|d ct|d ct|d todo ct|d todo ct|d f] eqn:L; cbn in W; try discriminate;
    unfold is in W; destruct (N.eqb_spec d c) as [->|]; try discriminate; eauto.
  destruct (cid l c) as [i|] eqn:EI.
  - eapply step1; [cbn [lstep]; unfold gstep; rewrite L, EI; reflexivity|intros; cbn; apply upd_neq; assumption|]. eapply K1. cbn. apply upd_eq.
  - eapply step1; [cbn [lstep]; unfold gstep; rewrite L, EI; reflexivity|intros; cbn; apply upd_neq; assumption|]. eapply K2. cbn. apply upd_eq.
Qed.

(** closeUntracked returns *)
Lemma finish : forall l g c, lp l g = LLock c CRet \/ (exists todo, lp l g = LCancel c todo CRet \/ lp l g = LNotify c todo CRet) ->
  exists n l', run lstep l (repeat (LG g) n) = Some l' /\ lp l' g = LIdle.
Proof.
  assert (N : forall todo l g c, lp l g = LNotify c todo CRet -> exists n l', run lstep l (repeat (LG g) n) = Some l' /\ lp l' g = LIdle).
  { induction todo as [|f fs IH]; intros l g c L.
    - exists 1%nat. cbn [repeat run lstep]. unfold gstep. rewrite L. eexists. split; [reflexivity|]. cbn. apply upd_eq.
    - assert (E : exists l1, lstep l (LG g) = Some l1 /\ lp l1 g = LNotify c fs CRet) by (cbn [lstep]; unfold gstep; rewrite L; eexists; split; [reflexivity|]; cbn; apply upd_eq).
      destruct E as (l1 & E1 & E2). destruct (IH l1 g c E2) as (n & l' & R & A). exists (S n), l'. cbn [repeat run]. rewrite E1. auto. }
  assert (C : forall todo l g c, lp l g = LCancel c todo CRet -> exists n l', run lstep l (repeat (LG g) n) = Some l' /\ lp l' g = LIdle).
  { intros todo l g c L.
    assert (E : exists l1, lstep l (LG g) = Some l1 /\ lp l1 g = LNotify c todo CRet) by (cbn [lstep]; unfold gstep; rewrite L; eexists; split; [reflexivity|]; cbn; apply upd_eq).
    destruct E as (l1 & E1 & E2). destruct (N todo l1 g c E2) as (n & l' & R & A). exists (S n), l'. cbn [repeat run]. rewrite E1. auto. }
  intros l g c [L|(todo & [L|L])]; [|eapply C; eassumption|eapply N; eassumption].
  destruct (clsd l c) eqn:U.
  - exists 1%nat. cbn [repeat run lstep]. unfold gstep. rewrite L, U. eexists. split; [reflexivity|]. cbn. apply upd_eq.
  - assert (E : exists l1 todo, lstep l (LG g) = Some l1 /\ lp l1 g = LCancel c todo CRet) by (cbn [lstep]; unfold gstep; rewrite L, U; do 2 eexists; split; [reflexivity|]; cbn; apply upd_eq).
    destruct E as (l1 & todo & E1 & E2). destruct (C todo l1 g c E2) as (n & l' & R & A). exists (S n), l'. cbn [repeat run]. rewrite E1. auto.
Qed.

(** Whatever panics, Close can return for every connection but those whose OnKickCB panicked. *)
Theorem C78_close_returns_partial :
  forall guarded s g c, reachable (xstep guarded) xinit s -> crashed s = false -> closing (xl s) g c -> zom s c = false ->
  exists ls s', Forall (fun l => calm l = true) ls /\ run (xstep guarded) s ls = Some s' /\ lp (xl s') g = LIdle.
Proof.
  intros guarded s g c R HC CL HZ. pose proof (xreach guarded s R) as I.
  (* it is enough to find a run of the Lifecycle machine *)
  assert (LF : forall ls l', run lstep (xl s) ls = Some l' -> lp l' g = LIdle -> Forall (fun l => exists x, l = LG x) ls ->
     exists ls s', Forall (fun l => calm l = true) ls /\ run (xstep guarded) s ls = Some s' /\ lp (xl s') g = LIdle).
  { intros ls l' E L F. exists (map XL ls), (mkX l' false (zom s) (dropped s)). split; [|split; [apply lift; assumption|exact L]].
    apply Forall_forall. intros y Y. apply in_map_iff in Y. destruct Y as (z & <- & Z). rewrite Forall_forall in F. destruct (F z Z) as [w ->]. reflexivity. }
  assert (FR : forall x n, Forall (fun l => exists y, l = LG y) (repeat (LG x) n)) by (intros; apply Forall_forall; intros y Y; apply repeat_spec in Y; eauto).
  assert (LK : forall ls l1, run lstep (xl s) ls = Some l1 -> Forall (fun l => exists x, l = LG x) ls ->
     lp l1 g = LLock c CRet \/ (exists todo, lp l1 g = LCancel c todo CRet \/ lp l1 g = LNotify c todo CRet) ->
     exists ls s', Forall (fun l => calm l = true) ls /\ run (xstep guarded) s ls = Some s' /\ lp (xl s') g = LIdle).
  { intros ls l1 E F L. destruct (finish l1 g c L) as (n & l' & R2 & A). apply (LF (ls ++ repeat (LG g) n) l'); [rewrite run_app, E; exact R2|exact A|apply Forall_app; auto]. }
  assert (WT : forall ls l1, run lstep (xl s) ls = Some l1 -> Forall (fun l => exists x, l = LG x) ls -> lp l1 g = LWaitCh c CRet ->
     utch l1 c = true \/ (exists g', wU c (lp l1 g') = 1%nat) ->
     exists ls s', Forall (fun l => calm l = true) ls /\ run (xstep guarded) s ls = Some s' /\ lp (xl s') g = LIdle).
  { assert (W0 : forall ls l1, run lstep (xl s) ls = Some l1 -> Forall (fun l => exists x, l = LG x) ls -> lp l1 g = LWaitCh c CRet -> utch l1 c = true ->
      exists ls s', Forall (fun l => calm l = true) ls /\ run (xstep guarded) s ls = Some s' /\ lp (xl s') g = LIdle).
    { intros ls l1 E F L U. apply (LK (ls ++ [LG g]) (setp l1 g (LLock c CRet))).
      - rewrite run_app, E. cbn [run lstep]. unfold gstep. rewrite L, U. reflexivity.
      - apply Forall_app. split; [assumption|]. repeat constructor. eauto.
      - left. cbn. apply upd_eq. }
    intros ls l1 E F L [U|(g' & W)]; [eapply W0; eassumption|]. destruct (drive l1 g' c W) as (n & l2 & R2 & U2 & O).
    apply (W0 (ls ++ repeat (LG g') n) l2); [rewrite run_app, E; exact R2|apply Forall_app; auto| |exact U2].
    rewrite O; [assumption|]. intros ->. rewrite L in W. discriminate. }
  assert (UW : untr (xl s) c = true -> utch (xl s) c = true \/ exists g', wU c (lp (xl s) g') = 1%nat).
  { intro U. destruct (utch (xl s) c) eqn:E; [auto|right]. apply x_exists; assumption. }
  destruct CL as (p & L & CT & P). pose proof (x_p s I g) as PX. rewrite L in PX.
  assert (OWN : wU c p = 1%nat -> exists ls s', Forall (fun l => calm l = true) ls /\ run (xstep guarded) s ls = Some s' /\ lp (xl s') g = LIdle).
  { intro W.
    (* untrack by itself *)
    assert (K4 : forall ls l1, run lstep (xl s) ls = Some l1 -> Forall (fun l => exists x, l = LG x) ls -> lp l1 g = LCloseCh c CRet ->
      exists ls s', Forall (fun l => calm l = true) ls /\ run (xstep guarded) s ls = Some s' /\ lp (xl s') g = LIdle).
    { intros ls l1 E F L1. assert (X : exists l2, lstep l1 (LG g) = Some l2 /\ lp l2 g = LLock c CRet) by (cbn [lstep]; unfold gstep; rewrite L1; eexists; split; [reflexivity|]; cbn; apply upd_eq).
      destruct X as (l2 & X1 & X2). apply (LK (ls ++ [LG g]) l2); [rewrite run_app, E; cbn [run]; rewrite X1; reflexivity|apply Forall_app; split; [assumption|repeat constructor; eauto]|auto]. }
    assert (K3 : forall ls l1, run lstep (xl s) ls = Some l1 -> Forall (fun l => exists x, l = LG x) ls -> lp l1 g = LKickCB c CRet ->
      exists ls s', Forall (fun l => calm l = true) ls /\ run (xstep guarded) s ls = Some s' /\ lp (xl s') g = LIdle).
    { intros ls l1 E F L1. assert (X : exists l2, lstep l1 (LG g) = Some l2 /\ lp l2 g = LCloseCh c CRet) by (cbn [lstep]; unfold gstep; rewrite L1; eexists; split; [reflexivity|]; cbn; apply upd_eq).
      destruct X as (l2 & X1 & X2). apply (K4 (ls ++ [LG g]) l2); [rewrite run_app, E; cbn [run]; rewrite X1; reflexivity|apply Forall_app; split; [assumption|repeat constructor; eauto]|auto]. }
    assert (K2 : forall ls l1 k, run lstep (xl s) ls = Some l1 -> Forall (fun l => exists x, l = LG x) ls -> lp l1 g = LDelAct c k CRet ->
      exists ls s', Forall (fun l => calm l = true) ls /\ run (xstep guarded) s ls = Some s' /\ lp (xl s') g = LIdle).
    { intros ls l1 k E F L1. assert (X : exists l2, lstep l1 (LG g) = Some l2 /\ lp l2 g = (if k then LKickCB c CRet else LCloseCh c CRet)) by (cbn [lstep]; unfold gstep; rewrite L1; eexists; split; [reflexivity|]; cbn; apply upd_eq).
      destruct X as (l2 & X1 & X2). destruct k; [apply (K3 (ls ++ [LG g]) l2)|apply (K4 (ls ++ [LG g]) l2)];
      try (rewrite run_app, E; cbn [run]; rewrite X1; reflexivity); try (apply Forall_app; split; [assumption|repeat constructor; eauto]); assumption. }
    assert (K1 : forall ls l1 i k, run lstep (xl s) ls = Some l1 -> Forall (fun l => exists x, l = LG x) ls -> lp l1 g = LDelID c i k CRet ->
      exists ls s', Forall (fun l => calm l = true) ls /\ run (xstep guarded) s ls = Some s' /\ lp (xl s') g = LIdle).
    { intros ls l1 i k E F L1. assert (X : exists l2, lstep l1 (LG g) = Some l2 /\ lp l2 g = LDelAct c k CRet) by (cbn [lstep]; unfold gstep; rewrite L1; eexists; split; [reflexivity|]; cbn; apply upd_eq).
      destruct X as (l2 & X1 & X2). apply (K2 (ls ++ [LG g]) l2 k); [rewrite run_app, E; cbn [run]; rewrite X1; reflexivity|apply Forall_app; split; [assumption|repeat constructor; eauto]|auto]. }
    destruct p as [|d i|d k ct|d k ct|d i k ct|d k ct|d ct|d ct|d ct|d ct|d todo ct|d todo ct|d f]; cbn in W; try discriminate; cbn in P, CT; subst d ct;
      [|eapply (K1 []); eauto; reflexivity|eapply (K2 []); eauto; reflexivity|eapply (K3 []); eauto; reflexivity|eapply (K4 []); eauto; reflexivity].
    destruct (cid (xl s) c) as [i|] eqn:EI.
    - apply (K1 [LG g] (setp (xl s) g (LDelID c i k CRet)) i k); [cbn [run lstep]; unfold gstep; rewrite L, EI; reflexivity|repeat constructor; eauto|cbn; apply upd_eq].
    - apply (K2 [LG g] (setp (xl s) g (LDelAct c k CRet)) k); [cbn [run lstep]; unfold gstep; rewrite L, EI; reflexivity|repeat constructor; eauto|cbn; apply upd_eq]. }
  destruct p as [|d i|d k ct|d k ct|d i k ct|d k ct|d ct|d ct|d ct|d ct|d todo ct|d todo ct|d f]; cbn in P, CT; try contradiction; subst d ct;
    try (apply OWN; cbn; apply is_refl).
  - destruct (untr (xl s) c) eqn:U.
    + apply (WT [LG g] (setp (xl s) g (LWaitCh c CRet))); [cbn [run lstep]; unfold gstep; rewrite L, U; reflexivity|repeat constructor; eauto|cbn; apply upd_eq|].
      destruct (UW eq_refl) as [X|(g' & X)]; [left; exact X|right; exists g'; cbn]. rewrite upd_neq; [assumption|]. intros ->. rewrite L in X. discriminate.
    + clear OWN WT. assert (X : exists l1, lstep (xl s) (LG g) = Some l1 /\ lp l1 g = LGetID c k CRet) by (cbn [lstep]; unfold gstep; rewrite L, U; eexists; split; [reflexivity|]; cbn; apply upd_eq).
      destruct X as (l1 & X1 & X2). pose proof (drive l1 g c) as D. rewrite X2 in D. cbn in D. 
      assert (Y : exists ls l2, run lstep (xl s) ls = Some l2 /\ Forall (fun l => exists x, l = LG x) ls /\ lp l2 g = LLock c CRet).
      { assert (Z : exists l2, lstep l1 (LG g) = Some l2 /\ ((exists i, lp l2 g = LDelID c i k CRet) \/ lp l2 g = LDelAct c k CRet)).
        { cbn [lstep]; unfold gstep; rewrite X2. destruct (cid l1 c); eexists; (split; [reflexivity|]); cbn; rewrite upd_eq; eauto. }
        destruct Z as (l2 & Z1 & Z2).
        assert (V : exists ls l3, run lstep (xl s) ls = Some l3 /\ Forall (fun l => exists x, l = LG x) ls /\ lp l3 g = LDelAct c k CRet).
        { destruct Z2 as [(i & Z2)|Z2].
          - assert (T : exists l3, lstep l2 (LG g) = Some l3 /\ lp l3 g = LDelAct c k CRet) by (cbn [lstep]; unfold gstep; rewrite Z2; eexists; split; [reflexivity|]; cbn; apply upd_eq).
            destruct T as (l3 & T1 & T2). exists [LG g; LG g; LG g], l3. cbn [run]. rewrite X1, Z1, T1. split; [reflexivity|]. split; [repeat constructor; eauto|assumption].
          - exists [LG g; LG g], l2. cbn [run]. rewrite X1, Z1. split; [reflexivity|]. split; [repeat constructor; eauto|assumption]. }
        destruct V as (ls & l3 & V1 & V2 & V3).
        assert (T : exists l4, lstep l3 (LG g) = Some l4 /\ lp l4 g = (if k then LKickCB c CRet else LCloseCh c CRet)) by (cbn [lstep]; unfold gstep; rewrite V3; eexists; split; [reflexivity|]; cbn; apply upd_eq).
        destruct T as (l4 & T1 & T2).
        assert (Q : exists ls l5, run lstep (xl s) ls = Some l5 /\ Forall (fun l => exists x, l = LG x) ls /\ lp l5 g = LCloseCh c CRet).
        { destruct k.
          - assert (Q : exists l5, lstep l4 (LG g) = Some l5 /\ lp l5 g = LCloseCh c CRet) by (cbn [lstep]; unfold gstep; rewrite T2; eexists; split; [reflexivity|]; cbn; apply upd_eq).
            destruct Q as (l5 & Q1 & Q2). exists (ls ++ [LG g; LG g]), l5. rewrite run_app, V1. cbn [run]. rewrite T1, Q1. split; [reflexivity|]. split; [apply Forall_app; split; [assumption|repeat constructor; eauto]|assumption].
          - exists (ls ++ [LG g]), l4. rewrite run_app, V1. cbn [run]. rewrite T1. split; [reflexivity|]. split; [apply Forall_app; split; [assumption|repeat constructor; eauto]|assumption]. }
        destruct Q as (ls' & l5 & Q1 & Q2 & Q3).
        assert (W : exists l6, lstep l5 (LG g) = Some l6 /\ lp l6 g = LLock c CRet) by (cbn [lstep]; unfold gstep; rewrite Q3; eexists; split; [reflexivity|]; cbn; apply upd_eq).
        destruct W as (l6 & W1 & W2). exists (ls' ++ [LG g]), l6. rewrite run_app, Q1. cbn [run]. rewrite W1. split; [reflexivity|]. split; [apply Forall_app; split; [assumption|repeat constructor; eauto]|assumption]. }
      destruct Y as (ls & l2 & Y1 & Y2 & Y3). eapply LK; eauto.
  - apply (WT [] (xl s)); [reflexivity|constructor|assumption|]. apply UW. exact PX.
  - apply (LK [] (xl s)); [reflexivity|constructor|auto].
  - apply (LK [] (xl s)); [reflexivity|constructor|right; exists todo; auto].
  - apply (LK [] (xl s)); [reflexivity|constructor|right; exists todo; auto].
Qed.
Print Assumptions C78_close_returns_partial.

(** The functions registered on a connection are called at most as often as they were registered; once it is closed and no
    goroutine is calling its functions, each was called unless an earlier one panicked in the same Close. *)
Theorem C78_calls_partial :
  forall guarded s, reachable (xstep guarded) xinit s ->
  (forall c f, (ran (xl s) c f + dropped s c f <= regs (xl s) c f)%nat) /\
  (forall c, clsd (xl s) c = true -> (forall g f, wN c f (lp (xl s) g) = 0%nat) -> forall f, regs (xl s) c f = (ran (xl s) c f + dropped s c f)%nat) /\
  (forall l s', xstep guarded s (XL l) = Some s' -> dropped s' = dropped s) /\
  (forall g s' c, xstep guarded s (XPanic g) = Some s' -> (forall fs ct, lp (xl s) g <> LNotify c fs ct) -> dropped s' c = dropped s c).
Proof.
  intros guarded s R. pose proof (xreach guarded s R) as I. destruct (x_sum s I) as (G & C & S). split; [|split; [|split]].
  - intros c f. destruct (S c) as [_ S2]. rewrite S2. lia.
  - intros c HC O f. destruct (S c) as [_ S2]. rewrite S2. destruct (x_cl s I c HC) as [_ NF]. rewrite NF, occ_nil.
    assert (Z : gsum G (fun g => wN c f (lp (xl s) g)) = 0%nat).
    { destruct (gsum G (fun g => wN c f (lp (xl s) g))) eqn:Z; [reflexivity|]. destruct (gsum_pos G (fun g => wN c f (lp (xl s) g))) as (g & _ & W); [lia|]. cbn in W. rewrite O in W. lia. }
    lia.
  - intros l s' E. unfold xstep in E. destruct (crashed s); [discriminate|]. destruct (lstep (xl s) l); [|discriminate]. injection E as <-. reflexivity.
  - intros g s' c E H. unfold xstep in E. destruct (crashed s); [discriminate|]. unfold thrown in E. destruct (lp (xl s) g) eqn:L; try discriminate; cbn in E.
    + injection E as <-. reflexivity.
    + destruct todo as [|f fs]; [discriminate|]. injection E as <-. cbn. unfold drop. apply upd_neq. intro X. subst c0. eapply H. reflexivity.
    + injection E as <-. reflexivity.
Qed.
Print Assumptions C78_calls_partial.

(** OnKickCB is still called at most once for a connection, and exactly once if it panicked. *)
Definition wP (c : N) (p : lpc) : nat := match p with LGetID d _ _ | LDelID d _ _ _ | LDelAct d _ _ | LKickCB d _ => is d c | _ => 0%nat end.
Definition KInv (s : xst) : Prop := exists G, covers G (lp (xl s)) /\ forall c,
  (gsum G (fun g => wP c (lp (xl s) g)) + cbs (xl s) c <= b2n (untr (xl s) c))%nat /\ (b2n (zom s c) <= cbs (xl s) c)%nat.
Lemma k_make : forall s s' g p, KInv s -> lp (xl s') = upd (lp (xl s)) g p ->
  (forall c, (wP c p + cbs (xl s') c + b2n (untr (xl s) c) <= wP c (lp (xl s) g) + cbs (xl s) c + b2n (untr (xl s') c))%nat /\
             (b2n (zom s c) <= cbs (xl s) c -> b2n (zom s' c) <= cbs (xl s') c)%nat) -> KInv s'.
Proof.
  intros s s' g p (G & C & S) HL H. destruct (covers_upd G (lp (xl s)) g p C) as (G' & C' & E). exists G'. rewrite HL. split; [assumption|].
  intro c. destruct (H c) as [A B]. destruct (S c) as [S1 S2]. pose proof (E (wP c) eq_refl) as E1. cbn beta in E1. split; [lia|auto].
Qed.
Lemma k_step : forall guarded s l s', KInv s -> xstep guarded s l = Some s' -> KInv s'.
Proof.
  intros guarded s l s' I H. unfold xstep in H. destruct (crashed s); [discriminate|]. destruct l as [l|g].
  - destruct (lstep (xl s) l) as [l'|] eqn:E; [|discriminate]. injection H as <-. destruct l as [g c i|g c|g c f|g]; cbn [lstep] in E.
    + destruct (lp (xl s) g) eqn:L; try discriminate. destruct (cid (xl s) c); injection E as <-; [exact I|].
      eapply (k_make s _ g); [exact I|reflexivity|]. intro d. cbn. rewrite L. cbn. split; auto; lia.
    + destruct (lp (xl s) g) eqn:L; try discriminate. injection E as <-. eapply (k_make s _ g); [exact I|reflexivity|]. intro d. cbn. rewrite L. cbn. split; auto; lia.
    + destruct (lp (xl s) g) eqn:L; try discriminate. destruct (clsd (xl s) c); injection E as <-; [|exact I].
      eapply (k_make s _ g); [exact I|reflexivity|]. intro d. cbn. rewrite L. cbn. split; auto; lia.
    + unfold gstep in E. destruct (lp (xl s) g) as [|c i|c k ct|c k ct|c i k ct|c k ct|c ct|c ct|c ct|c ct|c todo ct|c todo ct|c f] eqn:L; try discriminate;
        repeat match type of E with
               | context [match id2 ?a ?b with _ => _ end] => destruct (id2 a b)
               | context [if ?v =? ?c then _ else _] => destruct (v =? c)
               | context [if untr ?a ?b then _ else _] => destruct (untr a b) eqn:U
               | context [if utch ?a ?b then _ else _] => destruct (utch a b)
               | context [if clsd ?a ?b then _ else _] => destruct (clsd a b)
               | context [match cid ?a ?b with _ => _ end] => destruct (cid a b)
               | context [match ?t with [] => _ | _ :: _ => _ end] => destruct t
               end; try discriminate; injection E as <-; (eapply (k_make s _ g); [exact I|reflexivity|]); intro d; cbn; rewrite L; cbn;
        try (destruct ct; cbn; split; auto; lia); try (split; auto; lia).
      * split; auto. unfold upd, is. rewrite (N.eqb_sym d c). destruct (N.eqb_spec c d) as [->|]; cbn; [rewrite U; cbn|]; lia.
      * destruct k; cbn; split; auto; lia.
      * unfold upd, is. rewrite (N.eqb_sym d c). destruct (N.eqb_spec c d) as [->|]; cbn; split; auto; lia.
  - destruct (thrown s g) as [t|] eqn:E; [|discriminate]. injection H as <-. unfold thrown in E.
    destruct (lp (xl s) g) as [|c i|c k ct|c k ct|c i k ct|c k ct|c ct|c ct|c ct|c ct|c todo ct|c todo ct|c f] eqn:L; try discriminate; [|destruct todo; [discriminate|]|];
      injection E as <-; (eapply (k_make s _ g); [exact I|reflexivity|]); intro d; cbn; rewrite L; cbn; try (split; auto; lia).
    unfold upd, is. rewrite (N.eqb_sym d c). destruct (N.eqb_spec c d) as [->|]; cbn; split; auto; lia.
Qed.
Theorem C78_kick_once_partial :
  forall guarded s c, reachable (xstep guarded) xinit s -> (cbs (xl s) c <= 1)%nat /\ (zom s c = true -> cbs (xl s) c = 1%nat).
Proof.
  intros guarded s c R.
  assert (K0 : KInv xinit) by (exists []; split; [split; [constructor|auto]|]; intro d; cbn; rewrite gsum_nil; split; lia).
  pose proof (reachable_inv (xstep guarded) KInv _ K0 (k_step guarded) s R) as (G & C & S). destruct (S c) as [S1 S2].
  unfold b2n in *. destruct (untr (xl s) c); (split; [lia|]); intro Z; rewrite Z in S2; lia.
Qed.
Print Assumptions C78_kick_once_partial.

(** After a panic of OnKickCB the kicked connection stays open for ever: it is not closed and its context is never cancelled,
    whatever is called, and no call of Close on it and no SetID that has to wait for it ever returns; the server does not find
    it any more. *)
Theorem C78_kick_panic_leaks :
  forall guarded s ls s' c, reachable (xstep guarded) xinit s -> zom s c = true -> run (xstep guarded) s ls = Some s' ->
  untr (xl s') c = true /\ clsd (xl s') c = false /\ ctxd (xl s') c = false /\ act (xl s') c = false /\
  (forall g ct, lp (xl s) g = LWaitCh c ct -> lp (xl s') g = LWaitCh c ct).
Proof.
  intros guarded s ls. revert s. induction ls as [|l ls IH]; intros s s' c R HZ E.
  - injection E as <-. pose proof (xreach guarded s R) as I. destruct (x_sum s I) as (G & C & S). destruct (S c) as [S1 _]. rewrite HZ in S1.
    assert (U : untr (xl s) c = true /\ utch (xl s) c = false) by (unfold b2n in S1; destruct (utch (xl s) c), (untr (xl s) c); auto; lia). destruct U as [U1 U2].
    assert (K : clsd (xl s) c = false). { destruct (clsd (xl s) c) eqn:K; [|reflexivity]. destruct (x_cl s I c K). congruence. }
    split; [assumption|]. split; [assumption|]. split.
    { destruct (ctxd (xl s) c) eqn:X; [|reflexivity]. apply (x_ctx s I) in X. congruence. }
    split; [apply (x_zom s I); assumption|auto].
  - cbn [run] in E. destruct (xstep guarded s l) as [s1|] eqn:E1; [|discriminate].
    assert (R1 : reachable (xstep guarded) xinit s1) by (eapply reachable_step; eassumption).
    pose proof (xreach guarded s R) as I. destruct (x_sum s I) as (G & C & S). destruct (S c) as [S1 _]. rewrite HZ in S1.
    assert (U2 : utch (xl s) c = false) by (unfold b2n in S1; destruct (utch (xl s) c), (untr (xl s) c); auto; lia).
    assert (X : zom s1 c = true /\ forall g ct, lp (xl s) g = LWaitCh c ct -> lp (xl s1) g = LWaitCh c ct).
    { unfold xstep in E1. destruct (crashed s); [discriminate|]. destruct l as [l|x].
      - destruct (lstep (xl s) l) as [l'|] eqn:EL; [|discriminate]. injection E1 as <-. cbn. split; [assumption|]. intros g ct L.
        destruct l as [y c0 i|y c0|y c0 f|y]; cbn [lstep] in EL.
        + destruct (lp (xl s) y) eqn:LY; try discriminate. destruct (cid (xl s) c0); injection EL as <-; [assumption|]. cbn. rewrite upd_neq; congruence.
        + destruct (lp (xl s) y) eqn:LY; try discriminate. injection EL as <-. cbn. rewrite upd_neq; congruence.
        + destruct (lp (xl s) y) eqn:LY; try discriminate. destruct (clsd (xl s) c0); injection EL as <-; cbn; [rewrite upd_neq; congruence|assumption].
        + assert (NE : g <> y). { intros ->. unfold gstep in EL. rewrite L, U2 in EL. discriminate. }
          unfold gstep in EL. destruct (lp (xl s) y); try discriminate; repeat match type of EL with context [match ?b with _ => _ end] => destruct b end; try discriminate;
          injection EL as <-; cbn; rewrite upd_neq; congruence.
      - destruct (thrown s x) as [t|] eqn:ET; [|discriminate]. injection E1 as <-. cbn. unfold thrown in ET.
        destruct (lp (xl s) x) as [|d i|d k ct|d k ct|d i k ct|d k ct|d ct|d ct|d ct|d ct|d todo ct|d todo ct|d f] eqn:LX; try discriminate; [|destruct todo; [discriminate|]|];
        injection ET as <-; cbn; (split; [unfold upd; try destruct (c =? d); auto|]); intros g ct' L; rewrite upd_neq; congruence. }
    destruct X as [Z1 Z2]. destruct (IH s1 s' c R1 Z1 E) as (A & B & D & F & K). repeat split; auto.
Qed.
Print Assumptions C78_kick_panic_leaks.

(** connection 1 has id 5; the SetID of connection 2 in a handler (goroutine 3) kicks it, OnKickCB panics; then somebody
    closes connection 1, and somebody connection 2, on which functions 8, 9 are registered and 8 panics *)
Example C78_case :
  match run (xstep (fun _ => true)) xinit
    ([XL (LSetID 1 1 5); XL (LG 1); XL (LReg 1 2 8); XL (LReg 1 2 9); XL (LSetID 3 2 5)] ++ repeat (XL (LG 3)) 5 ++ [XPanic 3; XL (LClose 4 1); XL (LG 4); XL (LClose 5 2)] ++
     repeat (XL (LG 5)) 7 ++ [XPanic 5]) with
  | Some s => crashed s = false /\ zom s 1 = true /\ lp (xl s) 4 = LWaitCh 1 CRet /\ cid (xl s) 2 = Some 5 /\ bound (xl s) 2 = false /\
      clsd (xl s) 2 = true /\ ctxd (xl s) 2 = true /\ ran (xl s) 2 8 = 1%nat /\ ran (xl s) 2 9 = 0%nat /\ dropped s 2 9 = 1%nat /\ closing (xl s) 4 1
  | None => False
  end.
Proof. vm_compute. repeat split. exists (LWaitCh 1 CRet). repeat split. Qed.
