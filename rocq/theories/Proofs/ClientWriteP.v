(** Proofs about Model/ClientWrite.v: the invariant. *)
From Verif Require Import Model.GoBase Model.Machine Model.ClientWrite Spec.OrderSpec.
Open Scope N_scope.

(** the calls whose frames the writer holds, oldest first *)
Definition held (p : wpc) : list N :=
  match p with WFirst | WQuit => [] | WGot k _ x => k ++ [x] | WMore k _ | WWrite k => k | WAns a _ => map fst a end.
(** those it may still write *)
Definition unsent (p : wpc) : list N := match p with WAns _ _ => [] | p => held p end.
(** the calls that will be answered *)
Definition pend (s : cst) : list N := held (wp s) ++ wq s.

(** the answer call w has got or is about to get *)
Definition answer (s : cst) (w : N) (r : cres) : Prop :=
  rs s w = Some r \/ pc s w = QDone (Some r) \/ exists a ok, wp s = WAns a ok /\ In (w, r) a.

(** the first frame of a batch *)
Definition gotok (p : wpc) : Prop := match p with WGot k O _ => k = [] | WMore _ O => False | _ => True end.

Lemma nodup_snoc : forall (a : list N) x, NoDup a -> ~ In x a -> NoDup (a ++ [x]).
Proof.
  induction a as [|y a IH]; cbn; intros x H1 H2; [repeat constructor; auto|]. inversion H1; subst. constructor; [|apply IH; auto].
  rewrite in_app_iff. intros [A|[A|[]]]; [contradiction|]. subst. apply H2. left. reflexivity.
Qed.
Lemma nodup_drop : forall (a b : list N), NoDup (a ++ b) -> NoDup b.
Proof. induction a; cbn; intros b H; [assumption|]. inversion H; subst. auto. Qed.

(** the part about calls and frames *)
Record core (rc : bool) (s : cst) : Prop := {
  i_nd : NoDup (pend s);
  i_pend : forall x, In x (pend s) -> rs s x = None /\ ((exists g, pc s x = QWaitR g) \/ (rc = false /\ pc s x = QDone None));
  i_wait : forall w g, pc s w = QWaitR g -> rs s w = None -> In w (pend s) \/ (rc = false /\ ctxDone s g = true);
  i_rs : forall w, rs s w <> None -> (exists g, pc s w = QWaitR g) \/ (rc = false /\ pc s w = QDone None);
  i_g : forall w g, pc s w = QEnq g \/ pc s w = QWaitR g -> (g <= gen s)%nat;
  i_got : gotok (wp s);
  i_ord : subseq (map snd (wire s) ++ unsent (wp s) ++ wq s) (enq s);
  i_enq : NoDup (enq s);
  i_enqd : forall w, In w (enq s) -> (exists g, pc s w = QWaitR g) \/ (exists r, pc s w = QDone r);
  i_waitq : forall w g, pc s w = QWaitR g -> In w (enq s);
  i_ans : forall w r, answer s w r -> (r = ROk <-> In w (map snd (wire s)));
  i_ansq : forall w r, answer s w r -> In w (enq s);
  i_calls : forall w, In w (calls s) <-> pc s w <> QIdle;
  i_cnd : NoDup (calls s) }.

(** the part about the goroutines *)
Record ctl (cap : nat) (s : cst) : Prop := {
  i_quit : wp s = WQuit -> lctx s = true;
  i_gen : gen s = 0%nat -> lctx s = true;
  i_lp : match lp s with
         | LConn | LExit => lctx s = true /\ wp s = WQuit /\ rd s = false
         | LCb2 | LWait => lctx s = true
         | _ => True
         end;
  i_exit : lp s = LExit -> ctx s = true;
  i_len : (length (wq s) <= cap)%nat;
  i_h0 : lp s = LConn \/ lp s = LExit -> hrun s = [];
  i_rdl : rd s = false -> lctx s = true }.

Definition cinv (rc : bool) (cap : nat) (s : cst) : Prop := core rc s /\ ctl cap s.

Lemma core_cong : forall rc s t, core rc s -> wq t = wq s -> rs t = rs s -> pc t = pc s -> wire t = wire s -> enq t = enq s -> calls t = calls s ->
  (wp t = wp s \/ (wp s = WQuit /\ wp t = WFirst)) -> (gen s <= gen t)%nat ->
  (forall g, (g <= gen s)%nat -> ctxDone s g = true -> ctxDone t g = true) -> core rc t.
Proof.
  intros rc s t I E1 E2 E3 E4 E5 E6 EW EG ED.
  assert (P : pend t = pend s) by (unfold pend; rewrite E1; destruct EW as [->|[-> ->]]; reflexivity).
  assert (U : unsent (wp t) = unsent (wp s)) by (destruct EW as [->|[-> ->]]; reflexivity).
  assert (A : forall w r, answer t w r -> answer s w r).
  { unfold answer. rewrite E2, E3. intros w r [H|[H|(a & ok & H & HI)]]; auto. destruct EW as [EW|[_ EW]]; rewrite EW in H; [eauto 8|discriminate]. }
  constructor; rewrite ?P, ?U, ?E1, ?E2, ?E3, ?E4, ?E5, ?E6; try apply I.
  - intros w g H1 H2. destruct (i_wait rc s I w g H1 H2) as [B|[B C]]; [left; assumption|right]. split; [assumption|]. apply ED; [|assumption]. apply (i_g rc s I w). auto.
  - intros w g H. pose proof (i_g rc s I w g H). lia.
  - destruct EW as [EW|[_ EW]]; rewrite EW; [exact (i_got rc s I)|exact Logic.I].
  - intros w r H. apply (i_ans rc s I). auto.
  - intros w r H. apply (i_ansq rc s I w r). auto.
Qed.

Lemma idle_off : forall rc s w, core rc s -> pc s w = QIdle \/ pc s w = QLoad \/ (exists g, pc s w = QEnq g) -> ~ In w (pend s) /\ rs s w = None /\ ~ In w (enq s) /\ forall r, ~ answer s w r.
Proof.
  intros rc s w I H.
  assert (NQ : ~ In w (enq s)) by (intros HI; destruct (i_enqd rc s I w HI) as [[g A]|[r A]]; destruct H as [B|[B|[g' B]]]; congruence).
  split; [|split; [|split; [assumption|]]].
  - intros HI. destruct (i_pend rc s I w HI) as [_ [[g A]|[_ A]]]; destruct H as [B|[B|[g' B]]]; congruence.
  - destruct (rs s w) eqn:E; [|reflexivity]. destruct (i_rs rc s I w) as [[g A]|[_ A]]; try congruence; destruct H as [B|[B|[g' B]]]; congruence.
  - intros r HA. apply NQ. exact (i_ansq rc s I w r HA).
Qed.

Lemma core_start : forall rc s w, core rc s -> pc s w = QIdle -> core rc (start w s).
Proof.
  intros rc s w I H. destruct (idle_off rc s w I) as (NP & NR & NQ & NA); [auto|].
  assert (PC : forall x, pc (start w s) x = if N.eq_dec x w then QLoad else pc s x).
  { intros x. cbn. destruct (N.eq_dec x w) as [->|NE]; [apply upd_eq|apply upd_neq; congruence]. }
  assert (AN : forall x r, answer (start w s) x r -> answer s x r).
  { unfold answer. intros x r [A|[A|A]]; auto. rewrite PC in A. destruct (N.eq_dec x w); [discriminate|auto]. }
  constructor; try apply I.
  - intros x HI. destruct (i_pend rc s I x HI) as [A B]. split; [assumption|]. rewrite PC. destruct (N.eq_dec x w) as [->|NE]; [|assumption]. contradiction.
  - intros x g A B. rewrite PC in A. destruct (N.eq_dec x w); [discriminate|]. exact (i_wait rc s I x g A B).
  - intros x A. rewrite PC. destruct (N.eq_dec x w) as [->|NE]; [|exact (i_rs rc s I x A)]. contradiction (A NR).
  - intros x g. rewrite PC. destruct (N.eq_dec x w); [intros [A|A]; discriminate|apply (i_g rc s I)].
  - intros x HI. rewrite PC. destruct (N.eq_dec x w) as [->|NE]; [|exact (i_enqd rc s I x HI)]. contradiction.
  - intros x g A. rewrite PC in A. destruct (N.eq_dec x w); [discriminate|]. exact (i_waitq rc s I x g A).
  - intros x r A. apply (i_ans rc s I). auto.
  - intros x r A. apply (i_ansq rc s I x r). auto.
  - intros x. rewrite PC. cbn. destruct (N.eq_dec x w) as [->|NE]; [split; [discriminate|auto]|].
    pose proof (i_calls rc s I x) as C. split; [intros [A|A]; [congruence|apply C; assumption]|intros A; right; apply C; assumption].
  - cbn. constructor; [|apply I]. intros A. apply (i_calls rc s I w) in A. contradiction.
Qed.

(** one call changes its place, and neither queue nor writer change *)
Lemma core_pc : forall rc s w p, core rc s -> p <> QIdle -> pc s w <> QIdle ->
  (forall g, p <> QWaitR g) -> (forall g, p = QEnq g -> (g <= gen s)%nat) ->
  (~ In w (pend s) \/ (rc = false /\ p = QDone None)) -> (rs s w = None \/ (rc = false /\ p = QDone None)) -> (In w (enq s) -> exists r, p = QDone r) ->
  (forall r, p <> QDone (Some r)) ->
  core rc (go w p s).
Proof.
  intros rc s w p I N1 N2 NW HG HP HR HQ ND.
  assert (PC : forall x, pc (go w p s) x = if N.eq_dec x w then p else pc s x).
  { intros x. cbn. destruct (N.eq_dec x w) as [->|NE]; [apply upd_eq|apply upd_neq; congruence]. }
  assert (AN : forall x r, answer (go w p s) x r -> answer s x r).
  { unfold answer. intros x r [A|[A|A]]; auto. rewrite PC in A. destruct (N.eq_dec x w); [contradiction (ND r)|auto]. }
  constructor; try apply I.
  - intros x HI. destruct (i_pend rc s I x HI) as [A B]. split; [assumption|]. rewrite PC. destruct (N.eq_dec x w) as [->|NE]; [|assumption]. destruct HP as [HP|HP]; [contradiction|auto].
  - intros x g A B. rewrite PC in A. destruct (N.eq_dec x w); [contradiction (NW g)|]. exact (i_wait rc s I x g A B).
  - intros x A. rewrite PC. destruct (N.eq_dec x w) as [->|NE]; [|exact (i_rs rc s I x A)]. destruct HR as [HR|HR]; [contradiction|auto].
  - intros x g. rewrite PC. destruct (N.eq_dec x w); [intros [A|A]; [auto|contradiction (NW g)]|apply (i_g rc s I)].
  - intros x HI. rewrite PC. destruct (N.eq_dec x w) as [->|NE]; [|exact (i_enqd rc s I x HI)]. right. auto.
  - intros x g A. rewrite PC in A. destruct (N.eq_dec x w); [contradiction (NW g)|]. exact (i_waitq rc s I x g A).
  - intros x r A. apply (i_ans rc s I). auto.
  - intros x r A. apply (i_ansq rc s I x r). auto.
  - intros x. rewrite PC. cbn [calls go c_pc]. destruct (N.eq_dec x w) as [->|NE]; [|apply (i_calls rc s I)]. split; [auto|]. intros _. apply (i_calls rc s I). assumption.
Qed.

(** a frame is queued, or handed to the writer *)
Lemma core_enq : forall rc s w g t, core rc s -> pc s w = QEnq g -> gen t = gen s -> lctx t = lctx s ->
  pc t = upd (pc s) w (QWaitR g) -> rs t = rs s -> wire t = wire s -> calls t = calls s -> enq t = enq s ++ [w] ->
  pend t = pend s ++ [w] -> unsent (wp t) ++ wq t = (unsent (wp s) ++ wq s) ++ [w] -> gotok (wp t) ->
  (forall x r, (exists a ok, wp t = WAns a ok /\ In (x, r) a) -> exists a ok, wp s = WAns a ok /\ In (x, r) a) ->
  core rc t.
Proof.
  intros rc s w g t I H EG EL EP ER EW EC EQ PE UN GT AW. destruct (idle_off rc s w I) as (NP & NR & NQ & NA); [eauto|].
  assert (PC : forall x, pc t x = if N.eq_dec x w then QWaitR g else pc s x).
  { intros x. rewrite EP. destruct (N.eq_dec x w) as [->|NE]; [apply upd_eq|apply upd_neq; congruence]. }
  assert (AN : forall x r, answer t x r -> answer s x r).
  { unfold answer. rewrite ER. intros x r [A|[A|A]]; auto. rewrite PC in A. destruct (N.eq_dec x w); [discriminate|auto]. }
  assert (CD : forall g, ctxDone t g = ctxDone s g) by (intros; unfold ctxDone; rewrite EG, EL; reflexivity).
  constructor; rewrite ?PE, ?EQ, ?EW.
  - apply nodup_snoc; [apply I|assumption].
  - intros x HI. rewrite ER, PC. destruct (N.eq_dec x w) as [->|NE]; [eauto|]. apply (i_pend rc s I). apply in_app_iff in HI as [HI|[HI|[]]]; [assumption|congruence].
  - intros x g' A B. rewrite PC in A. rewrite CD. rewrite ER in B. rewrite in_app_iff. destruct (N.eq_dec x w) as [->|NE]; [left; right; left; reflexivity|]. destruct (i_wait rc s I x g' A B); auto.
  - intros x A. rewrite PC. rewrite ER in A. destruct (N.eq_dec x w) as [->|NE]; [eauto|exact (i_rs rc s I x A)].
  - intros x g'. rewrite PC, EG. destruct (N.eq_dec x w) as [->|]; [|apply (i_g rc s I)]. intros [A|A]; inversion A; subst. apply (i_g rc s I w). auto.
  - assumption.
  - rewrite UN, app_assoc. apply subseq_app; [apply I|apply subseq_refl].
  - apply nodup_snoc; [apply I|assumption].
  - intros x HI. rewrite PC. destruct (N.eq_dec x w) as [->|NE]; [eauto|]. apply (i_enqd rc s I). apply in_app_iff in HI as [HI|[HI|[]]]; [assumption|congruence].
  - intros x g' A. rewrite PC in A. rewrite in_app_iff. destruct (N.eq_dec x w) as [->|]; [right; left; reflexivity|left; exact (i_waitq rc s I x g' A)].
  - intros x r A. apply (i_ans rc s I). auto.
  - intros x r A. rewrite in_app_iff. left. apply (i_ansq rc s I x r). auto.
  - intros x. rewrite PC, EC. destruct (N.eq_dec x w) as [->|NE]; [|apply (i_calls rc s I)]. split; [discriminate|]. intros _. apply (i_calls rc s I). congruence.
  - rewrite EC. apply I.
Qed.

(** the writer moves; no call is answered, the calls in [d] are given up (only in a connection that does not reconnect) *)
Lemma core_w : forall rc s t d, core rc s -> pc t = pc s -> rs t = rs s -> calls t = calls s -> enq t = enq s ->
  gen t = gen s -> lctx t = lctx s -> pend s = d ++ pend t -> (d = [] \/ (rc = false /\ lctx s = true)) ->
  subseq (map snd (wire t) ++ unsent (wp t) ++ wq t) (map snd (wire s) ++ unsent (wp s) ++ wq s) ->
  gotok (wp t) ->
  (forall x, In x (map snd (wire t)) -> In x (map snd (wire s)) \/ In x (pend s)) -> (forall x, In x (map snd (wire s)) -> In x (map snd (wire t))) ->
  (forall x r a ok, wp t = WAns a ok -> In (x, r) a -> In x (enq s) /\ (r = ROk <-> In x (map snd (wire t)))) ->
  (forall x r a ok, wp s = WAns a ok -> In (x, r) a -> exists a ok, wp t = WAns a ok /\ In (x, r) a) ->
  core rc t.
Proof.
  intros rc s t d I EP ER EC EQ EG EL PE HD SU GT W1 W2 A1 A2.
  assert (CD : forall g, ctxDone t g = ctxDone s g) by (intros; unfold ctxDone; rewrite EG, EL; reflexivity).
  assert (SUBS : forall x, In x (pend t) -> In x (pend s)) by (intros x HI; rewrite PE, in_app_iff; auto).
  assert (AN : forall x r, answer t x r -> answer s x r \/ (exists a ok, wp t = WAns a ok /\ In (x, r) a)).
  { unfold answer. rewrite ER, EP. intros x r [A|[A|A]]; auto. }
  assert (NPA : forall x r, rs s x = Some r \/ pc s x = QDone (Some r) -> ~ In x (pend s)).
  { intros x r A HI. destruct (i_pend rc s I x HI) as [B [[g C]|[_ C]]]; destruct A; congruence. }
  constructor; rewrite ?EP, ?ER, ?EC, ?EQ, ?EG; try apply I.
  - pose proof (i_nd rc s I) as ND. rewrite PE in ND. apply nodup_drop in ND. assumption.
  - intros x HI. apply (i_pend rc s I). auto.
  - intros x g A B. rewrite CD. destruct (i_wait rc s I x g A B) as [C|C]; [|auto]. rewrite PE, in_app_iff in C. destruct C as [C|C]; [|auto].
    destruct HD as [->|[HD HL]]; [contradiction|]. right. split; [assumption|]. unfold ctxDone. rewrite HL. apply orb_true_r.
  - assumption.
  - eapply subseq_trans; [apply I|assumption].
  - intros x r A. unfold answer in A. rewrite ER, EP in A. destruct A as [A|[A|(a & ok & A & B)]].
    + pose proof (NPA x r (or_introl A)) as NP. pose proof (i_ans rc s I x r (or_introl A)) as C. split; [intros E; apply W2, C; assumption|intros E; apply C; destruct (W1 x E); [assumption|contradiction]].
    + pose proof (NPA x r (or_intror A)) as NP. pose proof (i_ans rc s I x r (or_intror (or_introl A))) as C. split; [intros E; apply W2, C; assumption|intros E; apply C; destruct (W1 x E); [assumption|contradiction]].
    + exact (proj2 (A1 x r a ok A B)).
  - intros x r A. destruct (AN x r A) as [B|(a & ok & B & C)]; [exact (i_ansq rc s I x r B)|exact (proj1 (A1 x r a ok B C))].
Qed.

(** call x, held by the writer, is answered *)
Lemma core_put : forall rc s t x r, core rc s -> pc t = pc s -> rs t = upd (rs s) x (Some r) -> calls t = calls s -> enq t = enq s -> wire t = wire s ->
  gen t = gen s -> lctx t = lctx s -> (exists a b, pend s = a ++ x :: b /\ pend t = a ++ b) ->
  subseq (unsent (wp t) ++ wq t) (unsent (wp s) ++ wq s) -> gotok (wp t) ->
  (r = ROk <-> In x (map snd (wire s))) ->
  (forall y v a ok, wp t = WAns a ok -> In (y, v) a -> exists a ok, wp s = WAns a ok /\ In (y, v) a) ->
  core rc t.
Proof.
  intros rc s t x r I EP ER EC EQ EW EG EL (a & b & P1 & P2) SU GT HA AW.
  assert (CD : forall g, ctxDone t g = ctxDone s g) by (intros; unfold ctxDone; rewrite EG, EL; reflexivity).
  pose proof (i_nd rc s I) as ND. rewrite P1 in ND.
  assert (HX : In x (pend s)) by (rewrite P1, in_app_iff; right; left; reflexivity).
  destruct (i_pend rc s I x HX) as [RX PX].
  assert (NX : ~ In x (pend t)) by (rewrite P2; apply NoDup_remove_2; assumption).
  assert (RS : forall y, rs t y = if N.eq_dec y x then Some r else rs s y).
  { intros y. rewrite ER. destruct (N.eq_dec y x) as [->|NE]; [apply upd_eq|apply upd_neq; congruence]. }
  assert (SUBS : forall y, In y (pend t) -> In y (pend s)) by (intros y; rewrite P1, P2, !in_app_iff; cbn; tauto).
  assert (QX : In x (enq s)). { assert (Y : In x (pend s)) by assumption. destruct PX as [[g A]|[_ A]]; [exact (i_waitq rc s I x g A)|]. unfold pend in Y. apply in_app_iff in Y.
    destruct (wp s) eqn:E; try (eapply subseq_in; [apply (i_ord rc s I)|]; rewrite E, !in_app_iff; cbn; cbn in Y; tauto). cbn in Y. destruct Y as [Y|Y].
    - apply in_map_iff in Y as ([y v] & F & Y). cbn in F. subst y. apply (i_ansq rc s I x v). right. right. eauto.
    - eapply subseq_in; [apply (i_ord rc s I)|]. rewrite !in_app_iff. tauto. }
  assert (AN : forall y v, answer t y v -> (y = x /\ v = r) \/ answer s y v).
  { unfold answer. rewrite EP. intros y v [A|[A|(a' & ok & A & B)]]; auto; [|right; right; right; eapply AW; eauto].
    rewrite RS in A. destruct (N.eq_dec y x) as [->|NE]; [left; split; congruence|auto]. }
  constructor; rewrite ?EP, ?EC, ?EQ, ?EG, ?EW; try apply I.
  - rewrite P2. eapply NoDup_remove_1; eassumption.
  - intros y HI. rewrite RS. destruct (N.eq_dec y x) as [->|NE]; [contradiction|]. apply (i_pend rc s I). auto.
  - intros y g A B. rewrite RS in B. destruct (N.eq_dec y x) as [->|NE]; [discriminate|]. rewrite CD. destruct (i_wait rc s I y g A B) as [C|C]; [left|auto].
    rewrite P2. rewrite P1 in C. apply in_app_iff in C as [C|[C|C]]; apply in_app_iff; [auto|congruence|auto].
  - intros y A. rewrite RS in A. destruct (N.eq_dec y x) as [->|NE]; [assumption|exact (i_rs rc s I y A)].
  - assumption.
  - eapply subseq_trans; [apply I|]. apply subseq_app; [apply subseq_refl|assumption].
  - intros y v A. destruct (AN y v A) as [[-> ->]|B]; [assumption|exact (i_ans rc s I y v B)].
  - intros y v A. destruct (AN y v A) as [[-> ->]|B]; [assumption|exact (i_ansq rc s I y v B)].
Qed.

Lemma next_case : forall cap k n, next cap k n = WMore k (S n) \/ next cap k n = WWrite k.
Proof. intros. unfold next. destruct (_ <? _)%nat; auto. Qed.
Lemma held_next : forall cap k n, held (next cap k n) = k.
Proof. intros. destruct (next_case cap k n) as [->| ->]; reflexivity. Qed.
Lemma unsent_next : forall cap k n, unsent (next cap k n) = k.
Proof. intros. destruct (next_case cap k n) as [->| ->]; reflexivity. Qed.
Lemma fst_const : forall (k : list N) (r : cres), map fst (map (fun x => (x, r)) k) = k.
Proof. intros k r. induction k; cbn; congruence. Qed.
Lemma snd_pair : forall (g : nat) (k : list N), map snd (map (pair g) k) = k.
Proof. intros g k. induction k; cbn; congruence. Qed.
Lemma in_const : forall (k : list N) (r v : cres) x, In (x, v) (map (fun y => (y, r)) k) <-> v = r /\ In x k.
Proof. intros. rewrite in_map_iff. split; [intros (y & E & H); inversion E; subst; auto|intros [-> H]; eauto]. Qed.
Lemma fst_fail : forall k n, map fst (failAns k n) = k.
Proof. intros. unfold failAns. rewrite map_app, !fst_const. apply firstn_skipn. Qed.
Lemma in_fail : forall k n x v, NoDup k -> In (x, v) (failAns k n) -> In x k /\ (v = ROk <-> In x (firstn n k)).
Proof.
  intros k n x v ND H. unfold failAns in H. rewrite in_app_iff, !in_const in H.
  assert (K : In x k <-> In x (firstn n k) \/ In x (skipn n k)) by (rewrite <- in_app_iff, firstn_skipn; tauto).
  destruct H as [[-> H]|[-> H]]; (split; [tauto|]); [tauto|]. split; [discriminate|]. intros A. exfalso.
  rewrite <- (firstn_skipn n k) in ND. clear K. revert A H ND. generalize (firstn n k), (skipn n k). induction l as [|y l IH]; cbn; intros l' A H ND; [contradiction|]. inversion ND; subst. destruct A as [->|A]; [apply H2, in_app_iff; auto|eauto].
Qed.

Lemma unsent_enq : forall rc s x, core rc s -> In x (unsent (wp s)) -> In x (enq s) /\ ~ In x (map snd (wire s)).
Proof.
  intros rc s x I H. split; [eapply subseq_in; [apply (i_ord rc s I)|]; rewrite !in_app_iff; tauto|].
  pose proof (subseq_nodup _ _ _ (i_ord rc s I) (i_enq rc s I)) as ND. revert ND. generalize (map snd (wire s)). induction l as [|y l IH]; cbn; [tauto|].
  intros ND [->|A]; inversion ND; subst; [|contradiction (IH H3 A)]. apply H2. rewrite !in_app_iff. tauto.
Qed.

Ltac some H := match type of H with Some _ = Some _ => inversion H; subst; clear H | None = Some _ => discriminate H end.

Lemma core_call : forall rc cap s w c t, core rc s -> (length (wq s) <= cap)%nat -> callStep rc cap s w c = Some t -> core rc t.
Proof.
  intros rc cap s w c t I HL H. unfold callStep in H. destruct (pc s w) as [| |g|g|r] eqn:E; destruct c; try discriminate H.
  - destruct (idle_off rc s w I) as (NP & NR & NQ & NA); [auto|]. some H. destruct (gen s =? 0)%nat eqn:EG.
    + apply core_pc; auto; try congruence; try discriminate; try (intros; contradiction).
    + apply core_pc; auto; try congruence; try discriminate; try (intros; contradiction); try (intros g A; inversion A; lia).
  - destruct (_ <? _)%nat eqn:EL; [|discriminate]. some H. eapply (core_enq rc s w g); try reflexivity; try assumption; cbn [wq wp c_wq c_enq go c_pc].
    + unfold pend. cbn. rewrite app_assoc. reflexivity.
    + rewrite app_assoc. reflexivity.
    + exact (i_got rc s I).
    + auto.
  - destruct cap; [|discriminate]. destruct (wp s) eqn:EW; try discriminate. inversion H; clear H; subst t.
    assert (QN : wq s = []) by (destruct (wq s); [reflexivity|cbn in HL; lia]).
    eapply (core_enq rc s w g); try reflexivity; try assumption; cbn [wq wp c_wq c_enq go c_pc c_wp].
    + unfold pend. cbn. rewrite EW, QN. reflexivity.
    + rewrite EW, QN. reflexivity.
    + intros x r (a & ok & A & _). discriminate.
  - destruct (ctxDone s g); [|discriminate]. some H. destruct (idle_off rc s w I) as (NP & NR & NQ & NA); [eauto|].
    apply core_pc; auto; try congruence; try discriminate; try (intros; contradiction).
  - destruct (_ && _)%bool eqn:EB; [|discriminate]. some H. apply andb_true_iff in EB as [EB _]. apply negb_true_iff in EB. subst rc.
    apply core_pc; auto; try congruence; try discriminate. eauto.
  - destruct (rs s w) as [r|] eqn:ER; [|discriminate]. some H.
    assert (PC : forall x, pc (go w (QDone (Some r)) (put w None s)) x = if N.eq_dec x w then QDone (Some r) else pc s x).
    { intros x. cbn. destruct (N.eq_dec x w) as [->|NE]; [apply upd_eq|apply upd_neq; congruence]. }
    assert (RS : forall x, rs (go w (QDone (Some r)) (put w None s)) x = if N.eq_dec x w then None else rs s x).
    { intros x. cbn. destruct (N.eq_dec x w) as [->|NE]; [apply upd_eq|apply upd_neq; congruence]. }
    assert (NP : ~ In w (pend s)) by (intros HI; destruct (i_pend rc s I w HI); congruence).
    assert (AN : forall x v, answer (go w (QDone (Some r)) (put w None s)) x v -> answer s x v).
    { unfold answer. intros x v [A|[A|A]]; auto; [rewrite RS in A|rewrite PC in A]; destruct (N.eq_dec x w) as [->|]; try discriminate; auto. inversion A; subst. auto. }
    constructor; try apply I.
    + intros x HI. rewrite RS, PC. change (In x (pend s)) in HI. destruct (N.eq_dec x w) as [->|NE]; [contradiction|exact (i_pend rc s I x HI)].
    + intros x g' A B. rewrite PC in A. rewrite RS in B. destruct (N.eq_dec x w); [discriminate|]. exact (i_wait rc s I x g' A B).
    + intros x A. rewrite RS in A. rewrite PC. destruct (N.eq_dec x w); [congruence|exact (i_rs rc s I x A)].
    + intros x g'. rewrite PC. destruct (N.eq_dec x w); [intros [A|A]; discriminate|apply (i_g rc s I)].
    + intros x HI. rewrite PC. destruct (N.eq_dec x w); [eauto|exact (i_enqd rc s I x HI)].
    + intros x g' A. rewrite PC in A. destruct (N.eq_dec x w); [discriminate|exact (i_waitq rc s I x g' A)].
    + intros x v A. apply (i_ans rc s I). auto.
    + intros x v A. apply (i_ansq rc s I x v). auto.
    + intros x. rewrite PC. cbn [calls go put c_pc c_rs]. destruct (N.eq_dec x w) as [->|NE]; [|apply (i_calls rc s I)]. split; [discriminate|]. intros _. apply (i_calls rc s I). congruence.
Qed.

Lemma subseq_skip : forall (w k q : list N), subseq (w ++ q) (w ++ k ++ q).
Proof. intros. apply subseq_drop_mid. Qed.

Lemma core_writer : forall rc cap s c t, core rc s -> writerStep rc cap s c = Some t -> core rc t.
Proof.
  intros rc cap s c t I H. unfold writerStep in H.
  assert (EQ : forall x, In x (unsent (wp s)) -> In x (enq s) /\ ~ In x (map snd (wire s))) by (intros x; apply (unsent_enq rc s x I)).
  destruct (wp s) as [|k n x|k n|k|[|[x r] a] ok|] eqn:E; destruct c; try discriminate H.
  - destruct (wq s) as [|x q] eqn:EW; [discriminate|]. some H. apply (core_w rc s _ [] I); try reflexivity; cbn [wire wp wq c_wp c_wq].
    + unfold pend. cbn. rewrite E, EW. reflexivity.
    + auto.
    + rewrite E, EW. apply subseq_refl.
    + auto.
    + auto.
    + discriminate.
    + rewrite E. discriminate.
  - destruct (lctx s) eqn:EL; [|discriminate]. some H. apply (core_w rc s _ [] I); try reflexivity; cbn [wire wp wq c_wp c_wq]; auto; try discriminate; try exact Logic.I.
    + unfold pend. cbn. rewrite E. reflexivity.
    + rewrite E. apply subseq_refl.
    + rewrite E. discriminate.
  - some H. apply (core_w rc s _ [] I); try reflexivity; cbn [wire wp wq c_wp c_wq]; auto.
    + unfold pend. cbn [wp wq c_wp]. rewrite E, held_next. reflexivity.
    + rewrite E, unsent_next. apply subseq_refl.
    + destruct (next_case cap (k ++ [x]) n) as [B|B]; rewrite B; exact Logic.I.
    + intros y r a ok A. destruct (next_case cap (k ++ [x]) n) as [B|B]; rewrite B in A; discriminate.
    + rewrite E. discriminate.
  - assert (G : r <> ROk -> match rs s x with None => Some (put x (Some r) (c_wp (match n with O => WFirst | _ => next cap k n end) s)) | Some _ => None end = Some t -> core rc t).
    2: { destruct r; [discriminate| |]; apply G; auto; discriminate. }
    clear H. intros NR H. destruct (rs s x) eqn:ER; [discriminate|]. some H.
    assert (HU : held (match n with O => WFirst | _ => next cap k n end) = k /\ unsent (match n with O => WFirst | _ => next cap k n end) = k).
    { destruct n; [pose proof (i_got rc s I) as GT; rewrite E in GT; cbn in GT; rewrite GT; auto|split; [apply held_next|apply unsent_next]]. }
    assert (NG : gotok (match n with O => WFirst | _ => next cap k n end)) by (destruct n; [exact Logic.I|destruct (next_case cap k (S n)) as [->| ->]; exact Logic.I]).
    assert (NA : forall a ok, match n with O => WFirst | _ => next cap k n end <> WAns a ok) by (intros; destruct n; [discriminate|destruct (next_case cap k (S n)) as [->| ->]; discriminate]).
    destruct HU as [HU1 HU2]. eapply (core_put rc s _ x r I); try reflexivity; cbn [wire wp wq put c_rs c_wp c_wq].
    + exists k, (wq s). unfold pend. cbn [wp wq put c_rs c_wp]. rewrite E, HU1. cbn. rewrite <- app_assoc. auto.
    + rewrite E, HU2. cbn. rewrite <- app_assoc. apply (subseq_skip k [x] (wq s)).
    + assumption.
    + split; [contradiction|]. intros A. destruct (EQ x) as [_ B]; [cbn; apply in_app_iff; right; left; reflexivity|contradiction].
    + intros y v a ok A. contradiction (NA _ _ A).
  - destruct (wq s) as [|x q] eqn:EW; [discriminate|]. some H. apply (core_w rc s _ [] I); try reflexivity; cbn [wire wp wq c_wp c_wq]; auto; try discriminate; try exact Logic.I.
    + unfold pend. cbn. rewrite E, EW. cbn. rewrite <- app_assoc. reflexivity.
    + rewrite E, EW. cbn. rewrite <- app_assoc. apply subseq_refl.
    + pose proof (i_got rc s I) as GT. rewrite E in GT. destruct n; [contradiction|exact Logic.I].
    + rewrite E. discriminate.
  - destruct (lctx s) eqn:EL; [|discriminate]. some H. destruct rc.
    + apply (core_w true s _ [] I); try reflexivity; cbn [wire wp wq c_wp c_wq]; auto; try discriminate; try exact Logic.I.
      * unfold pend. cbn. rewrite E, fst_const. reflexivity.
      * rewrite E. cbn. apply subseq_skip.
      * intros y r a ok A B. inversion A; subst. apply in_const in B as [-> B]. destruct (EQ y B) as [C D]. split; [assumption|]. split; [discriminate|contradiction].
      * rewrite E. discriminate.
    + apply (core_w false s _ k I); try reflexivity; cbn [wire wp wq c_wp c_wq]; auto; try discriminate; try exact Logic.I.
      * unfold pend. cbn. rewrite E. reflexivity.
      * rewrite E. cbn. apply subseq_skip.
      * rewrite E. discriminate.
  - destruct (wq s) eqn:EW; [|discriminate]. destruct (lctx s); [discriminate|]. some H. apply (core_w rc s _ [] I); try reflexivity; cbn [wire wp wq c_wp c_wq]; auto; try discriminate; try exact Logic.I.
    + unfold pend. cbn. rewrite E. reflexivity.
    + rewrite E. apply subseq_refl.
    + rewrite E. discriminate.
  - destruct (rwc s); [discriminate|]. some H. apply (core_w rc s _ [] I); try reflexivity; cbn [wire wp wq c_wp c_wq]; auto; try discriminate; try exact Logic.I.
    + unfold pend. cbn. rewrite E, fst_const. reflexivity.
    + rewrite E. cbn. apply subseq_skip.
    + intros y r a ok A B. inversion A; subst. apply in_const in B as [-> B]. destruct (EQ y B) as [C D]. split; [assumption|]. split; [discriminate|contradiction].
    + rewrite E. discriminate.
  - destruct (rwc s); [|discriminate]. some H. apply (core_w rc s _ [] I); try reflexivity; cbn [wire wp wq c_wp c_wq c_wire]; auto; try discriminate; try exact Logic.I.
    + unfold pend. cbn. rewrite E, fst_const. reflexivity.
    + rewrite E, map_app, snd_pair. cbn. rewrite <- app_assoc. apply subseq_refl.
    + intros y. rewrite map_app, snd_pair, in_app_iff. intros [A|A]; [auto|right]. unfold pend. rewrite E. apply in_app_iff. auto.
    + intros y A. rewrite map_app, in_app_iff. auto.
    + intros y r a ok A B. inversion A; subst. apply in_const in B as [-> B]. destruct (EQ y B) as [C D]. split; [assumption|]. rewrite map_app, snd_pair, in_app_iff. tauto.
    + rewrite E. discriminate.
  - destruct (rwc s); [|discriminate]. some H. apply (core_w rc s _ [] I); try reflexivity; cbn [wire wp wq c_wp c_wq c_wire]; auto; try discriminate; try exact Logic.I.
    + unfold pend. cbn. rewrite E, fst_fail. reflexivity.
    + rewrite E, map_app, snd_pair. cbn. rewrite <- app_assoc. apply subseq_app; [apply subseq_refl|]. apply subseq_app; [apply subseq_firstn|apply subseq_refl].
    + intros y. rewrite map_app, snd_pair, in_app_iff. intros [A|A]; [auto|right]. unfold pend. rewrite E. apply in_app_iff. left. eapply subseq_in; [apply subseq_firstn|eassumption].
    + intros y A. rewrite map_app, in_app_iff. auto.
    + intros y r a ok A B. inversion A; subst. assert (ND : NoDup k). { pose proof (i_nd rc s I) as ND. unfold pend in ND. rewrite E in ND. cbn in ND. clear -ND. induction k; [constructor|]. cbn in ND. inversion ND; subst. constructor; [rewrite in_app_iff in H1; tauto|auto]. }
      destruct (in_fail k n y r ND B) as [C D]. destruct (EQ y C) as [F G]. split; [assumption|]. rewrite map_app, snd_pair, in_app_iff. tauto.
    + rewrite E. discriminate.
  - assert (J : core rc (c_wp WFirst s)).
    { apply (core_w rc s _ [] I); try reflexivity; cbn [wire wp wq c_wp c_wq c_wire]; auto; try discriminate; try exact Logic.I.
      - unfold pend. cbn. rewrite E. reflexivity.
      - rewrite E. cbn. apply subseq_refl.
      - rewrite E. intros y r a ok' A B. inversion A; subst. contradiction. }
    destruct ok; some H; [assumption|]. 
    assert (J' : core rc (c_wp WQuit s)).
    { apply (core_w rc s _ [] I); try reflexivity; cbn [wire wp wq c_wp c_wq c_wire]; auto; try discriminate; try exact Logic.I.
      - unfold pend. cbn. rewrite E. reflexivity.
      - rewrite E. cbn. apply subseq_refl.
      - rewrite E. intros y r a ok' A B. inversion A; subst. contradiction. }
    apply (core_cong rc _ _ J'); try reflexivity; auto. intros g _ _. unfold ctxDone. cbn. apply orb_true_r.
  - destruct (rs s x) eqn:ER; [discriminate|]. some H. eapply (core_put rc s _ x r I); try reflexivity; cbn [wire wp wq put c_rs c_wp c_wq].
    * exists [], (map fst a ++ wq s). unfold pend. cbn [wp wq put c_rs c_wp]. rewrite E. auto.
    * rewrite E. apply subseq_refl.
    * apply (i_ans rc s I). right. right. exists ((x, r) :: a), ok. split; [assumption|left; reflexivity].
    * intros y v a' ok' A B. inversion A; subst. exists ((x, r) :: a'), ok'. split; [assumption|right; assumption].
Qed.

Lemma ctl_start : forall cap s w, ctl cap s -> ctl cap (start w s).
Proof. intros cap s w [A B C D E F K]. constructor; assumption. Qed.

(** what the steps of calls and writer leave as it was *)
Lemma call_frame : forall rc cap s w c t, callStep rc cap s w c = Some t ->
  gen t = gen s /\ lctx t = lctx s /\ ctx t = ctx s /\ rwc t = rwc s /\ lp t = lp s /\ lcall t = lcall s /\ rd t = rd s /\ hrun t = hrun s /\ hcall t = hcall s /\ calls t = calls s /\
  (wp t = wp s \/ (wp s = WFirst /\ exists x, wp t = WGot [] 0 x)) /\ (wq t = wq s \/ (wq t = wq s ++ [w] /\ (length (wq s) < cap)%nat)) /\ wire t = wire s /\
  (forall x, x <> w -> pc t x = pc s x /\ rs t x = rs s x).
Proof.
  intros rc cap s w c t H. unfold callStep in H.
  assert (U : forall (A : Type) (f : N -> A) v x, x <> w -> upd f w v x = f x) by (intros; apply upd_neq; congruence).
  destruct (pc s w) as [| |g|g|r] eqn:E; destruct c; try discriminate H.
  - inversion H; subst; cbn. repeat split; auto.
  - destruct (_ <? _)%nat eqn:EL; [|discriminate]. apply Nat.ltb_lt in EL. inversion H; subst; cbn. repeat split; auto.
  - destruct cap; [|discriminate]. destruct (wp s) eqn:EW; try discriminate. inversion H; subst; cbn. repeat split; eauto 6.
  - destruct (ctxDone s g); [|discriminate]. inversion H; subst; cbn. repeat split; auto.
  - destruct (_ && _)%bool; [|discriminate]. inversion H; subst; cbn. repeat split; auto.
  - destruct (rs s w); [|discriminate]. inversion H; subst; cbn. repeat split; auto.
Qed.

Lemma writer_frame : forall rc cap s c t, writerStep rc cap s c = Some t ->
  gen t = gen s /\ ctx t = ctx s /\ rwc t = rwc s /\ lp t = lp s /\ lcall t = lcall s /\ rd t = rd s /\ hrun t = hrun s /\ hcall t = hcall s /\ calls t = calls s /\
  pc t = pc s /\ enq t = enq s /\ wp s <> WQuit /\ (wp t = WQuit -> lctx t = true) /\ (lctx s = true -> lctx t = true) /\ (length (wq t) <= length (wq s))%nat.
Proof.
  intros rc cap s c t H. unfold writerStep in H.
  assert (NX : forall k n, next cap k n <> WQuit) by (intros k n; destruct (next_case cap k n) as [->| ->]; discriminate).
  destruct (wp s) as [|k n x|k n|k|[|[x r] a] ok|] eqn:E; destruct c; try discriminate H.
  - destruct (wq s) eqn:EW; [discriminate|]. inversion H; subst; cbn. repeat split; auto; discriminate.
  - destruct (lctx s) eqn:EL; [|discriminate]. inversion H; subst; cbn. repeat split; auto; discriminate.
  - inversion H; subst; cbn. repeat split; auto; try discriminate. intros A. contradiction (NX _ _ A).
  - assert (G : match rs s x with None => Some (put x (Some r) (c_wp (match n with O => WFirst | _ => next cap k n end) s)) | Some _ => None end = Some t) by (destruct r; [discriminate|assumption|assumption]).
    destruct (rs s x); [discriminate|]. inversion G; subst; cbn. repeat split; auto; try discriminate. destruct n; [discriminate|]. intros A. contradiction (NX _ _ A).
  - destruct (wq s) eqn:EW; [discriminate|]. inversion H; subst; cbn. repeat split; auto; discriminate.
  - destruct (lctx s) eqn:EL; [|discriminate]. inversion H; subst; cbn. repeat split; auto; discriminate.
  - destruct (wq s) eqn:EW; [|discriminate]. destruct (lctx s) eqn:EL; [discriminate|]. inversion H; subst; cbn. rewrite EW. repeat split; auto; try discriminate.
  - destruct (rwc s) eqn:ER; [discriminate|]. inversion H; subst; cbn. repeat split; auto; discriminate.
  - destruct (rwc s) eqn:ER; [|discriminate]. inversion H; subst; cbn. repeat split; auto; discriminate.
  - destruct (rwc s) eqn:ER; [|discriminate]. inversion H; subst; cbn. repeat split; auto; discriminate.
  - destruct ok; inversion H; subst; cbn; repeat split; auto; discriminate.
  - destruct (rs s x); [discriminate|]. inversion H; subst; cbn. repeat split; auto; discriminate.
Qed.

Lemma cinv_step : forall rc cap s l t, cinv rc cap s -> cstep rc cap s l = Some t -> cinv rc cap t.
Proof.
  intros rc cap s l t [I J] H.
  assert (MON : forall g, (g <= gen s)%nat -> ctxDone s g = true -> (g <? gen s)%nat || true = true) by (intros; apply orb_true_r).
  destruct l as [w|w c|c| |h|h w|h|h| |w| |ok| |]; cbn [cstep] in H.
  - destruct (isIdle (pc s w)) eqn:EI; [|discriminate]. inversion H; subst. split; [apply core_start; [assumption|destruct (pc s w); congruence || discriminate]|apply ctl_start; assumption].
  - split; [exact (core_call rc cap s w c t I (i_len cap s J) H)|].
    destruct (call_frame rc cap s w c t H) as (A1 & A2 & A3 & A4 & A5 & A6 & A7 & A8 & A9 & A10 & A11 & A12 & A13 & _). destruct J as [B C D E L F K].
    constructor; rewrite ?A1, ?A2, ?A3, ?A5, ?A7, ?A8; try assumption.
    + intros Q. destruct A11 as [A11|[_ [x A11]]]; rewrite A11 in Q; [auto|discriminate].
    + destruct (lp s); try exact Logic.I; try assumption; (destruct A11 as [->|[A11 _]]; [assumption|destruct D as (_ & D & _); congruence]).
    + destruct A12 as [->|[-> A12]]; [assumption|]. rewrite app_length. cbn. lia.
  - split; [exact (core_writer rc cap s c t I H)|].
    destruct (writer_frame rc cap s c t H) as (A1 & A3 & A4 & A5 & A6 & A7 & A8 & A9 & A10 & A11 & A12 & NQ & A13 & A14 & A15). destruct J as [B C D E L F K].
    constructor; rewrite ?A1, ?A3, ?A5, ?A7, ?A8; auto.
    + destruct (lp s); auto; destruct D as (_ & D & _); congruence.
    + lia.
  - destruct (rd s) eqn:ER; [|discriminate]. inversion H; subst. split.
    + apply (core_cong rc s); auto; try reflexivity; try (intros; apply orb_true_r).
    + destruct J as [B C D E L F K]. constructor; cbn; auto. destruct (lp s); auto; destruct D as (? & ? & ?); auto.
  - destruct (_ && _)%bool eqn:EB; [|discriminate]. apply andb_true_iff in EB as [EB _]. inversion H; subst. split.
    + apply (core_cong rc s); auto; reflexivity.
    + destruct J as [B C D E L F K]. constructor; cbn; auto. try (intros [A|A]; rewrite A in D; destruct D as (_ & _ & D); congruence).
  - destruct (_ && _)%bool eqn:EB; [|discriminate]. apply andb_true_iff in EB as [_ EB]. destruct (hcall s h); [discriminate|]. inversion H; subst.
    assert (EI : pc s w = QIdle) by (destruct (pc s w); [reflexivity|discriminate..]). split.
    + apply (core_cong rc (start w s)); auto; try reflexivity. apply core_start; assumption.
    + destruct (ctl_start cap s w J) as [B C D E L F K]. constructor; assumption.
  - destruct (hcall s h); [|discriminate]. destruct (isDone _); [|discriminate]. inversion H; subst. split; [apply (core_cong rc s); auto; reflexivity|destruct J as [B C D E L F K]; constructor; assumption].
  - destruct (hcall s h); [discriminate|]. destruct (memb h (hrun s)) eqn:EM; [|discriminate]. inversion H; subst. split; [apply (core_cong rc s); auto; reflexivity|].
    destruct J as [B C D E L F K]; constructor; cbn; auto. intros A. rewrite (F A). reflexivity.
  - unfold loopStep in H. destruct J as [B C D E L F K]. destruct (lp s) eqn:EP; try discriminate.
    + destruct (lcall s); [discriminate|]. inversion H; subst. split; [apply (core_cong rc s); auto; reflexivity|]. constructor; cbn; auto; try discriminate; try (intros [A|A]; discriminate).
    + destruct (lctx s) eqn:EL; [|discriminate]. inversion H; subst. split; [apply (core_cong rc s); auto; reflexivity|]. constructor; cbn; auto; try discriminate; try (intros [A|A]; discriminate).
    + destruct (lcall s); [discriminate|]. inversion H; subst. split; [apply (core_cong rc s); auto; reflexivity|]. constructor; cbn; auto; try discriminate; try (intros [A|A]; discriminate).
    + destruct (wp s) eqn:EW; try discriminate. destruct (rd s) eqn:ER; [discriminate|]. destruct (hrun s) eqn:EH; [|discriminate].
      destruct rc; inversion H; subst; (split; [apply (core_cong _ s); auto; reflexivity|]); constructor; cbn; auto; discriminate.
  - assert (G : isIdle (pc s w) = true /\ t = c_lcall (Some w) (start w s)).
    { destruct (lp s); try discriminate; destruct (lcall s); try discriminate; destruct (isIdle (pc s w)); try discriminate; inversion H; auto. }
    destruct G as [G ->]. assert (EI : pc s w = QIdle) by (destruct (pc s w); [reflexivity|discriminate..]). split.
    + apply (core_cong rc (start w s)); auto; try reflexivity. apply core_start; assumption.
    + destruct (ctl_start cap s w J) as [B C D E L F K]. constructor; assumption.
  - destruct (lcall s); [|discriminate]. destruct (isDone _); [|discriminate]. inversion H; subst. split; [apply (core_cong rc s); auto; reflexivity|destruct J as [B C D E L F K]; constructor; assumption].
  - destruct (lp s) eqn:EP; try discriminate. destruct J as [B C D E L F K]. rewrite EP in D. destruct D as (D1 & D2 & D3). destruct ok; inversion H; subst; clear H.
    + split.
      * apply (core_cong rc s); auto; try reflexivity; cbn; [lia|]. intros g HG _. unfold ctxDone. cbn [gen lctx c_gen c_lctx]. replace (g <? S (gen s))%nat with true by (symmetry; apply Nat.ltb_lt; lia). reflexivity.
      * constructor; cbn; auto; try discriminate; try (intros [A|A]; discriminate).
    + split; [apply (core_cong rc s); auto; reflexivity|]. constructor; cbn; auto; destruct (ctx s) eqn:EC; cbn; auto; discriminate.
  - inversion H; subst. split; [apply (core_cong rc s); auto; reflexivity|destruct J as [B C D E L F K]; constructor; assumption].
  - inversion H; subst. split.
    + apply (core_cong rc s); auto; try reflexivity; try (intros; apply orb_true_r).
    + destruct J as [B C D E L F K]. constructor; cbn; auto. destruct (lp s); auto; destruct D as (? & ? & ?); auto.
Qed.

Lemma cinv_init : forall rc cap up, cinv rc cap (cinit up).
Proof.
  intros rc cap up. split.
  - constructor; cbn; try (destruct up; cbn; try (constructor; fail); intros; try contradiction; try discriminate; auto; fail).
    + intros w g [A|A]; discriminate.
    + intros w r [A|[A|(a & ok & A & _)]]; try discriminate. destruct up; discriminate.
    + intros w r [A|[A|(a & ok & A & _)]]; try discriminate. destruct up; discriminate.
    + intros w. split; [contradiction|auto].
  - constructor; destruct up; cbn; auto; try discriminate; try lia; try (intros [A|A]; discriminate).
Qed.

Lemma cinv_reachable : forall rc cap up s, reachable (cstep rc cap) (cinit up) s -> cinv rc cap s.
Proof. intros rc cap up s HR. apply (reachable_inv (cstep rc cap) (cinv rc cap) (cinit up)); [apply cinv_init|intros; eapply cinv_step; eauto|assumption]. Qed.
