(** Proofs about Model/ClientWrite.v: progress, termination, and the states nothing leads out of. *)
From Verif Require Import Model.GoBase Model.Machine Model.ClientWrite Spec.OrderSpec Proofs.ClientWriteP.
Open Scope N_scope.

(** the steps of the calls and of the writer *)
Definition inner (l : clabel) : bool := match l with CCall _ _ | CW _ => true | _ => false end.
Definition alive (p : cpc) : Prop := match p with QIdle | QDone _ => False | _ => True end.

Lemma writer_moves : forall rc cap s, cinv rc cap s -> wp s <> WQuit -> (wp s = WFirst -> wq s <> [] \/ lctx s = true) -> exists c t, writerStep rc cap s c = Some t.
Proof.
  intros rc cap s [I J] NQ H. destruct (wp s) as [|k n x|k n|k|[|[x r] a] ok|] eqn:E; try contradiction.
  - destruct (H eq_refl) as [A|A].
    + exists YTake. unfold writerStep. rewrite E. destruct (wq s); [contradiction|eauto].
    + exists YCtx. unfold writerStep. rewrite E, A. eauto.
  - exists YKeep. unfold writerStep. rewrite E. eauto.
  - destruct (wq s) eqn:EW; [destruct (lctx s) eqn:EL|].
    + exists YCtx. unfold writerStep. rewrite E, EL. eauto.
    + exists YDefault. unfold writerStep. rewrite E, EW, EL. eauto.
    + exists YTake. unfold writerStep. rewrite E, EW. eauto.
  - destruct (rwc s) eqn:EL.
    + exists YOk. unfold writerStep. rewrite E, EL. eauto.
    + exists YNoConn. unfold writerStep. rewrite E, EL. eauto.
  - exists YGo. unfold writerStep. rewrite E. destruct ok; eauto.
  - exists YGo. unfold writerStep. rewrite E. destruct (i_pend rc s I x) as [A _]; [unfold pend; rewrite E; left; reflexivity|]. rewrite A. eauto.
Qed.

(** A call that has not returned: something can go on, or the call is in the queue and there is no writer. *)
Lemma progress : forall rc cap s w, cinv rc cap s -> alive (pc s w) ->
  (exists l t, inner l = true /\ cstep rc cap s l = Some t) \/ (rc = true /\ (0 < cap)%nat /\ wp s = WQuit /\ In w (wq s)).
Proof.
  intros rc cap s w [I J] AL.
  assert (CALL : (exists c t, callStep rc cap s w c = Some t) -> exists l t, inner l = true /\ cstep rc cap s l = Some t) by (intros (c & t & H); exists (CCall w c), t; auto).
  assert (WR : (exists c t, writerStep rc cap s c = Some t) -> exists l t, inner l = true /\ cstep rc cap s l = Some t) by (intros (c & t & H); exists (CW c), t; auto).
  destruct (pc s w) as [| |g|g|r] eqn:E; try contradiction.
  - left. apply CALL. exists XLoad. unfold callStep. rewrite E. eauto.
  - left. destruct (ctxDone s g) eqn:ED; [apply CALL; exists XCtx; unfold callStep; rewrite E, ED; eauto|].
    unfold ctxDone in ED. apply orb_false_iff in ED as [_ EL].
    assert (NQ : wp s <> WQuit) by (intros A; rewrite (i_quit cap s J A) in EL; discriminate).
    pose proof (i_len cap s J) as LN. destruct (length (wq s) <? cap)%nat eqn:EB; [apply CALL; exists XSend; unfold callStep; rewrite E, EB; eauto|]. apply Nat.ltb_ge in EB.
    destruct (wq s) as [|y q] eqn:EQ.
    + cbn in EB. assert (cap = 0%nat) by lia. subst cap. destruct (wp s) eqn:EW; try (apply WR, writer_moves; [split; assumption|congruence|congruence]).
      apply CALL. exists XHand. unfold callStep. rewrite E, EW. eauto.
    + apply WR, writer_moves; [split; assumption|assumption|]. intros _. left. rewrite EQ. discriminate.
  - destruct (rs s w) as [r|] eqn:ER; [left; apply CALL; exists XResult; unfold callStep; rewrite E, ER; eauto|].
    destruct (i_wait rc s I w g E ER) as [A|[-> A]].
    2: { left. apply CALL. exists XCtx. unfold callStep. rewrite E, A. cbn. eauto. }
    destruct (wp s) eqn:EW; try (left; apply WR, writer_moves; [split; assumption|congruence|congruence]).
    + left. apply WR, writer_moves; [split; assumption|congruence|]. intros _. left. intros B. unfold pend in A. rewrite EW, B in A. contradiction.
    + unfold pend in A. rewrite EW in A. cbn in A. destruct rc.
      * right. split; [reflexivity|]. split; [|auto]. pose proof (i_len cap s J) as LN. destruct (wq s); [contradiction|cbn in LN; lia].
      * left. apply CALL. exists XCtx. unfold callStep. rewrite E. unfold ctxDone. rewrite (i_quit cap s J EW), orb_true_r. cbn. eauto.
Qed.

(** *** Termination of the inner steps *)

Definition cw (p : cpc) : nat := match p with QIdle => 10 | QLoad => 9 | QEnq _ => 8 | QWaitR _ => 1 | QDone _ => 0 end.
Definition ww (p : wpc) : nat :=
  match p with WQuit => 0 | WFirst => 1 | WAns a _ => 2 + length a | WWrite k => 3 + length k | WMore k _ => 4 + length k | WGot k _ _ => 6 + length k end.
Fixpoint csum (f : N -> cpc) (l : list N) : nat := match l with [] => 0 | x :: l => cw (f x) + csum f l end.
Definition mu (s : cst) : nat := csum (pc s) (calls s) + 6 * length (wq s) + ww (wp s).

Lemma csum_out : forall f w p l, ~ In w l -> csum (upd f w p) l = csum f l.
Proof. induction l as [|x l IH]; cbn; intros H; [reflexivity|]. rewrite IH by tauto. rewrite upd_neq by (intros ->; tauto). reflexivity. Qed.
Lemma csum_upd : forall f w p l, NoDup l -> In w l -> (csum (upd f w p) l + cw (f w) = csum f l + cw p)%nat.
Proof.
  induction l as [|x l IH]; cbn; intros ND H; [contradiction|]. inversion ND; subst. destruct (N.eq_dec x w) as [->|NE].
  - rewrite upd_eq, csum_out by assumption. lia.
  - destruct H as [H|H]; [congruence|]. rewrite upd_neq by congruence. specialize (IH H3 H). lia.
Qed.

Lemma ww_next : forall cap k n, (ww (next cap k n) <= 4 + length k)%nat.
Proof. intros. destruct (next_case cap k n) as [->| ->]; cbn; lia. Qed.

Lemma mu_inner : forall rc cap s l t, cinv rc cap s -> inner l = true -> cstep rc cap s l = Some t -> (mu t < mu s)%nat.
Proof.
  intros rc cap s l t [I J] IN H. destruct l as [w|w c|c| |h|h w|h|h| |w| |ok| |]; try discriminate IN; cbn [cstep] in H; clear IN.
  - assert (CS : forall p, pc s w <> QIdle -> (csum (upd (pc s) w p) (calls s) + cw (pc s w) = csum (pc s) (calls s) + cw p)%nat).
    { intros p NI. apply csum_upd; [apply (i_cnd rc s I)|]. apply (i_calls rc s I). assumption. }
    unfold callStep in H. destruct (pc s w) as [| |g|g|r] eqn:E; destruct c; try discriminate H.
    + inversion H; subst. unfold mu. cbn. destruct (gen s =? 0)%nat; [specialize (CS (QDone None))|specialize (CS (QEnq (gen s)))]; cbn in CS; lapply CS; intros; [lia|discriminate|lia|discriminate].
    + destruct (_ <? _)%nat; [|discriminate]. inversion H; subst. unfold mu. cbn -[Nat.mul]. rewrite app_length. cbn -[Nat.mul]. specialize (CS (QWaitR g)). cbn in CS. lapply CS; intros; [lia|discriminate].
    + destruct cap; [|discriminate]. destruct (wp s) eqn:EW; try discriminate. inversion H; subst. unfold mu. cbn -[Nat.mul]. rewrite EW. cbn -[Nat.mul]. specialize (CS (QWaitR g)). cbn in CS. lapply CS; intros; [lia|discriminate].
    + destruct (ctxDone s g); [|discriminate]. inversion H; subst. unfold mu. cbn -[Nat.mul]. specialize (CS (QDone None)). cbn in CS. lapply CS; intros; [lia|discriminate].
    + destruct (_ && _)%bool; [|discriminate]. inversion H; subst. unfold mu. cbn -[Nat.mul]. specialize (CS (QDone None)). cbn in CS. lapply CS; intros; [lia|discriminate].
    + destruct (rs s w) as [r|]; [|discriminate]. inversion H; subst. unfold mu. cbn -[Nat.mul]. specialize (CS (QDone (Some r))). cbn in CS. lapply CS; intros; [lia|discriminate].
  - unfold writerStep in H. unfold mu. destruct (wp s) as [|k n x|k n|k|[|[x r] a] ok|] eqn:E; destruct c; try discriminate H.
    + destruct (wq s) eqn:EW; [discriminate|]. inversion H; subst; cbn -[Nat.mul]. lia.
    + destruct (lctx s) eqn:EL; [|discriminate]. inversion H; subst; cbn -[Nat.mul]. lia.
    + inversion H; subst; cbn -[Nat.mul]. pose proof (ww_next cap (k ++ [x]) n) as A. rewrite app_length in A. cbn in A. lia.
    + assert (G : match rs s x with None => Some (put x (Some r) (c_wp (match n with O => WFirst | _ => next cap k n end) s)) | Some _ => None end = Some t) by (destruct r; [discriminate|assumption|assumption]).
      destruct (rs s x); [discriminate|]. inversion G; subst; cbn -[Nat.mul]. destruct n; [cbn -[Nat.mul]; lia|]. pose proof (ww_next cap k (S n)). lia.
    + destruct (wq s) eqn:EW; [discriminate|]. inversion H; subst; cbn -[Nat.mul]. lia.
    + destruct (lctx s) eqn:EL; [|discriminate]. inversion H; subst; cbn -[Nat.mul]. destruct rc; cbn -[Nat.mul]; rewrite ?map_length; lia.
    + destruct (wq s) eqn:EW; [|discriminate]. destruct (lctx s) eqn:EL; [discriminate|]. inversion H; subst; cbn -[Nat.mul]. rewrite EW. cbn. lia.
    + destruct (rwc s) eqn:ER; [discriminate|]. inversion H; subst; cbn -[Nat.mul]. rewrite map_length. lia.
    + destruct (rwc s) eqn:ER; [|discriminate]. inversion H; subst; cbn -[Nat.mul]. rewrite map_length. lia.
    + destruct (rwc s) eqn:ER; [|discriminate]. inversion H; subst; cbn -[Nat.mul]. rewrite <- (map_length fst), fst_fail. lia.
    + destruct ok; inversion H; subst; cbn -[Nat.mul]; lia.
    + destruct (rs s x); [discriminate|]. inversion H; subst; cbn -[Nat.mul]. lia.
Qed.

Lemma cinv_run : forall rc cap ls s t, cinv rc cap s -> run (cstep rc cap) s ls = Some t -> cinv rc cap t.
Proof. intros rc cap ls s t I H. exact (run_inv (cstep rc cap) (cinv rc cap) (fun a l b X Y => cinv_step rc cap a l b X Y) ls s t I H). Qed.

Lemma inner_bound : forall rc cap ls s t, cinv rc cap s -> forallb inner ls = true -> run (cstep rc cap) s ls = Some t -> (length ls + mu t <= mu s)%nat.
Proof.
  induction ls as [|l ls IH]; intros s t I F H; cbn in *; [inversion H; lia|]. apply andb_true_iff in F as [F1 F2].
  destruct (cstep rc cap s l) as [u|] eqn:E; [|discriminate]. pose proof (mu_inner rc cap s l u I F1 E). specialize (IH u t (cinv_step rc cap s l u I E) F2 H). lia.
Qed.

Lemma alive_dec : forall p, alive p \/ ~ alive p.
Proof. destruct p; cbn; auto. Qed.
Lemma alive_find : forall s (l : list N), (exists w, In w l /\ alive (pc s w)) \/ forall w, In w l -> ~ alive (pc s w).
Proof.
  intros s. induction l as [|x l IH]; [right; contradiction|]. destruct (alive_dec (pc s x)) as [A|A]; [left; exists x; cbn; auto|].
  destruct IH as [(w & B & C)|B]; [left; exists w; cbn; auto|]. right. intros w [->|D]; auto.
Qed.

Lemma completes : forall rc cap, rc = false \/ cap = 0%nat -> forall n s, (mu s <= n)%nat -> cinv rc cap s ->
  exists ls t, forallb inner ls = true /\ run (cstep rc cap) s ls = Some t /\ forall w, ~ alive (pc t w).
Proof.
  intros rc cap HC. induction n as [n IH] using lt_wf_ind. intros s HN I. destruct (alive_find s (calls s)) as [(w & HI & AL)|NA].
  - destruct (progress rc cap s w I AL) as [(l & u & IN & E)|(A & B & _)]; [|destruct HC; [congruence|lia]].
    pose proof (mu_inner rc cap s l u I IN E) as M. destruct (IH (mu u)) with (s := u) as (ls & t & F & R & D); [lia|lia|exact (cinv_step rc cap s l u I E)|].
    exists (l :: ls), t. cbn. rewrite IN, E. auto.
  - exists [], s. repeat split. intros w AL. apply (NA w); [|assumption]. apply (i_calls rc s (proj1 I)). intros A. rewrite A in AL. contradiction.
Qed.

(** *** A connection that reconnects *)

(** steps of the library alone: no call is made, no handler started, the link neither closed nor lost, a dial succeeds *)
Definition libStep (l : clabel) : bool := match l with CCall _ _ | CW _ | CRdQuit | CLoop | CDial true => true | _ => false end.

Definition healthy (s : cst) : Prop := lctx s = false /\ rwc s = true /\ match wp s with WAns _ ok => ok = true | _ => True end.

Lemma healthy_progress : forall rc cap s w, cinv rc cap s -> healthy s -> alive (pc s w) -> exists l t, inner l = true /\ cstep rc cap s l = Some t /\ healthy t.
Proof.
  intros rc cap s w [I J] (H1 & H2 & H3) AL.
  assert (NQ : wp s <> WQuit) by (intros A; rewrite (i_quit cap s J A) in H1; discriminate).
  assert (CALL : forall c t, callStep rc cap s w c = Some t -> exists l t, inner l = true /\ cstep rc cap s l = Some t /\ healthy t).
  { intros c t H. exists (CCall w c), t. split; [reflexivity|]. split; [assumption|]. destruct (call_frame rc cap s w c t H) as (_ & A2 & _ & A4 & _ & _ & _ & _ & _ & _ & A11 & _).
    unfold healthy. rewrite A2, A4. destruct A11 as [->|[_ [x ->]]]; auto. }
  assert (WR : (wp s = WFirst -> wq s <> []) -> exists l t, inner l = true /\ cstep rc cap s l = Some t /\ healthy t).
  { intros HW. unfold healthy. assert (G : forall c t, writerStep rc cap s c = Some t -> lctx t = false -> rwc t = true -> match wp t with WAns _ ok => ok = true | _ => True end -> exists l t, inner l = true /\ cstep rc cap s l = Some t /\ lctx t = false /\ rwc t = true /\ match wp t with WAns _ ok => ok = true | _ => True end) by (intros c t A B C D; exists (CW c), t; auto).
    destruct (wp s) as [|k n x|k n|k|[|[x r] a] ok|] eqn:E; try contradiction.
    - specialize (G YTake). unfold writerStep in G. rewrite E in G. destruct (wq s); [contradiction HW; reflexivity|]. eapply G; [reflexivity|cbn; auto..].
    - specialize (G YKeep). unfold writerStep in G. rewrite E in G. eapply G; [reflexivity|cbn; auto..]. destruct (next_case cap (k ++ [x]) n) as [->| ->]; exact Logic.I.
    - destruct (wq s) eqn:EW.
      + specialize (G YDefault). unfold writerStep in G. rewrite E, EW, H1 in G. eapply G; [reflexivity|cbn; auto..].
      + specialize (G YTake). unfold writerStep in G. rewrite E, EW in G. eapply G; [reflexivity|cbn; auto..].
    - specialize (G YOk). unfold writerStep in G. rewrite E, H2 in G. eapply G; [reflexivity|cbn; auto..].
    - specialize (G YGo). unfold writerStep in G. rewrite E in G. subst ok. eapply G; [reflexivity|cbn; auto..].
    - specialize (G YGo). unfold writerStep in G. rewrite E in G. destruct (i_pend rc s I x) as [A _]; [unfold pend; rewrite E; left; reflexivity|]. rewrite A in G. eapply G; [reflexivity|cbn; auto..]. }
  destruct (pc s w) as [| |g|g|r] eqn:E; try contradiction.
  - apply (CALL XLoad (go w (if (gen s =? 0)%nat then QDone None else QEnq (gen s)) s)). unfold callStep. rewrite E. reflexivity.
  - pose proof (i_len cap s J) as LN. destruct (length (wq s) <? cap)%nat eqn:EB; [eapply (CALL XSend); unfold callStep; rewrite E, EB; reflexivity|]. apply Nat.ltb_ge in EB.
    destruct (wq s) as [|y q] eqn:EQ.
    + cbn in EB. assert (cap = 0%nat) by lia. subst cap. destruct (wp s) eqn:EW; try (apply WR; congruence).
      eapply (CALL XHand). unfold callStep. rewrite E, EW. reflexivity.
    + apply WR. intros _. discriminate.
  - destruct (rs s w) as [r|] eqn:ER; [eapply (CALL XResult); unfold callStep; rewrite E, ER; reflexivity|].
    destruct (i_wait rc s I w g E ER) as [A|[-> A]].
    2: { eapply (CALL XCtx). unfold callStep. rewrite E, A. cbn. reflexivity. }
    apply WR. intros EW B. unfold pend in A. rewrite EW, B in A. contradiction.
Qed.

Lemma healthy_completes : forall rc cap n s, (mu s <= n)%nat -> cinv rc cap s -> healthy s ->
  exists ls t, forallb inner ls = true /\ run (cstep rc cap) s ls = Some t /\ healthy t /\ forall w, ~ alive (pc t w).
Proof.
  intros rc cap. induction n as [n IH] using lt_wf_ind. intros s HN I HH. destruct (alive_find s (calls s)) as [(w & HI & AL)|NA].
  - destruct (healthy_progress rc cap s w I HH AL) as (l & u & IN & E & HU).
    pose proof (mu_inner rc cap s l u I IN E) as M. destruct (IH (mu u)) with (s := u) as (ls & t & F & R & D); [lia|lia|exact (cinv_step rc cap s l u I E)|assumption|].
    exists (l :: ls), t. cbn. rewrite IN, E. auto.
  - exists [], s. repeat split; try apply HH. intros w AL. apply (NA w); [|assumption]. apply (i_calls rc s (proj1 I)). intros A. rewrite A in AL. contradiction.
Qed.

(** the writer, once the context is done, returns *)
Lemma writer_quits : forall rc cap n s, (mu s <= n)%nat -> cinv rc cap s -> lctx s = true ->
  exists ls t, forallb inner ls = true /\ run (cstep rc cap) s ls = Some t /\ wp t = WQuit /\ lctx t = true /\
    ctx t = ctx s /\ hrun t = hrun s /\ lcall t = lcall s /\ rd t = rd s /\ lp t = lp s /\ gen t = gen s.
Proof.
  intros rc cap. induction n as [n IH] using lt_wf_ind. intros s HN I HL.
  destruct (match wp s with WQuit => true | _ => false end) eqn:EQ.
  - exists [], s. destruct (wp s) eqn:E; try discriminate. repeat split; auto.
  - destruct (writer_moves rc cap s I) as (c & u & E); [destruct (wp s); discriminate|auto|].
    pose proof (mu_inner rc cap s (CW c) u I eq_refl E) as M. destruct (writer_frame rc cap s c u E) as (A1 & A3 & A4 & A5 & A6 & A7 & A8 & A9 & A10 & A11 & A12 & NQ & A13 & A14 & A15).
    destruct (IH (mu u)) with (s := u) as (ls & t & F & R & D1 & D2 & D3 & D4 & D5 & D6 & D7 & D8); [lia|lia|exact (cinv_step rc cap s (CW c) u I E)|auto|].
    exists (CW c :: ls), t. cbn. rewrite E. repeat split; auto; congruence.
Qed.

Lemma inner_lib : forall ls, forallb inner ls = true -> forallb libStep ls = true.
Proof. induction ls as [|[] ls IH]; cbn; intros H; try discriminate; auto. Qed.

Lemma to_healthy : forall cap s, cinv true cap s -> ctx s = false -> hrun s = [] -> lcall s = None ->
  exists ls t, forallb libStep ls = true /\ run (cstep true cap) s ls = Some t /\ healthy t /\ gen t = S (gen s).
Proof.
  intros cap s I HC HH HLC.
  assert (S1 : exists l1 s1, forallb libStep l1 = true /\ run (cstep true cap) s l1 = Some s1 /\ lctx s1 = true /\ rd s1 = false /\ ctx s1 = false /\ hrun s1 = [] /\ lcall s1 = None /\ gen s1 = gen s).
  { destruct (rd s) eqn:ER.
    - exists [CRdQuit], (c_lctx true (c_rd false s)). cbn. rewrite ER. repeat split; assumption.
    - exists [], s. repeat split; auto. exact (i_rdl cap s (proj2 I) ER). }
  destruct S1 as (l1 & s1 & F1 & R1 & L1 & D1 & C1 & H1 & K1 & G1). pose proof (cinv_run true cap l1 s s1 I R1) as I1.
  destruct (writer_quits true cap (mu s1) s1 (le_n _) I1 L1) as (l2 & s2 & F2 & R2 & Q2 & L2 & C2 & H2 & K2 & D2 & _ & G2). pose proof (cinv_run true cap l2 s1 s2 I1 R2) as I2.
  rewrite C1 in C2. rewrite H1 in H2. rewrite K1 in K2. rewrite D1 in D2. rewrite G1 in G2.
  assert (FIN : forall u l, cinv true cap u -> forallb libStep l = true -> run (cstep true cap) s2 l = Some u -> lp u = LConn -> ctx u = false -> gen u = gen s -> exists ls t, forallb libStep ls = true /\ run (cstep true cap) s ls = Some t /\ healthy t /\ gen t = S (gen s)).
  { intros u l IU FU RU LU CU GU. exists (l1 ++ l2 ++ l ++ [CDial true]), (c_gen (S (gen u)) (c_lctx (ctx u) (c_rwc true (c_lp LCb1 (c_wp WFirst (c_rd true u)))))).
    rewrite !forallb_app, F1, (inner_lib l2 F2), FU. split; [reflexivity|]. rewrite run_app, R1, run_app, R2, run_app, RU. cbn. rewrite LU. split; [reflexivity|]. unfold healthy. cbn. rewrite GU. auto. }
  assert (W : forall u l, cinv true cap u -> forallb libStep l = true -> run (cstep true cap) s2 l = Some u -> lp u = LWait -> ctx u = false -> gen u = gen s -> wp u = WQuit -> rd u = false -> hrun u = [] -> exists ls t, forallb libStep ls = true /\ run (cstep true cap) s ls = Some t /\ healthy t /\ gen t = S (gen s)).
  { intros u l IU FU RU LU CU GU WU DU HU.
    assert (ST : cstep true cap u CLoop = Some (c_lp LConn u)) by (cbn; unfold loopStep; rewrite LU, WU, DU, HU; reflexivity).
    apply (FIN (c_lp LConn u) (l ++ [CLoop])); auto; [exact (cinv_step true cap u CLoop _ IU ST)|rewrite forallb_app, FU; reflexivity|]. rewrite run_app, RU. cbn [run]. rewrite ST. reflexivity. }
  assert (V : forall u l, cinv true cap u -> forallb libStep l = true -> run (cstep true cap) s2 l = Some u -> lp u = LCb2 -> ctx u = false -> gen u = gen s -> wp u = WQuit -> rd u = false -> hrun u = [] -> lcall u = None -> exists ls t, forallb libStep ls = true /\ run (cstep true cap) s ls = Some t /\ healthy t /\ gen t = S (gen s)).
  { intros u l IU FU RU LU CU GU WU DU HU KU.
    assert (ST : cstep true cap u CLoop = Some (c_lp LWait u)) by (cbn; unfold loopStep; rewrite LU, KU; reflexivity).
    apply (W (c_lp LWait u) (l ++ [CLoop])); auto; [exact (cinv_step true cap u CLoop _ IU ST)|rewrite forallb_app, FU; reflexivity|]. rewrite run_app, RU. cbn [run]. rewrite ST. reflexivity. }
  assert (X : forall u l, cinv true cap u -> forallb libStep l = true -> run (cstep true cap) s2 l = Some u -> lp u = LServe -> ctx u = false -> gen u = gen s -> wp u = WQuit -> rd u = false -> hrun u = [] -> lcall u = None -> lctx u = true -> exists ls t, forallb libStep ls = true /\ run (cstep true cap) s ls = Some t /\ healthy t /\ gen t = S (gen s)).
  { intros u l IU FU RU LU CU GU WU DU HU KU XU.
    assert (ST : cstep true cap u CLoop = Some (c_lp LCb2 (c_rwc false u))) by (cbn; unfold loopStep; rewrite LU, XU; reflexivity).
    apply (V (c_lp LCb2 (c_rwc false u)) (l ++ [CLoop])); auto; [exact (cinv_step true cap u CLoop _ IU ST)|rewrite forallb_app, FU; reflexivity|]. rewrite run_app, RU. cbn [run]. rewrite ST. reflexivity. }
  destruct (lp s2) eqn:EP.
  - assert (ST : cstep true cap s2 CLoop = Some (c_lp LServe s2)) by (cbn; unfold loopStep; rewrite EP, K2; reflexivity).
    apply (X (c_lp LServe s2) [CLoop]); auto; [exact (cinv_step true cap s2 CLoop _ I2 ST)|]. cbn [run]. rewrite ST. reflexivity.
  - apply (X s2 []); auto.
  - apply (V s2 []); auto.
  - apply (W s2 []); auto.
  - apply (FIN s2 []); auto.
  - pose proof (i_exit cap s2 (proj2 I2) EP). congruence.
Qed.

(** *** States nothing leads out of *)

(** Call w is queued and there is no writer; loop waits, in one way or another, for w to return, or has returned itself. *)
Definition wedged (w : N) (s : cst) : Prop :=
  wp s = WQuit /\ (exists g, pc s w = QWaitR g) /\ rs s w = None /\
  ((lp s = LWait /\ exists h, In h (hrun s) /\ hcall s h = Some w) \/ ((lp s = LCb1 \/ lp s = LCb2) /\ lcall s = Some w) \/ lp s = LExit).

Lemma memb_in : forall h l, memb h l = true <-> In h l.
Proof. intros. unfold memb. rewrite existsb_exists. split; [intros (x & A & B); apply N.eqb_eq in B; congruence|intros A; exists h; rewrite N.eqb_refl; auto]. Qed.

Lemma wedged_step : forall cap w s l t, wedged w s -> cstep true cap s l = Some t -> wedged w t /\ gen t = gen s.
Proof.
  intros cap w s l t (W & [g P] & R & K) H.
  assert (NI : forall x, isIdle (pc s x) = true -> x <> w) by (intros x A ->; rewrite P in A; discriminate).
  destruct l as [x|x c|c| |h|h x|h|h| |x| |ok| |]; cbn [cstep] in H.
  - destruct (isIdle (pc s x)) eqn:EI; [|discriminate]. inversion H; subst. split; [|reflexivity]. unfold wedged. cbn. rewrite upd_neq by (intros ->; apply (NI x EI); reflexivity). eauto.
  - destruct (call_frame true cap s x c t H) as (A1 & A2 & A3 & A4 & A5 & A6 & A7 & A8 & A9 & A10 & A11 & A12 & A13 & A14). split; [|assumption].
    destruct (N.eq_dec w x) as [->|NE]; [unfold callStep in H; rewrite P, R in H; destruct c; discriminate|]. destruct (A14 w NE) as [B1 B2].
    unfold wedged. rewrite A5, A6, A8, A9, B1, B2. destruct A11 as [->|[A11 _]]; [|congruence]. eauto.
  - unfold writerStep in H. rewrite W in H. destruct c; discriminate.
  - destruct (rd s); [|discriminate]. inversion H; subst. split; [|reflexivity]. unfold wedged. cbn. eauto.
  - destruct (_ && _)%bool eqn:EB; [|discriminate]. apply andb_true_iff in EB as [_ EB]. apply negb_true_iff in EB. inversion H; subst. split; [|reflexivity]. unfold wedged. cbn. repeat split; eauto.
    destruct K as [[K1 (h' & K2 & K3)]|K]; [|auto]. left. split; [assumption|]. exists h'. split; [auto|]. rewrite upd_neq; [assumption|]. intros ->. apply memb_in in K2. congruence.
  - destruct (_ && _)%bool eqn:EB; [|discriminate]. apply andb_true_iff in EB as [_ EB]. destruct (hcall s h) eqn:EH; [discriminate|]. inversion H; subst. split; [|reflexivity]. unfold wedged. cbn.
    rewrite upd_neq by (intros ->; apply (NI x EB); reflexivity). repeat split; eauto.
    destruct K as [[K1 (h' & K2 & K3)]|K]; [|auto]. left. split; [assumption|]. exists h'. split; [auto|]. rewrite upd_neq; [assumption|]. intros ->. congruence.
  - destruct (hcall s h) as [y|] eqn:EH; [|discriminate]. destruct (isDone (pc s y)) eqn:ED; [|discriminate]. inversion H; subst. split; [|reflexivity]. unfold wedged. cbn. repeat split; eauto.
    destruct K as [[K1 (h' & K2 & K3)]|K]; [|auto]. left. split; [assumption|]. exists h'. split; [auto|]. rewrite upd_neq; [assumption|]. intros ->. rewrite EH in K3. inversion K3; subst. rewrite P in ED. discriminate.
  - destruct (hcall s h) eqn:EH; [discriminate|]. destruct (memb h (hrun s)) eqn:EM; [|discriminate]. inversion H; subst. split; [|reflexivity]. unfold wedged. cbn. repeat split; eauto.
    destruct K as [[K1 (h' & K2 & K3)]|K]; [|auto]. left. split; [assumption|]. exists h'. split; [|assumption]. apply filter_In. split; [assumption|]. apply negb_true_iff, N.eqb_neq. intros ->. congruence.
  - unfold loopStep in H. rewrite W in H. destruct K as [[K1 (h' & K2 & K3)]|[[[K1|K1] K2]|K1]]; rewrite K1 in H; try rewrite K2 in H; try discriminate. destruct (rd s); [discriminate|]. destruct (hrun s); [contradiction|discriminate].
  - assert (G : isIdle (pc s x) = true /\ t = c_lcall (Some x) (start x s) /\ lcall s = None).
    { destruct (lp s); try discriminate; destruct (lcall s); try discriminate; destruct (isIdle (pc s x)); try discriminate; inversion H; auto. }
    destruct G as (G & -> & G2). split; [|reflexivity]. unfold wedged. cbn. rewrite upd_neq by (intros ->; apply (NI x G); reflexivity). repeat split; eauto.
    destruct K as [K|[[_ K]|K]]; auto. congruence.
  - destruct (lcall s) as [y|] eqn:EY; [|discriminate]. destruct (isDone (pc s y)) eqn:ED; [|discriminate]. inversion H; subst. split; [|reflexivity]. unfold wedged. cbn. repeat split; eauto.
    destruct K as [K|[[_ K]|K]]; auto. inversion K; subst. rewrite P in ED. discriminate.
  - destruct K as [[K1 _]|[[[K1|K1] _]|K1]]; rewrite K1 in H; discriminate.
  - inversion H; subst. split; [|reflexivity]. unfold wedged. cbn. eauto.
  - inversion H; subst. split; [|reflexivity]. unfold wedged. cbn. eauto.
Qed.

Lemma wedged_run : forall cap w ls s t, wedged w s -> run (cstep true cap) s ls = Some t -> wedged w t /\ gen t = gen s.
Proof.
  intros cap w. induction ls as [|l ls IH]; intros s t HW H; cbn in H; [inversion H; subst; auto|].
  destruct (cstep true cap s l) as [u|] eqn:E; [|discriminate]. destruct (wedged_step cap w s l u HW E) as [A B]. destruct (IH u t A H) as [C D]. split; [assumption|congruence].
Qed.

(** and a call's result stays *)
Lemma done_stays : forall rc cap w r ls s t, pc s w = QDone r -> run (cstep rc cap) s ls = Some t -> pc t w = QDone r.
Proof.
  intros rc cap w r. induction ls as [|l ls IH]; intros s t HD H; cbn in H; [inversion H; subst; auto|].
  destruct (cstep rc cap s l) as [u|] eqn:E; [|discriminate]. apply (IH u t); [|assumption]. clear IH H.
  assert (NI : forall x, isIdle (pc s x) = true -> x <> w) by (intros x A ->; rewrite HD in A; discriminate).
  assert (ST : forall x, isIdle (pc s x) = true -> pc (start x s) w = QDone r) by (intros x A; cbn; rewrite upd_neq by (intros ->; apply (NI x A); reflexivity); assumption).
  destruct l as [x|x c|c| |h|h x|h|h| |x| |ok| |]; cbn [cstep] in E.
  - destruct (isIdle (pc s x)) eqn:EI; [|discriminate]. inversion E; subst. auto.
  - destruct (N.eq_dec w x) as [->|NE]; [unfold callStep in E; rewrite HD in E; destruct c; discriminate|]. destruct (call_frame rc cap s x c u E) as (_ & _ & _ & _ & _ & _ & _ & _ & _ & _ & _ & _ & _ & A). destruct (A w NE). congruence.
  - destruct (writer_frame rc cap s c u E) as (_ & _ & _ & _ & _ & _ & _ & _ & _ & A & _). congruence.
  - destruct (rd s); [|discriminate]. inversion E; subst. assumption.
  - destruct (_ && _)%bool; [|discriminate]. inversion E; subst. assumption.
  - destruct (_ && _)%bool eqn:EB; [|discriminate]. apply andb_true_iff in EB as [_ EB]. destruct (hcall s h); [discriminate|]. inversion E; subst. exact (ST x EB).
  - destruct (hcall s h); [|discriminate]. destruct (isDone _); [|discriminate]. inversion E; subst. assumption.
  - destruct (hcall s h); [discriminate|]. destruct (memb _ _); [|discriminate]. inversion E; subst. assumption.
  - unfold loopStep in E. destruct (lp s); try discriminate.
    + destruct (lcall s); [discriminate|]. inversion E; subst. assumption.
    + destruct (lctx s); [|discriminate]. inversion E; subst. assumption.
    + destruct (lcall s); [discriminate|]. inversion E; subst. assumption.
    + destruct (wp s); try discriminate. destruct (rd s); [discriminate|]. destruct (hrun s); [|discriminate]. destruct rc; inversion E; subst; assumption.
  - assert (G : isIdle (pc s x) = true /\ u = c_lcall (Some x) (start x s)).
    { destruct (lp s); try discriminate; destruct (lcall s); try discriminate; destruct (isIdle (pc s x)); try discriminate; inversion E; auto. }
    destruct G as [G ->]. exact (ST x G).
  - destruct (lcall s); [|discriminate]. destruct (isDone _); [|discriminate]. inversion E; subst. assumption.
  - destruct (lp s); try discriminate. destruct ok; inversion E; subst; assumption.
  - inversion E; subst. assumption.
  - inversion E; subst. assumption.
Qed.
