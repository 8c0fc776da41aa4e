(** C81: OnConnect and OnDisconnect of a client; C82: closing a client connection does not end the process. *)
From Verif Require Import Model.GoBase Model.Machine Model.ClientHooks.
Open Scope N_scope.

(** calls of user code for link k other than the callbacks *)
Definition userCall (k : N) (e : wev) : Prop := match e with WSub j | WHandler j => j = k | _ => False end.
Definition userRet (k : N) (e : wev) : Prop := match e with WSubEnd j | WHandlerEnd j => j = k | _ => False end.
(** how many calls have begun, how many have returned *)
Definition begun (l : list wev) : nat := length (filter (fun e => match e with WSub _ | WHandler _ => true | _ => false end) l).
Definition returned (l : list wev) : nat := length (filter (fun e => match e with WSubEnd _ | WHandlerEnd _ => true | _ => false end) l).
(** the dials, the callbacks and the end *)
Definition marks (l : list wev) : list wev :=
  filter (fun e => match e with WSub _ | WSubEnd _ | WHandler _ | WHandlerEnd _ => false | _ => true end) l.
(** link k from dialing to the return of OnDisconnect *)
Definition linkOf (k : N) : list wev := [WDial k; WConnect k; WConnected k; WDis k; WDisEnd k].
(** links 1 to n *)
Fixpoint links (n : nat) : list wev := match n with O => [] | S m => links m ++ linkOf (N.of_nat n) end.

(** The full statement of C81: handlers and SubFunc of a link are called only after OnConnect was called for it and not any more
    once OnDisconnect was called for it; OnConnect and OnDisconnect are called in turns, once for each link; when a link is
    dialed and when Wait returns, all calls have returned. *)
Definition C81_statement : Prop :=
  forall rc first ls s, run (qstep rc) (qinit first) ls = Some s ->
  (forall l1 e l2 k, wlog s = l1 ++ e :: l2 -> userCall k e -> In (WConnect k) l1 /\ ~ In (WDis k) l1) /\
  (exists n m, marks (wlog s) = links n ++ firstn m (linkOf (N.of_nat n + 1)) \/ marks (wlog s) = links n ++ [WOver]) /\
  (forall l1 e l2, wlog s = l1 ++ e :: l2 -> e = WOver \/ (exists k, e = WDial k) -> begun l1 = returned l1).

(** the server pushes a message; the client reads it before OnConnect is called *)
Definition earlyPush : list qlabel := [QHave; QSpawn; QTest; QTake; QPush].
(** the reader has a pushed message in its buffer when the link is lost *)
Definition latePush : list qlabel := [QHave; QSpawn; QOn; QOnRet; QTest; QTake; QWrEnd; QDone; QCloseRWC; QOff; QPush].

Theorem C81_refuted : ~ C81_statement.
Proof.
  intro H. destruct (H false true earlyPush (mkQ LOnCall 1 true false false RSub true 0 0 false [WDial 1; WSub 1]) eq_refl) as [H1 _].
  destruct (H1 [WDial 1] (WSub 1) [] 1 eq_refl eq_refl) as [[X|[]] _]. discriminate X.
Qed.
Print Assumptions C81_refuted.

(** ... and SubFunc, or a handler, is called after OnDisconnect *)
Theorem C81_late_calls :
  option_map wlog (run (qstep false) (qinit true) latePush) = Some [WDial 1; WConnect 1; WConnected 1; WDis 1; WSub 1] /\
  option_map wlog (run (qstep false) (qinit true) [QHave; QSpawn; QOn; QOnRet; QTest; QTake; QFrame; QLook; QGo; QWrEnd; QDone; QCloseRWC; QOff; QHStart]) =
    Some [WDial 1; WConnect 1; WConnected 1; WDis 1; WHandler 1].
Proof. vm_compute. split; reflexivity. Qed.
Print Assumptions C81_late_calls.

(** ** Invariant *)
Definition part (p : lpc) : nat :=
  match p with LDial => 5 | LStart | LOnCall => 1 | LOn => 2 | LWait | LClose | LOffCall => 3 | LOff => 4 | LJoin | LEnd | LOver => 5 end.
Definition resting (p : lpc) : Prop := p = LDial \/ p = LStart \/ p = LEnd \/ p = LOver.

Record qinv (s : qst) : Prop := {
  i_rest : resting (lp s) -> rd s = RNo /\ wr s = false /\ hsp s = 0%nat /\ hrun s = 0%nat;
  i_cnt : begun (wlog s) = (returned (wlog s) + hrun s + match rd s with RSub => 1 | _ => 0 end)%nat;
  i_dial : forall k, In (WDial k) (wlog s) -> k <= kk s;
  i_now : lp s <> LDial -> lp s <> LOver -> In (WDial (kk s)) (wlog s);
  i_over : In WOver (wlog s) -> lp s = LOver;
  i_first : lp s = LDial -> rwc s = true -> kk s = 1 /\ wlog s = [WDial 1];
  i_rwc : lp s = LOffCall \/ lp s = LOff \/ lp s = LJoin \/ lp s = LEnd -> rwc s = false;
  i_marks : (lp s = LDial -> rwc s = false -> marks (wlog s) = links (N.to_nat (kk s))) /\
            (lp s = LOver -> marks (wlog s) = links (N.to_nat (kk s)) ++ [WOver]) /\
            (lp s <> LDial -> lp s <> LOver -> 1 <= kk s /\ marks (wlog s) = links (N.to_nat (kk s - 1)) ++ firstn (part (lp s)) (linkOf (kk s)));
  i_calls : forall l1 e l2 k, wlog s = l1 ++ e :: l2 -> userCall k e \/ userRet k e -> In (WDial k) l1 /\ (forall j, In (WDial j) l1 -> j <= k) /\ ~ In WOver l1;
  i_ends : forall l1 e l2, wlog s = l1 ++ e :: l2 -> e = WOver \/ (exists k, e = WDial k) -> begun l1 = returned l1 }.

Lemma begun_app : forall a b, begun (a ++ b) = (begun a + begun b)%nat.
Proof. intros. unfold begun. rewrite filter_app, app_length. reflexivity. Qed.
Lemma returned_app : forall a b, returned (a ++ b) = (returned a + returned b)%nat.
Proof. intros. unfold returned. rewrite filter_app, app_length. reflexivity. Qed.
Lemma marks_app : forall a b, marks (a ++ b) = marks a ++ marks b.
Proof. intros. apply filter_app. Qed.

Lemma snoc_cases : forall (l l1 l2 : list wev) x e, l ++ [x] = l1 ++ e :: l2 -> (l1 = l /\ e = x /\ l2 = []) \/ exists l2', l2 = l2' ++ [x] /\ l = l1 ++ e :: l2'.
Proof.
  intros l l1 l2 x e H. destruct l2 as [|y l2 _] using rev_ind.
  - apply app_inj_tail in H. left. intuition.
  - right. rewrite app_comm_cons, app_assoc in H. apply app_inj_tail in H. destruct H as [-> ->]. eauto.
Qed.

Lemma links_last : forall k, 1 <= k -> links (N.to_nat (k - 1)) ++ linkOf k = links (N.to_nat k).
Proof. intros k H. replace (N.to_nat k) with (S (N.to_nat (k - 1))) by lia. cbn [links]. repeat f_equal. lia. Qed.

Lemma qinv_init : forall b, qinv (qinit b).
Proof.
  intro b. split; cbn [qinit lp kk rwc rd wr hsp hrun wlog].
  - auto.
  - destruct b; reflexivity.
  - destruct b; cbn; [intros k [H|[]]; injection H as <-; lia|intros k []].
  - congruence.
  - destruct b; cbn; [intros [X|[]]; discriminate X|intros []].
  - intros _ ->. split; reflexivity.
  - intuition discriminate.
  - split; [|split].
    + intros _ ->. reflexivity.
    + discriminate.
    + congruence.
  - intros l1 e l2 k H U. destruct b; destruct l1 as [|x [|y l1]]; try discriminate H. injection H as <- _. destruct U as [[]|[]].
  - intros l1 e l2 H _. destruct b; destruct l1 as [|x [|y l1]]; try discriminate H. reflexivity.
Qed.

Lemma busy : forall s, qinv s -> rd s <> RNo \/ wr s = true \/ hsp s <> 0%nat \/ hrun s <> 0%nat -> ~ resting (lp s).
Proof. intros s I H R. destruct (i_rest _ I R) as (A & B & C & D). intuition congruence. Qed.

Lemma busy_now : forall s, qinv s -> ~ resting (lp s) -> In (WDial (kk s)) (wlog s) /\ ~ In WOver (wlog s).
Proof.
  intros s I R. unfold resting in R. split; [apply (i_now _ I); tauto|]. intro H. apply (i_over _ I) in H. tauto.
Qed.

(** the log does not change *)
Lemma same_log : forall s s', qinv s -> wlog s' = wlog s -> kk s' = kk s ->
  (resting (lp s') -> rd s' = RNo /\ wr s' = false /\ hsp s' = 0%nat /\ hrun s' = 0%nat) ->
  (hrun s' + match rd s' with RSub => 1 | _ => 0 end = hrun s + match rd s with RSub => 1 | _ => 0 end)%nat ->
  (lp s' = LOffCall \/ lp s' = LOff \/ lp s' = LJoin \/ lp s' = LEnd -> rwc s' = false) ->
  (lp s' = lp s /\ (rwc s' = rwc s \/ lp s <> LDial) \/
   (lp s = LDial /\ rwc s = true /\ lp s' = LStart) \/
   (lp s = LEnd /\ lp s' = LDial /\ rwc s' = false) \/
   (~ In (lp s) [LDial; LOver] /\ ~ In (lp s') [LDial; LOver] /\ part (lp s') = part (lp s))) -> qinv s'.
Proof.
  intros s s' I W K R C X D. split; rewrite ?W, ?K; try assumption.
  - rewrite (i_cnt _ I). lia.
  - apply (i_dial _ I).
  - intros A B. destruct D as [[D _]|[(D1 & D2 & D3)|[(D1 & D2 & D3)|(D1 & D2 & D3)]]].
    + rewrite D in *. apply (i_now _ I); assumption.
    + destruct (i_first _ I D1 D2) as [E F]. rewrite E, F. left. reflexivity.
    + congruence.
    + cbn in D1. apply (i_now _ I); intuition congruence.
  - intro A. apply (i_over _ I) in A. cbn in D. intuition congruence.
  - intros A B. destruct D as [[D [E|E]]|[(D1 & D2 & D3)|[(D1 & D2 & D3)|(D1 & D2 & D3)]]]; try congruence.
    + apply (i_first _ I); congruence.
    + cbn in D2. intuition congruence.
  - destruct (i_marks _ I) as (M1 & M2 & M3). destruct D as [[D E]|[(D1 & D2 & D3)|[(D1 & D2 & D3)|(D1 & D2 & D3)]]].
    + rewrite D. split; [|split]; [|assumption|assumption]. intros A B. destruct E as [E|E]; [apply M1; congruence|congruence].
    + rewrite D3. destruct (i_first _ I D1 D2) as [E F]. split; [discriminate|]. split; [discriminate|]. intros _ _. rewrite E, F. cbn. split; [lia|reflexivity].
    + rewrite D2. split; [|split; [discriminate|congruence]]. intros _ _. destruct (M3 ltac:(congruence) ltac:(congruence)) as [M4 M5].
      rewrite M5, D1. cbn [part]. change (firstn 5 (linkOf (kk s))) with (linkOf (kk s)). apply links_last. assumption.
    + cbn in D1, D2. split; [intuition congruence|]. split; [intuition congruence|]. intros A B. rewrite D3. apply M3; intuition congruence.
  - apply (i_calls _ I).
  - apply (i_ends _ I).
Qed.

(** a handler or SubFunc is called or returns *)
Lemma call_log : forall s s' x, qinv s -> ~ resting (lp s) -> wlog s' = wlog s ++ [x] -> userCall (kk s) x \/ userRet (kk s) x ->
  kk s' = kk s -> lp s' = lp s -> rwc s' = rwc s ->
  (begun [x] + (hrun s + match rd s with RSub => 1 | _ => 0 end) = returned [x] + hrun s' + match rd s' with RSub => 1 | _ => 0 end)%nat -> qinv s'.
Proof.
  intros s s' x I R W U K L V C. destruct (busy_now s I R) as [N1 N2].
  assert (MX : marks [x] = []) by (destruct x; cbn in U |- *; tauto).
  split; rewrite ?W, ?K, ?L, ?V; try (apply I).
  - intro A. contradiction.
  - rewrite begun_app, returned_app, (i_cnt _ I). lia.
  - intros k A. apply in_app_or in A. destruct A as [A|[A|[]]]; [apply (i_dial _ I); assumption|]. subst x. cbn in U. tauto.
  - intros A B. rewrite in_app_iff. auto.
  - intro A. apply in_app_or in A. destruct A as [A|[A|[]]]; [apply (i_over _ I); assumption|]. subst x. cbn in U. tauto.
  - intros A B. exfalso. apply R. left. assumption.
  - rewrite marks_app, MX, app_nil_r. apply (i_marks _ I).
  - intros l1 e l2 k E HU. apply snoc_cases in E. destruct E as [(-> & -> & ->)|(l2' & -> & E)]; [|eapply (i_calls _ I); eassumption].
    assert (k = kk s) by (destruct x; cbn in U, HU; intuition congruence). subst k. split; [assumption|]. split; [apply (i_dial _ I)|assumption].
  - intros l1 e l2 E HU. apply snoc_cases in E. destruct E as [(-> & -> & ->)|(l2' & -> & E)]; [|eapply (i_ends _ I); eassumption].
    exfalso. destruct HU as [->|(k & ->)]; cbn in U; tauto.
Qed.

(** a callback is called or returns *)
Lemma cb_log : forall s s' x, qinv s -> ~ In (lp s) [LDial; LOver] -> ~ In (lp s') [LDial; LOver] -> ~ resting (lp s') ->
  wlog s' = wlog s ++ [x] -> firstn (part (lp s)) (linkOf (kk s)) ++ [x] = firstn (part (lp s')) (linkOf (kk s)) -> (1 <= part (lp s))%nat ->
  kk s' = kk s -> rwc s' = rwc s -> rd s' = rd s -> hrun s' = hrun s ->
  (lp s' = LOffCall \/ lp s' = LOff \/ lp s' = LJoin \/ lp s' = LEnd -> rwc s = false) ->
  match x with WConnect _ | WConnected _ | WDis _ | WDisEnd _ => True | _ => False end -> qinv s'.
Proof.
  intros s s' x I D1 D2 R W F P K V RD HR O X. cbn [In] in D1, D2.
  assert (B0 : begun [x] = 0%nat /\ returned [x] = 0%nat) by (destruct x; try contradiction; split; reflexivity). destruct B0 as [B1 B2].
  assert (MX : marks [x] = [x]) by (destruct x; try contradiction; reflexivity).
  split; rewrite ?W, ?K, ?V, ?RD, ?HR; try assumption.
  - intro A. contradiction.
  - rewrite begun_app, returned_app, (i_cnt _ I), B1, B2. lia.
  - intros k A. apply in_app_or in A. destruct A as [A|[A|[]]]; [apply (i_dial _ I); assumption|]. subst x. contradiction.
  - intros A B. rewrite in_app_iff. left. apply (i_now _ I); intuition congruence.
  - intro A. apply in_app_or in A. destruct A as [A|[A|[]]]; [apply (i_over _ I) in A; intuition congruence|]. subst x. contradiction.
  - intros A B. exfalso. apply D2. left. congruence.
  - destruct (i_marks _ I) as (_ & _ & M). destruct (M ltac:(intuition congruence) ltac:(intuition congruence)) as [M1 M2].
    split; [intuition congruence|]. split; [intuition congruence|]. intros _ _. split; [assumption|]. rewrite marks_app, M2, MX, <- app_assoc, F. reflexivity.
  - intros l1 e l2 k E HU. apply snoc_cases in E. destruct E as [(-> & -> & ->)|(l2' & -> & E)]; [|eapply (i_calls _ I); eassumption].
    exfalso. destruct x; cbn in HU; tauto.
  - intros l1 e l2 E HU. apply snoc_cases in E. destruct E as [(-> & -> & ->)|(l2' & -> & E)]; [|eapply (i_ends _ I); eassumption].
    exfalso. destruct HU as [->|(k & ->)]; contradiction.
Qed.

(** a new link, or the end *)
Lemma rest_log : forall s s' x, qinv s -> resting (lp s) -> wlog s' = wlog s ++ [x] -> rd s' = rd s -> wr s' = wr s -> hsp s' = hsp s -> hrun s' = hrun s ->
  ((lp s = LDial /\ rwc s = false /\ lp s' = LStart /\ kk s' = kk s + 1 /\ x = WDial (kk s + 1)) \/
   ((lp s = LDial /\ rwc s = false \/ lp s = LEnd) /\ lp s' = LOver /\ kk s' = kk s /\ x = WOver)) -> qinv s'.
Proof.
  intros s s' x I R W E1 E2 E3 E4 D. destruct (i_rest _ I R) as (R1 & R2 & R3 & R4).
  pose proof (i_cnt _ I) as C. rewrite R1, R4 in C.
  assert (X : x = WOver \/ exists k, x = WDial k) by (destruct D as [D|D]; [right; eexists; apply D|left; apply D]).
  assert (B0 : begun [x] = 0%nat /\ returned [x] = 0%nat /\ marks [x] = [x]) by (destruct X as [->|(k & ->)]; repeat split). destruct B0 as (B1 & B2 & MX).
  destruct (i_marks _ I) as (M1 & M2 & M3).
  split; rewrite ?W, ?E1, ?E2, ?E3, ?E4.
  - intros _. rewrite R1, R2, R3, R4. auto.
  - rewrite begun_app, returned_app, B1, B2, C, R1, R4. lia.
  - intros k A. apply in_app_or in A. destruct A as [A|[A|[]]]; [apply (i_dial _ I) in A|]; destruct D as [(D1 & D2 & D3 & D4 & D5)|(D1 & D2 & D3 & D4)]; try rewrite D4; try rewrite D3; try lia.
    + rewrite D5 in A. injection A as <-. lia.
    + rewrite D4 in A. discriminate A.
  - intros A B. destruct D as [(D1 & D2 & D3 & D4 & D5)|(D1 & D2 & D3 & D4)]; [|congruence]. rewrite in_app_iff, D4, D5. right. left. reflexivity.
  - intro A. destruct D as [(D1 & D2 & D3 & D4 & D5)|(D1 & D2 & D3 & D4)]; [|assumption].
    apply in_app_or in A. destruct A as [A|[A|[]]]; [apply (i_over _ I) in A; congruence|congruence].
  - intros A. destruct D as [D|D]; destruct D as (_ & D); intuition congruence.
  - intros A. destruct D as [(D1 & D2 & D3 & D4 & D5)|(D1 & D2 & D3 & D4)]; intuition congruence.
  - rewrite marks_app, MX. destruct D as [(D1 & D2 & D3 & D4 & D5)|(D1 & D2 & D3 & D4)].
    + rewrite D3, D4, D5. split; [discriminate|]. split; [discriminate|]. intros _ _. split; [lia|]. replace (kk s + 1 - 1) with (kk s) by lia. rewrite M1; auto.
    + rewrite D2, D3, D4. split; [discriminate|]. split; [|congruence]. intros _. f_equal. destruct D1 as [[D1 D5]|D1]; [apply M1; assumption|].
      destruct (M3 ltac:(congruence) ltac:(congruence)) as [M4 M5]. rewrite M5, D1. cbn [part]. change (firstn 5 (linkOf (kk s))) with (linkOf (kk s)). apply links_last. assumption.
  - intros l1 e l2 k E HU. apply snoc_cases in E. destruct E as [(-> & -> & ->)|(l2' & -> & E)]; [|eapply (i_calls _ I); eassumption].
    exfalso. destruct X as [->|(j & ->)]; cbn in HU; tauto.
  - intros l1 e l2 E HU. apply snoc_cases in E. destruct E as [(-> & -> & ->)|(l2' & -> & E)]; [|eapply (i_ends _ I); eassumption]. lia.
Qed.

Ltac qsame s := apply (same_log s); cbn [goLp goRd rdEnd lp kk rwc ldone closed rd wr hsp hrun crashed wlog]; rewrite ?app_nil_r; auto.

Lemma qinv_step : forall rc s l s', qinv s -> qstep rc s l = Some s' -> qinv s'.
Proof.
  intros rc s l s' I H. unfold qstep in H. destruct (crashed s); [discriminate H|].
  destruct l.
  - (* QHave *) destruct (lp s) eqn:L; try discriminate H. destruct (rwc s) eqn:V; [|discriminate H]. injection H as <-.
    qsame s; try (intuition discriminate). intros _. apply (i_rest _ I). left. assumption.
  - destruct (lp s) eqn:L; try discriminate H. destruct (rwc s) eqn:V; [discriminate H|]. injection H as <-.
    apply (rest_log s _ (WDial (kk s + 1)) I); cbn; auto. left. assumption. left. auto.
  - destruct (lp s) eqn:L; try discriminate H. destruct (rwc s) eqn:V; [discriminate H|]. injection H as <-. destruct (closed s); [|assumption].
    apply (rest_log s _ WOver I); cbn; auto. left. assumption.
  - (* QSpawn *) destruct (lp s) eqn:L; try discriminate H. injection H as <-. destruct (i_rest _ I ltac:(right; left; assumption)) as (R1 & R2 & R3 & R4).
    qsame s; rewrite ?R1, ?R4, ?L; auto; try (unfold resting; intuition discriminate). right. right. right. cbn. intuition discriminate.
  - destruct (lp s) eqn:L; try discriminate H. injection H as <-. apply (cb_log s _ (WConnect (kk s)) I); cbn; rewrite ?L; cbn; auto; unfold resting; intuition discriminate.
  - destruct (lp s) eqn:L; try discriminate H. injection H as <-. apply (cb_log s _ (WConnected (kk s)) I); cbn; rewrite ?L; cbn; auto; unfold resting; intuition discriminate.
  - destruct (lp s) eqn:L; try discriminate H. destruct (ldone s); [|discriminate H]. injection H as <-.
    qsame s; rewrite ?L; try (unfold resting; intuition discriminate). right. right. right. cbn. intuition discriminate.
  - destruct (lp s) eqn:L; try discriminate H. injection H as <-.
    qsame s; rewrite ?L; try (unfold resting; intuition discriminate). right. right. right. cbn. intuition discriminate.
  - destruct (lp s) eqn:L; try discriminate H. injection H as <-. apply (cb_log s _ (WDis (kk s)) I); cbn; rewrite ?L; cbn; auto; try (unfold resting; intuition discriminate).
    intros _. apply (i_rwc _ I). auto.
  - destruct (lp s) eqn:L; try discriminate H. injection H as <-. apply (cb_log s _ (WDisEnd (kk s)) I); cbn; rewrite ?L; cbn; auto; try (unfold resting; intuition discriminate).
    intros _. apply (i_rwc _ I). auto.
  - (* QJoin *) destruct (lp s) eqn:L; try discriminate H. destruct (rd s) eqn:E1; try discriminate H. destruct (wr s) eqn:E2; try discriminate H.
    destruct (hsp s) eqn:E3; try discriminate H. destruct (hrun s) eqn:E4; try discriminate H. injection H as <-.
    qsame s; rewrite ?L, ?E1, ?E2, ?E3, ?E4; auto.
    + intros _. apply (i_rwc _ I). auto.
    + right. right. right. cbn. intuition discriminate.
  - (* QEnd *) destruct (lp s) eqn:L; try discriminate H. destruct rc; injection H as <-.
    + qsame s; try (intuition discriminate). { intros _. apply (i_rest _ I). rewrite L. unfold resting. auto. } { right. right. left. repeat split; auto. apply (i_rwc _ I). auto. }
    + apply (rest_log s _ WOver I); cbn; auto. rewrite L. unfold resting. auto.
  - injection H as <-. qsame s. apply (i_rest _ I). apply (i_rwc _ I).
  - destruct (everHandled (wlog s)) eqn:EH; [|discriminate H]. injection H as <-. qsame s. apply (i_rest _ I). left. split; [reflexivity|].
    destruct (rwc s) eqn:V; [|left; reflexivity]. right. intro L. destruct (i_first _ I L V) as [_ F]. rewrite F in EH. discriminate EH.
  - destruct (rd s) eqn:E; try discriminate H. injection H as <-. pose proof (busy s I ltac:(left; congruence)) as B.
    destruct (rwc s) eqn:V; qsame s; rewrite ?E, ?V; auto; try tauto; intro A; rewrite <- V; apply (i_rwc _ I); assumption.
  - destruct (rd s) eqn:E; try discriminate H. pose proof (busy s I ltac:(left; congruence)) as B. destruct (rwc s) eqn:V; injection H as <-; qsame s; rewrite ?E, ?V; auto; try tauto.
    intro A; rewrite <- V; apply (i_rwc _ I); assumption.
  - destruct (rd s) eqn:E; try discriminate H. pose proof (busy s I ltac:(left; congruence)) as B. injection H as <-. qsame s; rewrite ?E; auto; try tauto. apply (i_rwc _ I).
  - destruct (rd s) eqn:E; try discriminate H. pose proof (busy s I ltac:(left; congruence)) as B. injection H as <-.
    apply (call_log s _ (WSub (kk s)) I B); cbn; auto. rewrite E. lia.
  - destruct (rd s) eqn:E; try discriminate H. pose proof (busy s I ltac:(left; congruence)) as B. injection H as <-.
    apply (call_log s _ (WSubEnd (kk s)) I B); cbn; auto. rewrite E. lia.
  - destruct (rd s) eqn:E; try discriminate H. pose proof (busy s I ltac:(left; congruence)) as B. injection H as <-. qsame s; rewrite ?E; auto; try tauto. apply (i_rwc _ I).
  - destruct (rd s) eqn:E; try discriminate H. pose proof (busy s I ltac:(left; congruence)) as B. injection H as <-.
    destruct (rwc s) eqn:V; qsame s; rewrite ?E, ?V; auto; try tauto; intro A; rewrite <- V; apply (i_rwc _ I); assumption.
  - destruct (rd s) eqn:E; try discriminate H. pose proof (busy s I ltac:(left; congruence)) as B. injection H as <-. qsame s; rewrite ?E; auto; try tauto. apply (i_rwc _ I).
  - destruct (hsp s) eqn:E; try discriminate H. pose proof (busy s I ltac:(right; right; left; congruence)) as B. injection H as <-.
    apply (call_log s _ (WHandler (kk s)) I B); cbn; auto; try lia.
  - destruct (hrun s) eqn:E; try discriminate H. pose proof (busy s I ltac:(right; right; right; congruence)) as B. injection H as <-.
    apply (call_log s _ (WHandlerEnd (kk s)) I B); cbn; auto. rewrite E. lia.
  - destruct (wr s) eqn:E; try discriminate H. pose proof (busy s I ltac:(right; left; congruence)) as B. injection H as <-. qsame s; try tauto. apply (i_rwc _ I).
Qed.

Lemma qreach : forall rc first ls s, run (qstep rc) (qinit first) ls = Some s -> qinv s.
Proof.
  intros rc first ls s R. refine (run_inv (qstep rc) qinv _ ls (qinit first) s (qinv_init first) R). intros; eapply qinv_step; eassumption.
Qed.

(** Proved part of C81: the dials, OnConnect and OnDisconnect come in turns, once for each link, one link after the other; after
    Wait nothing more of them.  Missing: that no handler or SubFunc of a link is called before OnConnect or after OnDisconnect
    ([C81_refuted], [C81_late_calls]). *)
Theorem C81_in_turns_partial : forall rc first ls s, run (qstep rc) (qinit first) ls = Some s ->
  exists n m, marks (wlog s) = links n ++ firstn m (linkOf (N.of_nat n + 1)) \/ marks (wlog s) = links n ++ [WOver].
Proof.
  intros rc first ls s R. pose proof (qreach _ _ _ _ R) as I. destruct (i_marks _ I) as (M1 & M2 & M3).
  assert (D : lp s = LDial \/ lp s = LOver \/ (lp s <> LDial /\ lp s <> LOver)) by (destruct (lp s); auto; right; right; split; discriminate).
  destruct D as [D|[D|[D1 D2]]].
  - destruct (rwc s) eqn:V.
    + destruct (i_first _ I D V) as [_ ->]. exists 0%nat, 1%nat. left. reflexivity.
    + exists (N.to_nat (kk s)), 0%nat. left. rewrite M1 by auto. cbn. rewrite app_nil_r. reflexivity.
  - exists (N.to_nat (kk s)), 0%nat. right. auto.
  - destruct (M3 D1 D2) as [A B]. exists (N.to_nat (kk s - 1)), (part (lp s)). left. rewrite B. repeat f_equal. lia.
Qed.
Print Assumptions C81_in_turns_partial.

(** ... a handler or SubFunc of link k is called, and returns, after link k was dialed, before a later link is and before Wait
    returns *)
Theorem C81_own_link_partial : forall rc first ls s l1 e l2 k, run (qstep rc) (qinit first) ls = Some s ->
  wlog s = l1 ++ e :: l2 -> userCall k e \/ userRet k e -> In (WDial k) l1 /\ (forall j, In (WDial j) l1 -> j <= k) /\ ~ In WOver l1.
Proof. intros rc first ls s l1 e l2 k R. exact (i_calls _ (qreach _ _ _ _ R) l1 e l2 k). Qed.
Print Assumptions C81_own_link_partial.

(** ... and whenever a link is dialed and when Wait returns, every call that was begun has returned *)
Theorem C81_returned_partial : forall rc first ls s l1 e l2, run (qstep rc) (qinit first) ls = Some s ->
  wlog s = l1 ++ e :: l2 -> e = WOver \/ (exists k, e = WDial k) -> begun l1 = returned l1.
Proof. intros rc first ls s l1 e l2 R. exact (i_ends _ (qreach _ _ _ _ R) l1 e l2). Qed.
Print Assumptions C81_returned_partial.

(** two links, a handler and a SubFunc call on the first, Close during the second *)
Example C81_case :
  option_map wlog (run (qstep true) (qinit true)
    [QHave; QSpawn; QTest; QTake; QOn; QOnRet; QFrame; QLook; QGo; QHStart; QPush; QPushRet; QRdEnd; QDone; QCloseRWC; QOff; QHEnd; QOffRet; QWrEnd; QJoin; QEnd;
     QDialOk; QSpawn; QClose; QOn; QTest; QOnRet; QDone; QTake; QCloseRWC; QRdEnd; QOff; QOffRet; QWrEnd; QJoin; QEnd; QDialFail]) =
  Some [WDial 1; WConnect 1; WConnected 1; WHandler 1; WSub 1; WSubEnd 1; WDis 1; WHandlerEnd 1; WDisEnd 1;
        WDial 2; WConnect 2; WConnected 2; WDis 2; WDisEnd 2; WOver].
Proof. vm_compute. reflexivity. Qed.

(** ** C82 *)

(** The full statement of C82: nothing the user or the peer does makes the client's goroutines panic. *)
Definition C82_statement : Prop := forall rc first ls s, run (qstep rc) (qinit first) ls = Some s -> crashed s = false.

(** Close right after NewConnection: the reader has seen a socket and loop takes it away before the reader reads it again. *)
Theorem C82_refuted : ~ C82_statement.
Proof.
  intro H. pose proof (H false true [QHave; QSpawn; QTest; QClose; QOn; QOnRet; QDone; QCloseRWC; QTake]
    (mkQ LOffCall 1 false true true RTake true 0 0 true [WDial 1; WConnect 1; WConnected 1]) eq_refl) as X. discriminate X.
Qed.
Print Assumptions C82_refuted.

(** the socket is closed: by loop, or by a handler through its frame *)
Definition closes (l : qlabel) : Prop := l = QCloseRWC \/ l = QFrameClose.

Lemma calm_step : forall rc s l s', crashed s = false -> (rd s = RTake -> rwc s = true) -> (closes l -> rd s <> RTake) -> qstep rc s l = Some s' ->
  crashed s' = false /\ (rd s' = RTake -> rwc s' = true).
Proof.
  intros rc s l s' C V HC Q. unfold qstep in Q. rewrite C in Q. unfold closes in HC. destruct l;
  repeat match type of Q with context[match ?x with _ => _ end] => destruct x eqn:?; try discriminate Q end;
  injection Q as <-; cbn [goLp goRd rdEnd crashed rd rwc lp]; (split; [auto; try congruence|]); auto; intros; try congruence; try (apply V; congruence); try (exfalso; apply HC; [auto|congruence]); intuition congruence.
Qed.

(** Proved part of C82: no panic when the socket is not closed between the two places where the reader looks at it.  Missing:
    that case ([C82_refuted]). *)
Theorem C82_no_panic_partial : forall rc first ls s, run (qstep rc) (qinit first) ls = Some s ->
  (forall ls1 l ls2 s1, ls = ls1 ++ l :: ls2 -> run (qstep rc) (qinit first) ls1 = Some s1 -> closes l -> rd s1 <> RTake) ->
  crashed s = false.
Proof.
  intros rc first ls. assert (X : forall s, run (qstep rc) (qinit first) ls = Some s ->
    (forall ls1 l ls2 s1, ls = ls1 ++ l :: ls2 -> run (qstep rc) (qinit first) ls1 = Some s1 -> closes l -> rd s1 <> RTake) ->
    crashed s = false /\ (rd s = RTake -> rwc s = true)).
  2: { intros s R H. apply (X s R H). }
  induction ls as [|l ls IH] using rev_ind; intros s R H.
  - injection R as <-. split; [reflexivity|discriminate].
  - rewrite run_app in R. destruct (run (qstep rc) (qinit first) ls) as [s1|] eqn:R1; [|discriminate R].
    destruct (IH s1 eq_refl) as [C V]. { intros ls1 l' ls2 s2 -> R2 CL. eapply (H ls1 l' (ls2 ++ [l])); eauto. rewrite <- app_assoc. reflexivity. }
    pose proof (H ls l [] s1 eq_refl R1) as HC. cbn [run] in R. destruct (qstep rc s1 l) as [s2|] eqn:Q; [|discriminate R]. injection R as <-.
    exact (calm_step rc s1 l s2 C V HC Q).
Qed.
Print Assumptions C82_no_panic_partial.

(** a link that is lost after the reader got to it *)
Example C82_case :
  option_map crashed (run (qstep true) (qinit false)
    [QDialOk; QSpawn; QTest; QOn; QTake; QOnRet; QWrEnd; QDone; QCloseRWC; QRdEnd; QOff; QOffRet; QJoin; QEnd; QDialOk; QSpawn; QOn; QOnRet; QWrEnd; QDone; QCloseRWC; QTest]) = Some false.
Proof. vm_compute. reflexivity. Qed.
