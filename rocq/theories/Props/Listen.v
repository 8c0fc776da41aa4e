(** C62: listening follows the configuration, and nothing is left open. *)
From Verif Require Import Model.GoBase Model.Accept Model.Listen.
Open Scope Z_scope.

(** What a binding asks for, said without the code's order of tests. *)
Definition listensAsConfigured (b : binding) (s : N) (l : ln) : Prop :=
  match l with
  | Kal s' c => s' = s /\ hasOverlay b = false /\ hasTLS b = false /\ kaWBuf c = wBufSize b /\ kaRBuf c = rBufSize b /\ kaSeconds c = 20
  | TlsKal s' c => s' = s /\ hasOverlay b = false /\ hasTLS b = true /\ kaWBuf c = wBufSize b /\ kaRBuf c = rBufSize b /\ kaSeconds c = 20
  | Overlaid s' c t => s' = s /\ hasOverlay b = true /\ t = hasTLS b /\ kaWBuf c = wBufSize b /\ kaRBuf c = rBufSize b /\ kaSeconds c = 20
  end.
Definition callFor (b : binding) (c : listenCall) : Prop :=
  c = (if hasListenFunc b then ByListenFunc (addr b) else ByNetListen (addr b)).

(** A connection the inner listener gave to a round of the loop that took place. *)
Definition given (os : list inner) (rounds : list (list acceptAct)) (c : N) : Prop :=
  exists k t r d, (k < length rounds)%nat /\ nth_error os k = Some (IConn c t r d).
Definition dealtWith (rounds : list (list acceptAct)) (c : N) : Prop :=
  In (AServe c) (concat rounds) \/ In (ACloseConn c) (concat rounds).

(** The full claim: a ListenAll that succeeds has given every binding its listener; one that fails leaves no socket open that
    Shutdown would not close; every connection accepted is served or closed. *)
Definition C62_statement : Prop :=
  (forall bs res calls lns opened, ListenAll bs res = (calls, lns, opened, true) ->
     forall s, In s opened -> In s (shutdownCloses (registeredByListenAll bs))) /\
  (forall conf a cl os c, given os (serveOver conf a cl os) c -> dealtWith (serveOver conf a cl os) c).

(** The second address cannot be listened on: the first socket stays open. *)
Definition plain (a : N) : binding := mkBind a false false false 0 0.
Theorem C62_failed_listen_leaves_open :
  ListenAll [plain 1; plain 2] (fun i => match i with O => Some 7%N | _ => None end) =
    ([ByNetListen 1; ByNetListen 2], [Some (Kal 7 (mkKa 20 0 0)); None], [7%N], true) /\
  shutdownCloses (registeredByListenAll [plain 1; plain 2]) = [].
Proof. split; reflexivity. Qed.
Print Assumptions C62_failed_listen_leaves_open.

(** A connection of another type than TCPConn is neither served nor closed. *)
Theorem C62_wrong_type_lost : forall conf a cl c r, given [IConn c false r false] (serveOver conf a cl [IConn c false r false]) c /\
  ~ dealtWith (serveOver conf a cl [IConn c false r false]) c.
Proof.
  intros. split.
  - exists 0%nat, false, r, false. split; [cbn; lia|reflexivity].
  - intros [[D|[]]|[D|[]]]; discriminate.
Qed.
Print Assumptions C62_wrong_type_lost.

Theorem C62_refuted : ~ C62_statement.
Proof.
  intros [A _]. destruct C62_failed_listen_leaves_open as [E S]. specialize (A _ _ _ _ _ E 7%N (or_introl eq_refl)). rewrite S in A. destruct A.
Qed.
Print Assumptions C62_refuted.

(** What Serve has registered, Shutdown closes, and nothing else: the sockets left open are the ones that ListenAll opened and no Serve took over. *)
Theorem C62_registered_closed : forall registered s, In s (shutdownCloses registered) <-> In (Some s) registered.
Proof.
  intros registered s. unfold shutdownCloses. rewrite in_flat_map. split.
  - intros ([t|] & A & B); [destruct B as [<-|[]]; exact A|contradiction].
  - intro H. exists (Some s). split; [exact H|left; reflexivity].
Qed.
Print Assumptions C62_registered_closed.
Example C62_registered_closed_case : shutdownCloses [Some 7%N; None; Some 9%N] = [7%N; 9%N].
Proof. reflexivity. Qed.

Lemma listenFrom_spec : forall bs i res calls lns opened e, listenFrom i bs res = (calls, lns, opened, e) ->
  length lns = length bs /\
  exists k, (k <= length bs)%nat /\ (e = false <-> k = length bs) /\
    length opened = k /\ length calls = (if e then S k else k) /\
    (forall j b c, nth_error bs j = Some b -> nth_error calls j = Some c -> callFor b c) /\
    (forall j, (j < k)%nat -> res (i + j)%nat = nth_error opened j /\ exists b s l, nth_error bs j = Some b /\ nth_error opened j = Some s /\
       nth_error lns j = Some (Some l) /\ listensAsConfigured b s l) /\
    (e = true -> res (i + k)%nat = None) /\
    (forall j l, (k <= j)%nat -> nth_error lns j = Some l -> l = None).
Proof.
  induction bs as [|b bs IH]; intros i res calls lns opened e H; cbn in H.
  - inversion H; subst. split; [reflexivity|]. exists 0%nat. cbn. repeat split; auto; try lia; try discriminate.
    + intros [|j] b c B; discriminate.
    + intros [|j] l _ B; discriminate.
  - destruct (res i) as [s|] eqn:R.
    + destruct (listenFrom (S i) bs res) as [[[cs' lns'] op'] e'] eqn:E. inversion H; subst; clear H.
      destruct (IH _ _ _ _ _ _ E) as (L & k & K1 & K2 & K3 & K4 & K5 & K6 & K7 & K8).
      split; [cbn; congruence|]. exists (S k). cbn [length]. split; [lia|]. split; [rewrite K2; lia|]. split; [congruence|].
      split; [rewrite K4; destruct e; reflexivity|].
      split. { intros [|j] b' c B C; cbn in B, C; [inversion B; inversion C; subst; reflexivity|eapply K5; eassumption]. }
      split. { intros [|j] J.
        - rewrite Nat.add_0_r. cbn. split; [assumption|]. exists b, s, (wrap b s). repeat split; auto.
          unfold wrap, listensAsConfigured. destruct (hasOverlay b) eqn:O; [auto 10|]. destruct (hasTLS b) eqn:T; auto 10.
        - cbn. replace (i + S j)%nat with (S i + j)%nat by lia. apply K6. lia. }
      split. { replace (i + S k)%nat with (S i + k)%nat by lia. assumption. }
      intros [|j] l J B; [lia|]. eapply K8; [|exact B]. lia.
    + inversion H; subst; clear H. split; [cbn; rewrite map_length; reflexivity|]. exists 0%nat. cbn [length].
      split; [lia|]. split; [split; intro; [discriminate|lia]|]. split; [reflexivity|]. split; [reflexivity|].
      split. { intros [|j] b' c B C; cbn in B, C; [inversion B; inversion C; subst; reflexivity|destruct j; discriminate]. }
      split; [intros j J; lia|]. split; [intros _; rewrite Nat.add_0_r; assumption|].
      intros [|j] l _ B; cbn in B; [inversion B; reflexivity|]. rewrite nth_error_map in B. destruct (nth_error bs j); cbn in B; inversion B; reflexivity.
Qed.

(** A ListenAll that succeeds has given every binding a listener over its own socket, as configured. *)
Theorem C62_listen_partial : forall bs res calls lns opened, ListenAll bs res = (calls, lns, opened, false) ->
  length opened = length bs /\ length lns = length bs /\ length calls = length bs /\
  forall i b, nth_error bs i = Some b -> exists s l c, res i = Some s /\ nth_error opened i = Some s /\ nth_error calls i = Some c /\ callFor b c /\
    nth_error lns i = Some (Some l) /\ listensAsConfigured b s l.
Proof.
  intros bs res calls lns opened H. destruct (listenFrom_spec _ _ _ _ _ _ _ H) as (L & k & K1 & K2 & K3 & K4 & K5 & K6 & K7 & K8).
  assert (k = length bs) by (apply K2; reflexivity). rewrite H0 in *. clear k H0. split; [exact K3|]. split; [exact L|]. split; [exact K4|].
  intros i b B. assert (I : (i < length bs)%nat) by (apply nth_error_Some; congruence).
  destruct (K6 i I) as (RE & b' & s & l & B' & O & LN & C). rewrite B in B'. inversion B'; subst b'; clear B'.
  destruct (nth_error calls i) as [c|] eqn:CE; [|apply nth_error_None in CE; lia].
  exists s, l, c. cbn in RE. split; [congruence|]. split; [assumption|]. split; [reflexivity|]. split; [eapply K5; eassumption|]. split; assumption.
Qed.
Print Assumptions C62_listen_partial.

(** One that fails leaves open exactly the sockets of the bindings before the first one that failed, so none if the first binding
    failed; no later binding is tried.  Missing: closing the others (false, above). *)
Theorem C62_failed_listen_partial : forall bs res calls lns opened, ListenAll bs res = (calls, lns, opened, true) ->
  exists k, (k < length bs)%nat /\ res k = None /\ (forall j, (j < k)%nat -> res j <> None /\ res j = nth_error opened j) /\
    length opened = k /\ length calls = S k /\ (res 0%nat = None -> opened = []).
Proof.
  intros bs res calls lns opened H. destruct (listenFrom_spec _ _ _ _ _ _ _ H) as (L & k & K1 & K2 & K3 & K4 & K5 & K6 & K7 & K8).
  assert (k <> length bs) by (intro Z; apply K2 in Z; discriminate).
  exists k. split; [lia|]. split; [apply K7; reflexivity|]. split; [|split; [assumption|split; [assumption|]]].
  - intros j J. destruct (K6 j J) as (RE & b & s & l & _ & O & _). cbn in RE. split; congruence.
  - intro Z. destruct k; [destruct opened; [reflexivity|discriminate]|]. destruct (K6 0%nat ltac:(lia)) as (RE & b & s & l & _ & O & _). cbn in RE, O. congruence.
Qed.
Print Assumptions C62_failed_listen_partial.

Lemma loop_round : forall a cl os d k c, (k < length (acceptLoop a cl d os))%nat -> (exists r, nth_error os k = Some (AConn c r)) ->
  In (AServe c) (concat (acceptLoop a cl d os)) \/ In (ACloseConn c) (concat (acceptLoop a cl d os)).
Proof.
  intros a cl. induction os as [|o os IH]; intros d k c K [r E]; [cbn in K; lia|].
  cbn [acceptLoop] in *. destruct (acceptRound a cl d o) as [[d' acts] go] eqn:R. cbn [concat].
  destruct k as [|k].
  - cbn in E. inversion E; subst. cbn in R. destruct (a && r); inversion R; subst; [right|left]; left; reflexivity.
  - cbn in E. destruct go; [|cbn in K; lia]. cbn in K.
    destruct (IH d' k c ltac:(lia) (ex_intro _ r E)) as [X|X]; [left|right]; apply in_or_app; right; exact X.
Qed.

(** If the inner listener gives TCPConns, as net.Listen does, every accepted connection is served or closed.  Missing: the other
    types that a ListenFunc may give (false, above). *)
Theorem C62_accepted_partial : forall conf a cl os c, (forall k c t r d, nth_error os k = Some (IConn c t r d) -> t = true) ->
  given os (serveOver conf a cl os) c -> dealtWith (serveOver conf a cl os) c.
Proof.
  intros conf a cl os c T (k & t & r & d & K & E). apply (loop_round a cl (map (seen conf) os) 0%N k c K). exists r.
  rewrite nth_error_map, E. cbn. rewrite (T _ _ _ _ _ E). reflexivity.
Qed.
Print Assumptions C62_accepted_partial.

(** An accepted connection gets keep-alive and the buffer sizes that are configured, and no other option. *)
Theorem C62_options : forall b s conf, (forall c t, wrap b s = Kal s c \/ wrap b s = TlsKal s c \/ wrap b s = Overlaid s c t -> c = conf) ->
  forall o, In o (fst (kaAccept conf true)) <->
    o = OKeepAlive \/ o = OPeriod 20 \/ (wBufSize b > 0 /\ o = OWriteBuffer (wBufSize b)) \/ (rBufSize b > 0 /\ o = OReadBuffer (rBufSize b)).
Proof.
  intros b s conf H o.
  assert (C : conf = mkKa 20 (wBufSize b) (rBufSize b)).
  { symmetry. apply (H _ (hasTLS b)). unfold wrap. destruct (hasOverlay b); [auto|]. destruct (hasTLS b); auto. }
  subst conf. cbn. rewrite !in_app_iff.
  destruct (Z.gtb_spec (wBufSize b) 0); destruct (Z.gtb_spec (rBufSize b) 0); cbn; split; intros; repeat match goal with H : _ \/ _ |- _ => destruct H end;
    repeat match goal with H : _ /\ _ |- _ => destruct H end; subst; auto 10; try contradiction; try lia.
  all: try (right; right; left; split; [lia|reflexivity]); try (right; right; right; split; [lia|reflexivity]).
Qed.
Print Assumptions C62_options.

(** Accept failed and doneChan was closed by then. *)
Definition failedAfterShutdown (o : inner) : bool :=
  match o with IErr done _ => done | IConn _ isTCPConn _ done => negb isTCPConn && done end.

Lemma loop_goes_on : forall conf a cl os d, Forall (fun o => failedAfterShutdown o = false) os ->
  length (acceptLoop a cl d (map (seen conf) os)) = length os /\ ~ In AReturn (concat (acceptLoop a cl d (map (seen conf) os))) /\
  forall o os2, failedAfterShutdown o = true ->
    acceptLoop a cl d (map (seen conf) (os ++ o :: os2)) = acceptLoop a cl d (map (seen conf) os) ++ [[AReturn]].
Proof.
  intros conf a cl. induction os as [|o os IH]; intros d H.
  - split; [reflexivity|]. split; [intros []|]. intros o os2 O. cbn.
    destruct o as [[] []|c [] r []]; try discriminate; reflexivity.
  - pose proof (Forall_inv H) as O. specialize (fun d => IH d (Forall_inv_tail H)). cbn [map acceptLoop app].
    destruct (acceptRound a cl d (seen conf o)) as [[d' acts] go] eqn:R.
    assert (go = true /\ ~ In AReturn acts) as [-> A].
    { destruct o as [[] []|c [] r []]; cbn in O; try discriminate; cbn in R.
      1,2: inversion R; subst; split; [reflexivity|intros [D|[]]; discriminate].
      1,2: destruct (a && r), cl; inversion R; subst; (split; [reflexivity|]); cbn; intuition discriminate.
      inversion R; subst. split; [reflexivity|intros [D|[]]; discriminate]. }
    destruct (IH d') as (L & N & E). cbn [length concat]. split; [rewrite L; reflexivity|]. split.
    + rewrite in_app_iff. intros [X|X]; [exact (A X)|exact (N X)].
    + intros o2 os2 O2. rewrite (E o2 os2 O2). reflexivity.
Qed.

(** Serve returns at the first failed Accept after Shutdown, temporary or not, and at no other. *)
Theorem C62_serve_ends : forall conf a cl os1, Forall (fun o => failedAfterShutdown o = false) os1 ->
  length (serveOver conf a cl os1) = length os1 /\ ~ In AReturn (concat (serveOver conf a cl os1)) /\
  forall o os2, failedAfterShutdown o = true -> serveOver conf a cl (os1 ++ o :: os2) = serveOver conf a cl os1 ++ [[AReturn]].
Proof. intros conf a cl os1 H. apply loop_goes_on. exact H. Qed.
Print Assumptions C62_serve_ends.
Example C62_serve_ends_case :
  Forall (fun o => failedAfterShutdown o = false) [IErr false true; IConn 5 true false true] /\
  failedAfterShutdown (IErr true true) = true /\
  serveOver (mkKa 20 0 0) false false [IErr false true; IConn 5 true false true; IErr true true; IConn 6 true false true] =
    [[ASleep 5]; [AServe 5]; [AReturn]].
Proof. repeat split; repeat constructor. Qed.

(** Three bindings of the three kinds; two connections accepted, one of them refused by OnAccept. *)
Example C62_example :
  ListenAll [mkBind 1 true false false 4096 0; mkBind 2 false false true 0 0; mkBind 3 false true true 0 8] (fun i => Some (N.of_nat i + 10)%N) =
    ([ByListenFunc 1; ByNetListen 2; ByNetListen 3],
     [Some (Kal 10 (mkKa 20 4096 0)); Some (TlsKal 11 (mkKa 20 0 0)); Some (Overlaid 12 (mkKa 20 0 8) true)], [10; 11; 12]%N, false) /\
  serveOver (mkKa 20 4096 0) true true [IConn 5 true true false; IErr false true; IConn 6 true false false; IErr true false] =
    [[ACloseConn 5; AOnClose 5]; [ASleep 5]; [AServe 6]; [AReturn]] /\
  fst (kaAccept (mkKa 20 4096 0) true) = [OKeepAlive; OPeriod 20; OWriteBuffer 4096].
Proof. repeat split. Qed.
