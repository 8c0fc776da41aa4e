(** C69, C70: the sockets of a client connection; time and options of dialing. *)
From Coq Require Import ZifyBool ZifyNat.
From Verif Require Import Model.GoBase Model.Machine Model.Dial Model.Sockets.
Open Scope nat_scope.

(** ** Specification: reading a log of socket operations *)
(** the sockets that are open after the operations [l], if those in [o] were open before *)
Fixpoint openAfter (o : list nat) (l : list sev) : list nat :=
  match l with
  | [] => o
  | SOpen s :: l => openAfter (s :: o) l
  | SClose s :: l => openAfter (filter (fun x => negb (x =? s)) o) l
  | _ :: l => openAfter o l
  end.
Definition openedIn (l : list sev) : list nat := flat_map (fun e => match e with SOpen s => [s] | _ => [] end) l.
Definition closedIn (l : list sev) : list nat := flat_map (fun e => match e with SClose s => [s] | _ => [] end) l.

(** ** C69 *)
(** The connection [s] was made by NewConnection or NewReusedConnection (without reconnect), or by
    NewConnectionWithReconnect with na > 0 addresses; no socket of this connection existed before. *)
Definition startedAs (k : dkind) (cfg : dialCfg) (s : cst) : Prop :=
  exists hdl e b,
    (exists n t, newConn k cfg hdl e (mkNet b []) = (Some s, n, t)) \/
    (k <> KReuse /\ exists na t, 0 < na /\ newReconn k cfg na hdl e (mkNet b []) = (s, t)).

Definition C69_statement : Prop :=
  (* a dial that fails leaves no socket open, whatever was open before *)
  (forall k cfg hdl e n n' t, newConn k cfg hdl e n = (None, n', t) ->
     forall o, (forall s, In s o -> s < nxt n) ->
     exists ext, slog n' = slog n ++ ext /\ openAfter o ext = o) /\
  (* at any time at most one socket is open, none before the next dial, none after the goroutine has returned;
     every socket is closed at most once *)
  (forall k cfg s0 s, startedAs k cfg s0 -> reachable (cstep k cfg) s0 s ->
     length (openAfter [] (slog (net s))) <= 1 /\
     (dpcs (ctl s) = PDial \/ dpcs (ctl s) = PExit -> openAfter [] (slog (net s)) = []) /\
     NoDup (openedIn (slog (net s))) /\ NoDup (closedIn (slog (net s))) /\
     incl (closedIn (slog (net s))) (openedIn (slog (net s)))).

Lemma openAfter_app : forall l l' o, openAfter o (l ++ l') = openAfter (openAfter o l) l'.
Proof. induction l as [|x l IH]; intros l' o; [reflexivity|]. destruct x; cbn; apply IH. Qed.
Lemma openedIn_app : forall l l', openedIn (l ++ l') = openedIn l ++ openedIn l'.
Proof. intros. unfold openedIn. apply flat_map_app. Qed.
Lemma closedIn_app : forall l l', closedIn (l ++ l') = closedIn l ++ closedIn l'.
Proof. intros. unfold closedIn. apply flat_map_app. Qed.

Definition quiet (l : list sev) : Prop := forall e, In e l -> match e with SOpen _ | SClose _ => False | _ => True end.
Lemma quiet_open : forall l o, quiet l -> openAfter o l = o.
Proof.
  induction l as [|x l IH]; intros o H; [reflexivity|].
  assert (quiet l) by (intros e He; apply H; right; exact He). assert (X := H x (or_introl eq_refl)).
  destruct x; cbn in *; try contradiction; apply IH; assumption.
Qed.
Lemma quiet_opened : forall l, quiet l -> openedIn l = [].
Proof.
  induction l as [|x l IH]; intros H; [reflexivity|].
  assert (quiet l) by (intros e He; apply H; right; exact He). assert (X := H x (or_introl eq_refl)).
  destruct x; cbn in *; try contradiction; apply IH; assumption.
Qed.
Lemma quiet_closed : forall l, quiet l -> closedIn l = [].
Proof.
  induction l as [|x l IH]; intros H; [reflexivity|].
  assert (quiet l) by (intros e He; apply H; right; exact He). assert (X := H x (or_introl eq_refl)).
  destruct x; cbn in *; try contradiction; apply IH; assumption.
Qed.
Lemma quiet_app : forall l l', quiet l -> quiet l' -> quiet (l ++ l').
Proof. intros l l' A B e H. apply in_app_or in H. destruct H; [apply A|apply B]; assumption. Qed.
Lemma quiet_bufs : forall cfg s, quiet (setBufs cfg s).
Proof.
  intros cfg s e H. unfold setBufs in H. destruct (RBufSize cfg >? 0)%Z, (WBufSize cfg >? 0)%Z; cbn in H;
  intuition (subst; exact I).
Qed.
Lemma quiet_tls : forall s, quiet [STls s].
Proof. intros s e [<-|[]]. exact I. Qed.
Lemma quiet_nil : quiet [].
Proof. intros e []. Qed.

Lemma dialAny_spec : forall k cfg e n,
  let d := dialAny k cfg e n in
  match dConn d with
  | Some s => s = nxt n /\ nxt (dNet d) = S s /\ exists q, quiet q /\ slog (dNet d) = slog n ++ SOpen s :: q
  | None => dNet d = n \/ (nxt (dNet d) = S (nxt n) /\
              exists q, quiet q /\ slog (dNet d) = slog n ++ SOpen (nxt n) :: q ++ [SClose (nxt n)])
  end.
Proof.
  intros k cfg e n. destruct k; cbn [dialAny].
  - unfold dialTCP. destruct (netDialTimeout (DialTimeout cfg) e) as [ok t]. destruct ok; [|left; reflexivity].
    destruct (TLSConf cfg); [destruct (eTls e)|]; cbn.
    + repeat split. exists (setBufs cfg (nxt n) ++ [STls (nxt n)]). split; [apply quiet_app; [apply quiet_bufs|apply quiet_tls]|].
      rewrite <- !app_assoc. reflexivity.
    + right. split; [reflexivity|]. exists (setBufs cfg (nxt n)). split; [apply quiet_bufs|]. rewrite <- !app_assoc. reflexivity.
    + repeat split. exists (setBufs cfg (nxt n)). split; [apply quiet_bufs|reflexivity].
  - unfold DialConn. destruct (netDialTimeout (DialTimeout cfg) e) as [ok t]. destruct ok; [|left; reflexivity].
    destruct (TLSConf cfg); [destruct (eTls e)|]; cbn.
    + destruct (eUpg e); cbn.
      * repeat split. exists (setBufs cfg (nxt n) ++ [STls (nxt n)]). split; [apply quiet_app; [apply quiet_bufs|apply quiet_tls]|].
        rewrite <- !app_assoc. reflexivity.
      * right. split; [reflexivity|]. exists (setBufs cfg (nxt n) ++ [STls (nxt n)]).
        split; [apply quiet_app; [apply quiet_bufs|apply quiet_tls]|]. rewrite <- !app_assoc. reflexivity.
    + right. split; [reflexivity|]. exists (setBufs cfg (nxt n)). split; [apply quiet_bufs|]. rewrite <- !app_assoc. reflexivity.
    + destruct (eUpg e); cbn.
      * repeat split. exists (setBufs cfg (nxt n)). split; [apply quiet_bufs|reflexivity].
      * right. split; [reflexivity|]. exists (setBufs cfg (nxt n)). split; [apply quiet_bufs|]. rewrite <- !app_assoc. reflexivity.
  - unfold dialReuse. destruct (netDialTimeout (DialTimeout cfg) e) as [ok t]. destruct ok; [|left; reflexivity]. cbn.
    repeat split. exists []. split; [apply quiet_nil|reflexivity].
Qed.

(** Invariant of the machine. *)
Definition netInv (b : nat) (n : netst) (o : list nat) : Prop :=
  b <= nxt n /\ openedIn (slog n) = seq b (nxt n - b) /\ openAfter [] (slog n) = o /\
  NoDup (closedIn (slog n)) /\ incl (closedIn (slog n)) (openedIn (slog n)) /\
  (forall s, In s o -> In s (openedIn (slog n)) /\ ~ In s (closedIn (slog n))).

Definition cur1 (s : cst) : list nat := if rwc (ctl s) then [cur s] else [].
Definition sinv (b : nat) (s : cst) : Prop :=
  netInv b (net s) (cur1 s) /\
  match dpcs (ctl s) with PConnect | PServe => True | _ => rwc (ctl s) = false end.

Lemma netInv_init : forall b, netInv b (mkNet b []) [].
Proof.
  intro b. unfold netInv. cbn. rewrite Nat.sub_diag. split; [lia|]. split; [reflexivity|]. split; [reflexivity|].
  split; [constructor|]. split; intros x [].
Qed.

Lemma seq_snoc : forall b n, b <= n -> seq b (S n - b) = seq b (n - b) ++ [n].
Proof. intros b n H. replace (S n - b) with (S (n - b)) by lia. rewrite seq_S. do 2 f_equal. lia. Qed.

Lemma netInv_opened : forall b n o s, netInv b n o -> In s (openedIn (slog n)) -> s < nxt n.
Proof. intros b n o s (A & B & _) H. rewrite B in H. apply in_seq in H. lia. Qed.

Lemma netInv_dial : forall b n k cfg e, netInv b n [] ->
  netInv b (dNet (dialAny k cfg e n)) (match dConn (dialAny k cfg e n) with Some s => [s] | None => [] end).
Proof.
  intros b n k cfg e HI. assert (F := netInv_opened b n []). assert (D := dialAny_spec k cfg e n). cbn in D.
  destruct (dConn (dialAny k cfg e n)) as [s|].
  - destruct D as (-> & HN & q & Hq & HL). destruct HI as (A & B & C & D & E & _).
    assert (NI : ~ In (nxt n) (closedIn (slog n))) by (intro X; apply E in X; rewrite B in X; apply in_seq in X; lia).
    unfold netInv. rewrite HN, HL.
    rewrite openedIn_app, closedIn_app, openAfter_app. cbn.
    fold (openedIn q). fold (closedIn q).
    rewrite (quiet_opened q Hq), (quiet_closed q Hq), (quiet_open q _ Hq), C, !app_nil_r.
    split; [lia|]. split; [rewrite B; exact (eq_sym (seq_snoc b (nxt n) A))|].
    split; [reflexivity|]. split; [assumption|]. split; [intros x Hx; apply in_or_app; left; apply E; assumption|].
    intros x [<-|[]]. split; [apply in_or_app; right; left; reflexivity|assumption].
  - destruct D as [->|(HN & q & Hq & HL)]; [assumption|]. destruct HI as (A & B & C & D & E & _).
    assert (NI : ~ In (nxt n) (closedIn (slog n))) by (intro X; apply E in X; rewrite B in X; apply in_seq in X; lia).
    unfold netInv. rewrite HN, HL.
    rewrite openedIn_app, closedIn_app, openAfter_app. cbn. fold (openedIn (q ++ [SClose (nxt n)])). fold (closedIn (q ++ [SClose (nxt n)])).
    rewrite openedIn_app, closedIn_app, openAfter_app.
    rewrite (quiet_opened q Hq), (quiet_closed q Hq), (quiet_open q _ Hq), C. cbn. rewrite Nat.eqb_refl. cbn.
    split; [lia|]. split; [rewrite B; exact (eq_sym (seq_snoc b (nxt n) A))|].
    split; [reflexivity|]. split; [|split].
    + apply NoDup_rev in D. rewrite <- (rev_involutive (closedIn (slog n) ++ [nxt n])). apply NoDup_rev. rewrite rev_app_distr.
      cbn. constructor; [rewrite <- in_rev; assumption|assumption].
    + intros x Hx. apply in_app_or in Hx. apply in_or_app. destruct Hx as [Hx|[<-|[]]]; [left; apply E; assumption|right; left; reflexivity].
    + intros x [].
Qed.

Lemma netInv_close : forall b n s, netInv b n [s] -> netInv b (emit n [SClose s]) [].
Proof.
  intros b n s (A & B & C & D & E & F). unfold netInv, emit. cbn.
  rewrite openedIn_app, closedIn_app, openAfter_app, C. cbn. rewrite Nat.eqb_refl, app_nil_r. cbn.
  destruct (F s (or_introl eq_refl)) as [F1 F2].
  split; [assumption|]. split; [assumption|]. split; [reflexivity|]. split; [|split].
  - apply NoDup_rev in D. rewrite <- (rev_involutive (closedIn (slog n) ++ [s])). apply NoDup_rev. rewrite rev_app_distr.
    cbn. constructor; [rewrite <- in_rev; assumption|assumption].
  - intros x Hx. apply in_app_or in Hx. destruct Hx as [Hx|[<-|[]]]; [apply E; assumption|assumption].
  - intros x [].
Qed.

Lemma closeRWC_inv : forall b s, netInv b (net s) (cur1 s) -> netInv b (closeRWC s) [].
Proof.
  intros b s H. unfold closeRWC, cur1 in *. destruct (rwc (ctl s)); [apply netInv_close|]; assumption.
Qed.

Lemma sinv_step : forall b k cfg s l s', sinv b s -> cstep k cfg s l = Some s' -> sinv b s'.
Proof.
  intros b k cfg s l s' (HN & HP) H. destruct l as [e| |l]; unfold cstep in H.
  - assert (HD := netInv_dial b (net s) k (noTLS cfg) e). cbv zeta in H.
    destruct (dConn (dialAny k (noTLS cfg) e (net s))) as [sk|] eqn:E.
    + cbn in H. destruct (dpcs (ctl s)) eqn:P; try discriminate. unfold cur1 in HN. rewrite HP in HN.
      inversion H; subst; clear H. split; [|exact I]. unfold cur1. cbn. apply HD. assumption.
    + cbn in H. destruct (dpcs (ctl s)) eqn:P; try discriminate. unfold cur1 in HN. rewrite HP in HN.
      inversion H; subst; clear H. split; [|assumption]. unfold cur1. cbn. rewrite HP. apply HD. assumption.
  - inversion H; subst; clear H. split; [|cbn; destruct (dpcs (ctl s)); exact I || reflexivity].
    unfold cur1. cbn. apply closeRWC_inv. assumption.
  - destruct l; try discriminate.
    + cbn in H. destruct (dpcs (ctl s)) eqn:P; try discriminate. inversion H; subst; clear H. split.
      * unfold cur1 in *. cbn. assumption.
      * cbn. destruct (rwc (ctl s)) eqn:R; cbn; [exact I|reflexivity].
    + cbn in H. destruct (dpcs (ctl s)) eqn:P; try discriminate. inversion H; subst; clear H. split.
      * unfold cur1 in *. cbn. assumption.
      * cbn. destruct (ctxDone (ctl s)) eqn:R; cbn; assumption.
    + cbn in H. destruct (dpcs (ctl s)) eqn:P; try discriminate. destruct (loopDone (ctl s)); [|discriminate].
      inversion H; subst; clear H. split; [|reflexivity]. unfold cur1. cbn. apply closeRWC_inv. assumption.
    + cbn in H. destruct (dpcs (ctl s)) eqn:P; try discriminate. destruct (reconnect (ctl s)); inversion H; subst; clear H.
      * split; [unfold cur1 in *; cbn; assumption|exact I].
      * split; [unfold cur1 in *; cbn; assumption|cbn; assumption].
    + cbn in H. destruct (dpcs (ctl s)) eqn:P; try discriminate. inversion H; subst; clear H. split.
      * unfold cur1 in *. cbn. assumption.
      * cbn. exact I.
    + assert (HE : exists c, s' = mkC c (net s) (cur s) /\ rwc c = rwc (ctl s) /\ dpcs c = dpcs (ctl s)).
      { cbn in H. destruct (dpcs (ctl s)) eqn:P; inversion H; subst; clear H; eexists; split; try reflexivity; cbn; auto. }
      destruct HE as (c & -> & E1 & E2). split; [unfold cur1 in *; cbn; rewrite E1; assumption|].
      cbn. rewrite E1, E2. assumption.
Qed.

Lemma sinv_start : forall k cfg s, startedAs k cfg s -> exists b, sinv b s.
Proof.
  intros k cfg s (hdl & e & b & [ (n & t & H) | (_ & na & t & _ & H)]); exists b.
  - unfold newConn in H. assert (D := netInv_dial b (mkNet b []) k cfg e (netInv_init b)).
    destruct (dConn (dialAny k cfg e (mkNet b []))) as [sk|]; [|discriminate]. inversion H; subst; clear H.
    split; [exact D|exact I].
  - unfold newReconn in H. assert (D := netInv_dial b (mkNet b []) k (noTLS cfg) e (netInv_init b)).
    destruct (dConn (dialAny k (noTLS cfg) e (mkNet b []))) as [sk|]; inversion H; subst; clear H; (split; [exact D|exact I]).
Qed.

Lemma sinv_reach : forall k cfg s0 s, startedAs k cfg s0 -> reachable (cstep k cfg) s0 s -> exists b, sinv b s.
Proof.
  intros k cfg s0 s H HR. destruct (sinv_start k cfg s0 H) as [b Hb]. exists b.
  exact (reachable_inv (cstep k cfg) (sinv b) s0 Hb (sinv_step b k cfg) s HR).
Qed.

Theorem C69_sockets : C69_statement.
Proof.
  split.
  - intros k cfg hdl e n n' t H o Ho. unfold newConn in H. assert (D := dialAny_spec k cfg e n). cbn in D.
    destruct (dConn (dialAny k cfg e n)); [discriminate|]. inversion H; subst; clear H.
    destruct D as [->|(_ & q & Hq & HL)].
    + exists []. rewrite app_nil_r. split; reflexivity.
    + eexists. split; [exact HL|]. cbn. rewrite openAfter_app, (quiet_open q _ Hq). cbn. rewrite Nat.eqb_refl. cbn.
      clear HL Hq. induction o as [|x o IH]; [reflexivity|]. cbn.
      assert (x < nxt n) by (apply Ho; left; reflexivity).
      destruct (Nat.eqb_spec x (nxt n)); [lia|]. cbn. f_equal. apply IH. intros s Hs. apply Ho. right. assumption.
  - intros k cfg s0 s HS HR. destruct (sinv_reach k cfg s0 s HS HR) as (b & (A & B & C & D & E & F) & HP).
    rewrite C. split; [unfold cur1; destruct (rwc (ctl s)); cbn; lia|]. split.
    { unfold cur1. intros [X|X]; rewrite X in HP; rewrite HP; reflexivity. }
    split; [rewrite B; apply seq_NoDup|]. split; assumption.
Qed.
Print Assumptions C69_sockets.

(** The socket that is open is the one in use, and it is open until the connection lets go of it. *)
Theorem C69_socket_in_use :
  forall k cfg s0 s, startedAs k cfg s0 -> reachable (cstep k cfg) s0 s ->
  (rwc (ctl s) = true -> openAfter [] (slog (net s)) = [cur s]) /\
  (rwc (ctl s) = false -> openAfter [] (slog (net s)) = [] /\
     (* every socket it ever opened has been closed, exactly once *)
     (forall x, In x (openedIn (slog (net s))) -> count_occ Nat.eq_dec (closedIn (slog (net s))) x = 1)).
Proof.
  intros k cfg s0 s HS HR. destruct (sinv_reach k cfg s0 s HS HR) as (b & (A & B & C & D & E & F) & HP). unfold cur1 in *.
  split; intro R; rewrite R in *; [assumption|]. split; [assumption|].
  assert (G : forall l o x, NoDup (openedIn l) -> ~ In x (openAfter o l) -> (In x o \/ In x (openedIn l)) -> In x (closedIn l)).
  { induction l as [|ev l IH]; intros o x ND NI H.
    - cbn in *. destruct H; contradiction.
    - destruct ev as [y|y z|y z|y|y]; cbn in *.
      + inversion ND; subst. apply (IH (y :: o) x H3 NI). destruct H as [H|[H|H]]; [left; right; assumption|left; left; assumption|right; assumption].
      + eapply IH; eassumption.
      + eapply IH; eassumption.
      + eapply IH; eassumption.
      + destruct (Nat.eq_dec y x) as [->|Hn]; [left; reflexivity|]. right. eapply IH; [eassumption|exact NI|].
        destruct H as [H|H]; [left; apply filter_In; split; [assumption|]|right; assumption].
        destruct (Nat.eqb_spec x y); [congruence|reflexivity]. }
  intros x Hx. assert (Hin : In x (closedIn (slog (net s)))).
  { apply (G (slog (net s)) [] x); [rewrite B; apply seq_NoDup|rewrite C; intros []|right; assumption]. }
  apply NoDup_count_occ' with (decA := Nat.eq_dec) in Hin; assumption.
Qed.
Print Assumptions C69_socket_in_use.

(** Concrete case: a dial over TCP that succeeds, a reconnecting connection that loses its link, a failing dial and a
    new socket; then Close and the end of the goroutine. *)
Definition exCfg : dialCfg := mkCfg 1000 0 4096 false.
Definition okE : denv := mkEnv true 10 true true true 10 true 10.
Definition badE : denv := mkEnv false 10 true true true 10 true 10.
Definition exStart : cst := fst (newReconn KTcp exCfg 2 false okE (mkNet 7 [])).
Definition exRun : list clabel :=
  [CDo DEnter; CDo DLinkFails; CDo DLoopDone; CDo DAgain; CDo DEnter; CDial badE; CDo DCheck;
   CDial okE; CFrameClose; CDo DClose; CDo DLoopDone; CDo DAgain; CDo DEnter; CDial badE; CDo DCheck].
Example C69_case : startedAs KTcp exCfg exStart /\
  match run (cstep KTcp exCfg) exStart exRun with
  | Some s => dpcs (ctl s) = PExit /\ slog (net s) = [SOpen 7; SRBuf 7 4096; SClose 7; SOpen 8; SRBuf 8 4096; SClose 8]
  | None => False
  end.
Proof.
  split.
  - exists false, okE, 7. right. split; [discriminate|]. exists 2. eexists. split; [lia|reflexivity].
  - vm_compute. split; reflexivity.
Qed.

(** ** C70 *)
(** The connection returned (or dialed later) uses the socket [s]: the configured sizes were asked for, after it was
    opened. *)
Definition bufsAsked (cfg : dialCfg) (s : nat) (l : list sev) : Prop :=
  exists l1 l2, l = l1 ++ SOpen s :: l2 /\
    (0 < RBufSize cfg -> In (SRBuf s (RBufSize cfg)) l2)%Z /\ (0 < WBufSize cfg -> In (SWBuf s (WBufSize cfg)) l2)%Z.

Definition C70_statement : Prop :=
  (forall k cfg hdl e n r n' t, newConn k cfg hdl e n = (r, n', t) ->
     (0 < DialTimeout cfg -> t <= DialTimeout cfg)%Z /\
     (forall c, r = Some c -> bufsAsked cfg (cur c) (slog (net c)))) /\
  (forall k cfg na hdl e n c t, k <> KReuse -> 0 < na -> newReconn k cfg na hdl e n = (c, t) ->
     (0 < DialTimeout cfg -> t <= DialTimeout cfg)%Z /\ (rwc (ctl c) = true -> bufsAsked cfg (cur c) (slog (net c)))) /\
  (forall k cfg s e s', k <> KReuse -> cstep k cfg s (CDial e) = Some s' ->
     (0 < DialTimeout cfg -> dTime (dialAny k (noTLS cfg) e (net s)) <= DialTimeout cfg)%Z /\
     (rwc (ctl s') = true -> rwc (ctl s) = false -> bufsAsked cfg (cur s') (slog (net s')))).

(** The TLS handshake may take any time: NewConnection then returns later than any given moment, although the socket
    was connected within DialTimeout. *)
Theorem C70_tls_unbounded : forall cfg hdl n (bound : N),
  TLSConf cfg = true -> (0 < DialTimeout cfg)%Z ->
  exists e r n' t, newConn KTcp cfg hdl e n = (r, n', t) /\ (Z.of_N bound < t)%Z.
Proof.
  intros cfg hdl n bound HT HD.
  exists (mkEnv true 1 true true false bound true 0).
  unfold newConn, dialAny, dialTCP, netDialTimeout. cbn [eConn eConnT eTls eTlsT]. rewrite HT.
  replace (DialTimeout cfg =? 0)%Z with false by lia. replace (DialTimeout cfg <? 0)%Z with false by lia.
  change (Z.of_N 1) with 1%Z. replace (1 <=? DialTimeout cfg)%Z with true by lia.
  do 3 eexists. split; [reflexivity|]. cbn [dTime]. lia.
Qed.
Print Assumptions C70_tls_unbounded.

(** Over a websocket, also without TLS: the HTTP upgrade has no time limit. *)
Theorem C70_ws_unbounded : forall cfg hdl n (bound : N),
  (0 < DialTimeout cfg)%Z ->
  exists e r n' t, newConn KWs cfg hdl e n = (r, n', t) /\ (Z.of_N bound < t)%Z.
Proof.
  intros cfg hdl n bound HD.
  exists (mkEnv true 1 true true true 0 false bound).
  unfold newConn, dialAny, DialConn, netDialTimeout. cbn [eConn eConnT eTls eTlsT eUpg eUpgT].
  replace (DialTimeout cfg =? 0)%Z with false by lia. replace (DialTimeout cfg <? 0)%Z with false by lia.
  change (Z.of_N 1) with 1%Z. replace (1 <=? DialTimeout cfg)%Z with true by lia.
  destruct (TLSConf cfg); do 3 eexists; (split; [reflexivity|]); cbn -[Z.of_N Z.add]; lia.
Qed.
Print Assumptions C70_ws_unbounded.

Theorem C70_refuted : ~ C70_statement.
Proof.
  intros (H & _). set (cfg := mkCfg 1000 0 0 true).
  destruct (C70_tls_unbounded cfg false (mkNet 0 []) 5000) as (e & r & n' & t & E & L); [reflexivity|reflexivity|].
  destruct (H _ _ _ _ _ _ _ _ E) as [X _]. assert (t <= 1000)%Z by (apply X; reflexivity). lia.
Qed.
Print Assumptions C70_refuted.

(** NewReusedConnection does not ask for the configured sizes (and never for TLS). *)
Theorem C70_reuse_ignores_options : forall cfg hdl e n c n' t, newConn KReuse cfg hdl e n = (Some c, n', t) ->
  slog (net c) = slog n ++ [SOpen (cur c)].
Proof.
  intros cfg hdl e n c n' t H. unfold newConn, dialAny, dialReuse in H.
  destruct (netDialTimeout (DialTimeout cfg) e) as [ok t']. destruct ok; cbn in H; [|discriminate]. inversion H; reflexivity.
Qed.
Print Assumptions C70_reuse_ignores_options.

Lemma netDial_bound : forall T e ok t, netDialTimeout T e = (ok, t) -> (0 < T)%Z -> (t <= T)%Z.
Proof.
  intros T e ok t H HT. unfold netDialTimeout in H.
  destruct (Z.eqb_spec T 0); [lia|]. destruct (Z.ltb_spec T 0); [lia|].
  destruct (Z.leb_spec (Z.of_N (eConnT e)) T); inversion H; subst; lia.
Qed.

Lemma setBufs_in : forall cfg s,
  (0 < RBufSize cfg -> In (SRBuf s (RBufSize cfg)) (setBufs cfg s))%Z /\ (0 < WBufSize cfg -> In (SWBuf s (WBufSize cfg)) (setBufs cfg s))%Z.
Proof.
  intros cfg s. unfold setBufs. split; intro H; apply in_or_app.
  - left. replace (RBufSize cfg >? 0)%Z with true by lia. left. reflexivity.
  - right. replace (WBufSize cfg >? 0)%Z with true by lia. left. reflexivity.
Qed.

Lemma dial_bufs : forall k cfg e n s, k <> KReuse -> dConn (dialAny k cfg e n) = Some s ->
  bufsAsked cfg s (slog (dNet (dialAny k cfg e n))).
Proof.
  intros k cfg e n s HK H. destruct k; [| |contradiction]; cbn [dialAny] in *.
  - unfold dialTCP in *. destruct (netDialTimeout (DialTimeout cfg) e) as [ok t]. destruct ok; [|discriminate].
    destruct (TLSConf cfg); [destruct (eTls e); [|discriminate]|]; cbn in H; inversion H; subst; cbn.
    + exists (slog n), (setBufs cfg (nxt n) ++ [STls (nxt n)]). rewrite <- app_assoc. split; [reflexivity|].
      destruct (setBufs_in cfg (nxt n)) as [A B]. split; intro X; apply in_or_app; left; auto.
    + exists (slog n), (setBufs cfg (nxt n)). split; [reflexivity|]. apply setBufs_in.
  - unfold DialConn in *. destruct (netDialTimeout (DialTimeout cfg) e) as [ok t]. destruct ok; [|discriminate].
    destruct (TLSConf cfg); [destruct (eTls e); [|discriminate]|]; (destruct (eUpg e); [|discriminate]); cbn in H; inversion H; subst; cbn.
    + exists (slog n), (setBufs cfg (nxt n) ++ [STls (nxt n)]). rewrite <- app_assoc. split; [reflexivity|].
      destruct (setBufs_in cfg (nxt n)) as [A B]. split; intro X; apply in_or_app; left; auto.
    + exists (slog n), (setBufs cfg (nxt n)). split; [reflexivity|]. apply setBufs_in.
Qed.

(** Partial: over plain TCP without TLS, and over TCP for every connection made or made again by
    NewConnectionWithReconnect (which never uses TLS, see C47), the time limit holds; the buffer sizes are asked for on
    every socket except by NewReusedConnection.  Missing from C70: TLS, websockets, NewReusedConnection. *)
Theorem C70_time_and_options_partial :
  (forall k cfg hdl e n r n' t, newConn k cfg hdl e n = (r, n', t) ->
     ((k = KTcp /\ TLSConf cfg = false) \/ k = KReuse -> 0 < DialTimeout cfg -> t <= DialTimeout cfg)%Z /\
     (k <> KReuse -> forall c, r = Some c -> bufsAsked cfg (cur c) (slog (net c)))) /\
  (forall k cfg na hdl e n c t, k <> KReuse -> newReconn k cfg na hdl e n = (c, t) ->
     (k = KTcp -> 0 < DialTimeout cfg -> t <= DialTimeout cfg)%Z /\ (rwc (ctl c) = true -> bufsAsked cfg (cur c) (slog (net c)))) /\
  (forall k cfg s e s', k <> KReuse -> cstep k cfg s (CDial e) = Some s' ->
     (k = KTcp -> 0 < DialTimeout cfg -> dTime (dialAny k (noTLS cfg) e (net s)) <= DialTimeout cfg)%Z /\
     (rwc (ctl s') = true -> rwc (ctl s) = false -> bufsAsked cfg (cur s') (slog (net s')))).
Proof.
  assert (TB : forall cfg e n, TLSConf cfg = false -> (0 < DialTimeout cfg)%Z -> (dTime (dialTCP cfg e n) <= DialTimeout cfg)%Z).
  { intros cfg e n HT HD. unfold dialTCP. destruct (netDialTimeout (DialTimeout cfg) e) as [ok t] eqn:E. rewrite HT.
    apply netDial_bound in E; [|assumption]. destruct ok; cbn; assumption. }
  split; [|split].
  - intros k cfg hdl e n r n' t H. split.
    + intros HK HD. assert (t = dTime (dialAny k cfg e n)) as ->.
      { unfold newConn in H. destruct (dConn (dialAny k cfg e n)); inversion H; reflexivity. }
      destruct HK as [[-> HT]| ->]; [apply TB; assumption|]. cbn. unfold dialReuse.
      destruct (netDialTimeout (DialTimeout cfg) e) as [ok t'] eqn:E. apply netDial_bound in E; [|assumption]. destruct ok; cbn; assumption.
    + intros HK c ->. unfold newConn in H. destruct (dConn (dialAny k cfg e n)) as [s|] eqn:E; [|discriminate].
      inversion H; subst; clear H. cbn. apply dial_bufs; assumption.
  - intros k cfg na hdl e n c t HK H. unfold newReconn in H. inversion H; subst; clear H. split.
    + intros -> HD. apply (TB (noTLS cfg)); [reflexivity|assumption].
    + cbn. destruct (dConn (dialAny k (noTLS cfg) e n)) as [s|] eqn:E; [|discriminate]. intros _.
      exact (dial_bufs k (noTLS cfg) e n s HK E).
  - intros k cfg s e s' HK H. split.
    + intros -> HD. apply (TB (noTLS cfg)); [reflexivity|assumption].
    + intros R' R. unfold cstep in H. destruct (dConn (dialAny k (noTLS cfg) e (net s))) as [sk|] eqn:E.
      * destruct (dstep (ctl s) (DDial true)) as [c|]; [|discriminate]. inversion H; subst; clear H. cbn.
        exact (dial_bufs k (noTLS cfg) e (net s) sk HK E).
      * cbn in H. destruct (dpcs (ctl s)); try discriminate. inversion H; subst; clear H. cbn in R'. congruence.
Qed.
Print Assumptions C70_time_and_options_partial.

(** Concrete cases: a slow server is given up after DialTimeout; a dial with both sizes. *)
Example C70_case_timeout :
  newConn KTcp (mkCfg 1000 0 0 false) false (mkEnv true 5000 true true true 0 true 0) (mkNet 0 []) = (None, mkNet 0 [], 1000%Z).
Proof. reflexivity. Qed.
Example C70_case_options :
  exists c n t, newConn KTcp (mkCfg 1000 8192 4096 true) true okE (mkNet 0 []) = (Some c, n, t) /\
  slog n = [SOpen 0; SRBuf 0 4096; SWBuf 0 8192; STls 0] /\ t = 20%Z.
Proof. do 3 eexists. split; [reflexivity|]. split; reflexivity. Qed.
