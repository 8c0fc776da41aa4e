(** C45-C47: reconnecting, contexts of client-side handlers, TLS. *)
From Coq Require Import ZifyBool ZifyNat.
From Verif Require Import Model.GoBase Model.Machine Model.Dial.
Open Scope nat_scope.

Definition reaches (s0 s : dst) := reachable dstep s0 s.

(** ** C45 *)
(** Any n consecutive dials cover all n addresses. *)
Definition coversAll (n : nat) (ds : list dial) : Prop :=
  forall pre win post, ds = pre ++ win ++ post -> length win = n ->
  forall a, a < n -> exists d, In d win /\ dAddr d = a.

(** "stops dialing": at most the dial that was under way when Close was called *)
Definition stopsAfterClose (s0 : dst) : Prop :=
  forall s, reaches s0 s -> closed s = true ->
  forall ls s', run dstep s ls = Some s' -> length (dials s') <= length (dials s) + 1.

Definition C45_statement : Prop :=
  forall n hdl tls ok, 0 < n ->
  let s0 := NewConnectionWithReconnect n hdl tls ok in
  (forall s, reaches s0 s -> coversAll n (dials s)) /\ stopsAfterClose s0.

(** Invariant: the k-th dial (from 0) goes to address (k + n - 1) mod n. *)
Definition dinv (n : nat) (s : dst) : Prop :=
  nAddrs s = n /\ length (dials s) = S (idx s) /\
  forall k d, nth_error (dials s) k = Some d -> dAddr d = (k + (n - 1)) mod n.

Lemma dinv_step : forall n, 0 < n -> forall s l s', dinv n s -> dstep s l = Some s' -> dinv n s'.
Proof.
  intros n Hn s l s' (A & B & C) H.
  destruct l; cbn in H; destruct (dpcs s) eqn:P; try discriminate;
  try (destruct (loopDone s); [|discriminate]); try (destruct (reconnect s) eqn:R);
  try (destruct ok);
  inversion H; subst; unfold dinv, set_dpc; cbn; try (split; [reflexivity|split; assumption]).
  all: split; [reflexivity|]; split; [rewrite app_length; cbn; lia|].
  all: intros k d Hk; destruct (Nat.lt_ge_cases k (length (dials s))) as [Hlt|Hge];
    [rewrite nth_error_app1 in Hk by lia; eapply C; eassumption|].
  all: rewrite nth_error_app2 in Hk by lia; destruct (k - length (dials s)) as [|m] eqn:Ek;
    [|destruct m; discriminate]; cbn in Hk; inversion Hk; subst d; cbn;
    replace (k + (nAddrs s - 1)) with (idx s + 1 * nAddrs s) by lia; rewrite Nat.mod_add by lia; reflexivity.
Qed.

Lemma dinv_init : forall n hdl tls ok, 0 < n -> dinv n (NewConnectionWithReconnect n hdl tls ok).
Proof.
  intros n hdl tls ok Hn. split; [reflexivity|]. split; [reflexivity|]. cbn.
  intros [|[|k]] d H; cbn in H; inversion H; subst. cbn. symmetry. apply Nat.mod_small. lia.
Qed.

Lemma mod_cover : forall n start a, a < n -> exists k, k < n /\ (start + k) mod n = a.
Proof.
  intros n start a Ha. set (r := start mod n). assert (Hr : r < n) by (apply Nat.mod_upper_bound; lia).
  destruct (Nat.le_gt_cases r a).
  - exists (a - r). split; [lia|]. rewrite Nat.add_mod by lia. fold r. rewrite (Nat.mod_small (a - r)) by lia.
    replace (r + (a - r)) with a by lia. apply Nat.mod_small. assumption.
  - exists (n + a - r). split; [lia|]. rewrite Nat.add_mod by lia. fold r. rewrite (Nat.mod_small (n + a - r)) by lia.
    replace (r + (n + a - r)) with (a + 1 * n) by lia. rewrite Nat.mod_add by lia. apply Nat.mod_small. assumption.
Qed.

(** Partial: round-robin, each address within n consecutive dials, for every dial outcome, link failure
    and close point (the initial dial included).  Missing from C45: stopping after Close, which is false. *)
Theorem C45_round_robin_partial :
  forall n hdl tls ok, 0 < n ->
  forall s, reaches (NewConnectionWithReconnect n hdl tls ok) s ->
  (forall k d, nth_error (dials s) k = Some d -> dAddr d = (k + (n - 1)) mod n) /\ coversAll n (dials s).
Proof.
  intros n hdl tls ok Hn s HR.
  assert (HI : dinv n s).
  { exact (reachable_inv dstep (dinv n) _ (dinv_init n hdl tls ok Hn) (dinv_step n Hn) s HR). }
  destruct HI as (_ & _ & C). split; [exact C|].
  intros pre win post E HL a Ha. destruct (mod_cover n (length pre + (n - 1)) a Ha) as (k & Hk & Hm).
  destruct (nth_error win k) as [d|] eqn:Ek; [|apply nth_error_None in Ek; lia].
  exists d. split; [eapply nth_error_In; eassumption|].
  rewrite (C (length pre + k) d).
  - rewrite <- Hm. f_equal. lia.
  - rewrite E. rewrite nth_error_app2 by lia. replace (length pre + k - length pre) with k by lia.
    rewrite nth_error_app1 by lia. assumption.
Qed.
Print Assumptions C45_round_robin_partial.

(** Closed while connected, with a reachable server: the connection is dialed again and again. *)
Definition redial : list dlabel := [DLoopDone; DAgain; DEnter; DDial true].

Lemma redial_step : forall s, reconnect s = true -> ctxDone s = true -> closed s = true -> loopDone s = true -> dpcs s = PServe ->
  exists s', run dstep s redial = Some s' /\ reconnect s' = true /\ ctxDone s' = true /\ closed s' = true /\ loopDone s' = true /\
    dpcs s' = PServe /\ length (dials s') = S (length (dials s)).
Proof.
  intros s A B C D E. eexists. split.
  - unfold redial. cbn. rewrite E, D. cbn. rewrite A. cbn. rewrite B. reflexivity.
  - cbn. rewrite app_length. cbn. repeat split; try assumption. lia.
Qed.

Theorem C45_dials_forever_after_close :
  forall n hdl tls, 0 < n ->
  exists s, reaches (NewConnectionWithReconnect n hdl tls true) s /\ closed s = true /\
  forall m, exists ls s', run dstep s ls = Some s' /\ length (dials s') = length (dials s) + m /\ dpcs s' <> PExit.
Proof.
  intros n hdl tls Hn.
  eexists. split; [exists [DEnter; DClose]; reflexivity|]. split; [reflexivity|].
  intro m.
  match goal with |- context [run dstep ?s _] => set (s0 := s) end.
  assert (G : forall m, exists ls s', run dstep s0 ls = Some s' /\ reconnect s' = true /\ ctxDone s' = true /\ closed s' = true /\
    loopDone s' = true /\ dpcs s' = PServe /\ length (dials s') = length (dials s0) + m).
  { clear m. induction m as [|m (ls & s' & HR & A & B & C & D & E & F)].
    - exists [], s0. repeat split.
    - destruct (redial_step s' A B C D E) as (s'' & HR' & A' & B' & C' & D' & E' & F').
      exists (ls ++ redial), s''. rewrite run_app, HR. repeat split; try assumption. lia. }
  destruct (G m) as (ls & s' & HR & _ & _ & _ & _ & P & L). exists ls, s'. repeat split; try assumption. congruence.
Qed.
Print Assumptions C45_dials_forever_after_close.

Theorem C45_refuted : ~ C45_statement.
Proof.
  intro H. destruct (H 1 false false true ltac:(lia)) as [_ HS].
  destruct (C45_dials_forever_after_close 1 false false ltac:(lia)) as (s & HR & HC & HM).
  destruct (HM 2) as (ls & s' & Hrun & HL & _). specialize (HS s HR HC ls s' Hrun). lia.
Qed.
Print Assumptions C45_refuted.

(** Partial: once Close was called, the first dial that fails is the last one and the goroutine returns. *)
Theorem C45_stops_at_failure_partial :
  forall s s1, closed s = true -> ctxDone s = true -> dstep s (DDial false) = Some s1 ->
  length (dials s1) = S (length (dials s)) /\
  (forall ls s', run dstep s1 ls = Some s' -> dials s' = dials s1) /\
  (exists s', run dstep s1 [DCheck] = Some s' /\ dpcs s' = PExit).
Proof.
  intros s s1 HC HD H. cbn in H. destruct (dpcs s) eqn:P; try discriminate. inversion H; subst; clear H. cbn.
  split; [rewrite app_length; cbn; lia|]. split.
  - match goal with |- forall ls s', run dstep ?s _ = Some s' -> dials s' = ?d =>
      set (s1 := s); assert (G : forall ls t t', ctxDone t = true -> (dpcs t = PFailed \/ dpcs t = PExit) ->
        run dstep t ls = Some t' -> dials t' = dials t) end.
    { induction ls as [|l ls IH]; intros t t' Hd Hp Hr; cbn in Hr; [inversion Hr; reflexivity|].
      destruct (dstep t l) as [t1|] eqn:E; [|discriminate].
      assert (ctxDone t1 = true /\ (dpcs t1 = PFailed \/ dpcs t1 = PExit) /\ dials t1 = dials t) as (X & Y & Z).
      { destruct Hp as [Hp|Hp]; destruct l; cbn in E; rewrite Hp in E; try discriminate; inversion E; subst; cbn;
          rewrite ?Hd; auto. }
      rewrite <- Z. eapply IH; eassumption. }
    intros ls s' Hr. apply (G ls s1 s'); [exact HD|left; reflexivity|exact Hr].
  - eexists. split; [cbn; rewrite HD; reflexivity|reflexivity].
Qed.
Print Assumptions C45_stops_at_failure_partial.

(** A connection without reconnect dials once, and terminates once Close was called. *)
Theorem C45_no_reconnect :
  forall hdl tls s, reaches (NewConnection hdl tls) s ->
  length (dials s) = 1 /\
  (closed s = true -> exists ls s', run dstep s ls = Some s' /\ dpcs s' = PExit /\ length ls <= 3).
Proof.
  intros hdl tls s HR.
  assert (I : reconnect s = false /\ length (dials s) = 1 /\ (closed s = true -> loopDone s = true) /\
    match dpcs s with PConnect => rwc s = true | PServe => True | PExit | PEnded => loopDone s = true | PDial | PFailed => False end).
  { refine (reachable_inv dstep (fun s => reconnect s = false /\ length (dials s) = 1 /\ (closed s = true -> loopDone s = true) /\
      match dpcs s with PConnect => rwc s = true | PServe => True | PExit | PEnded => loopDone s = true | PDial | PFailed => False end) _ _ _ s HR);
      [cbn; auto|].
    clear. intros s l s' (A & B & D & C) H. destruct l; cbn in H; destruct (dpcs s) eqn:P; try discriminate; try contradiction.
    all: try (destruct (loopDone s) eqn:L; [|discriminate]); try rewrite A in H; try rewrite C in H.
    all: inversion H; subst; unfold set_dpc; cbn; rewrite ?P; auto. }
  destruct I as (A & B & D & C). split; [assumption|]. intro HC. specialize (D HC).
  destruct (dpcs s) eqn:P; try contradiction.
  - eexists [DEnter; DLoopDone; DAgain], _. cbn. rewrite P. cbn. rewrite C. cbn. rewrite D. cbn. rewrite A. cbn.
    split; [reflexivity|]. split; [reflexivity|lia].
  - eexists [DLoopDone; DAgain], _. cbn. rewrite P. cbn. rewrite D. cbn. rewrite A. cbn.
    split; [reflexivity|]. split; [reflexivity|lia].
  - eexists [DAgain], _. cbn. rewrite P. cbn. rewrite A. cbn. split; [reflexivity|]. split; [reflexivity|lia].
  - eexists [], _. cbn. split; [reflexivity|]. split; [assumption|lia].
Qed.
Print Assumptions C45_no_reconnect.

(** two addresses, initial dial fails, first dial of connect fails, second works, link lost, redial *)
Example C45_example :
  match run dstep (NewConnectionWithReconnect 2 true true false)
    [DEnter; DDial false; DCheck; DDial true; DLinkFails; DLoopDone; DAgain; DEnter; DDial true] with
  | Some s => map dAddr (dials s) = [1; 0; 1; 0] /\ dpcs s = PServe /\ rwc s = true
  | None => False
  end /\
  match run dstep (NewConnectionWithReconnect 2 true true false) [DEnter; DClose] with
  | Some s => closed s = true /\ ctxDone s = true /\ exists s1, dstep s (DDial false) = Some s1
  | None => False
  end.
Proof. vm_compute. repeat split. eexists. reflexivity. Qed.

(** ** C46 *)
(** Spec: what a handler may do with a request frame from the server, without a panic. *)
Definition handlerSafe (c : ctxKeys) : Prop :=
  ClientConnectionInfo_ok c = true /\ StreamInitiator_ok c = true /\ Close_ok c false = true.

Definition started (s0 : dst) : Prop :=
  (exists tls, s0 = NewConnection true tls) \/ (exists n tls ok, 0 < n /\ s0 = NewConnectionWithReconnect n true tls ok).

Definition C46_statement : Prop :=
  forall s0 s, started s0 -> reaches s0 s -> dpcs s = PServe -> handlerSafe (loopKeys s).

Theorem C46_refuted : ~ C46_statement.
Proof.
  intro H. specialize (H (NewConnection true false)). cbn in H.
  specialize (H (set_dpc (NewConnection true false) PServe) (or_introl (ex_intro _ false eq_refl))).
  destruct H as (E & _ & _); [exists [DEnter]; reflexivity|reflexivity|discriminate E].
Qed.
Print Assumptions C46_refuted.

(** all three calls fail on the first connection, for both constructors *)
Theorem C46_first_connection_panics :
  forall s0 s, started s0 -> reaches s0 s -> incarnation s = 0 -> rwc s = true ->
  ClientConnectionInfo_ok (loopKeys s) = false /\ StreamInitiator_ok (loopKeys s) = false /\ Close_ok (loopKeys s) false = false.
Proof.
  intros s0 s H0 HR.
  assert (I : incarnation s = 0 -> loopKeys s = mkCtx false false).
  { refine (reachable_inv dstep (fun s => incarnation s = 0 -> loopKeys s = mkCtx false false) _ _ _ s HR); [|].
    - destruct H0 as [(tls & ->)|(n & tls & ok & _ & ->)]; reflexivity.
    - clear. intros s l s' I H. destruct l; cbn in H; destruct (dpcs s) eqn:P; try discriminate;
        try (destruct (loopDone s); [|discriminate]); try (destruct (reconnect s));
        try (destruct ok); inversion H; subst; unfold set_dpc; cbn; intros; try discriminate; auto. }
  intros HI _. rewrite (I HI). repeat split; reflexivity.
Qed.
Print Assumptions C46_first_connection_panics.

(** Partial: on every connection dialed by connect(), that is every one but the first.  Missing: the
    connection established by the constructor, where it is false. *)
Theorem C46_later_connections_partial :
  forall s0 s, started s0 -> reaches s0 s -> 0 < incarnation s -> handlerSafe (loopKeys s).
Proof.
  intros s0 s H0 HR.
  assert (I : handler s = true /\ (0 < incarnation s -> loopKeys s = mkCtx false true)).
  { refine (reachable_inv dstep (fun s => handler s = true /\ (0 < incarnation s -> loopKeys s = mkCtx false true)) _ _ _ s HR); [|].
    - destruct H0 as [(tls & ->)|(n & tls & ok & _ & ->)]; (split; [reflexivity|cbn; lia]).
    - clear. intros s l s' [I1 I] H. destruct l; cbn in H; destruct (dpcs s) eqn:P; try discriminate;
        try (destruct (loopDone s); [|discriminate]); try (destruct (reconnect s));
        try (destruct ok); inversion H; subst; unfold set_dpc; cbn; rewrite ?I1; auto. }
  intro HI. destruct I as [_ I]. rewrite (I HI). repeat split; reflexivity.
Qed.
Print Assumptions C46_later_connections_partial.

Example C46_example :
  started (NewConnectionWithReconnect 1 true false true) /\
  exists s, reaches (NewConnectionWithReconnect 1 true false true) s /\ dpcs s = PServe /\ 0 < incarnation s.
Proof.
  split; [right; exists 1, false, true; split; [lia|reflexivity]|].
  eexists. split; [exists [DEnter; DLinkFails; DLoopDone; DAgain; DEnter; DDial true]; vm_compute; reflexivity|].
  split; [reflexivity|cbn; lia].
Qed.

(** ** C47 *)
Definition C47_statement : Prop :=
  (forall hdl s, reaches (NewConnection hdl true) s -> Forall (fun d => dTLS d = true) (dials s)) /\
  (forall n hdl ok s, 0 < n -> reaches (NewConnectionWithReconnect n hdl true ok) s -> Forall (fun d => dTLS d = true) (dials s)).

Theorem C47_refuted : ~ C47_statement.
Proof.
  intros [_ H]. specialize (H 1 false true (NewConnectionWithReconnect 1 false true true) ltac:(lia)).
  assert (R : reaches (NewConnectionWithReconnect 1 false true true) (NewConnectionWithReconnect 1 false true true)) by (exists []; reflexivity).
  specialize (H R). inversion H; discriminate.
Qed.
Print Assumptions C47_refuted.

(** a reconnecting connection never uses the configured TLS, on any dial *)
Theorem C47_reconnect_never_tls :
  forall n hdl tls ok s, reaches (NewConnectionWithReconnect n hdl tls ok) s -> Forall (fun d => dTLS d = false) (dials s).
Proof.
  intros n hdl tls ok s HR.
  refine (reachable_inv dstep (fun s => Forall (fun d => dTLS d = false) (dials s)) _ _ _ s HR); [repeat constructor|].
  clear. intros s l s' I H. destruct l; cbn in H; destruct (dpcs s) eqn:P; try discriminate;
    try (destruct (loopDone s); [|discriminate]); try (destruct (reconnect s));
    try (destruct ok); inversion H; subst; unfold set_dpc; cbn; try assumption;
    apply Forall_app; (split; [assumption|repeat constructor]).
Qed.
Print Assumptions C47_reconnect_never_tls.

(** Partial: NewConnection dials with exactly the configured TLS setting.  Missing: reconnecting
    connections, where it is false. *)
Theorem C47_new_connection_partial :
  forall hdl tls s, reaches (NewConnection hdl tls) s -> dials s = [mkDial 0 tls].
Proof.
  intros hdl tls s HR.
  assert (I : reconnect s = false /\ dials s = [mkDial 0 tls] /\
    match dpcs s with PConnect => rwc s = true | PDial | PFailed => False | _ => True end).
  { refine (reachable_inv dstep (fun s => reconnect s = false /\ dials s = [mkDial 0 tls] /\
      match dpcs s with PConnect => rwc s = true | PDial | PFailed => False | _ => True end) _ _ _ s HR); [cbn; auto|].
    clear. intros s l s' (A & B & C) H. destruct l; cbn in H; destruct (dpcs s) eqn:P; try discriminate; try contradiction.
    all: try (destruct (loopDone s) eqn:L; [|discriminate]); try rewrite A in H; try rewrite C in H.
    all: inversion H; subst; unfold set_dpc; cbn; rewrite ?P; auto. }
  apply I.
Qed.
Print Assumptions C47_new_connection_partial.

Example C47_example : reaches (NewConnection true true) (NewConnection true true) /\ dials (NewConnection true true) = [mkDial 0 true].
Proof. split; [exists []; reflexivity|reflexivity]. Qed.
