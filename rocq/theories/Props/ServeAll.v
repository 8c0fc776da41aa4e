(** C56: Shutdown ends accepting and serving. *)
From Verif Require Import Model.GoBase Model.Machine Model.ServeAll.
Open Scope nat_scope.
Local Arguments Nat.ltb : simpl never.

(** Serve of binding i can still accept connections *)
Definition accepts (s : vst) (i : nat) : Prop := vp s i = VWait /\ opn s i = true.
Definition serves (s : vst) (c : nat) : Prop := In c (conns s).
(** Shutdown has returned nil *)
Definition isDown (s : vst) : Prop := 0 < okRet s.

(** The full claim: once Shutdown has returned nil, never again is a connection accepted or served. *)
Definition C56_statement : Prop := forall n s ls t, reachable (vstep n) vinit s -> isDown s -> run (vstep n) s ls = Some t ->
  (forall i, ~ accepts t i) /\ (forall c, ~ serves t c) /\ acc t = acc s.

(** False: a Serve that comes after Shutdown is not told (ListenAndServe in one goroutine, Shutdown early in another). *)
Definition lateServe : list vlabel := [EShutdown None; EShut 0; EShut 0].
(** And a connection already accepted when Shutdown closes the listeners is served after Shutdown has returned. *)
Definition acceptRace : list vlabel := [EServe 0; EAccept 0; EShutdown None; EShut 0; EShut 0].

Theorem C56_late_serve_accepts : exists s t, run (vstep 1) vinit lateServe = Some s /\ isDown s /\
  run (vstep 1) s [EServe 0; EAccept 0; ESpawn 0] = Some t /\ serves t 0 /\ accepts t 0.
Proof.
  destruct (run (vstep 1) vinit lateServe) as [s|] eqn:E; [|discriminate E]. exists s. unfold lateServe, isDown, serves, accepts.
  cbv in E. inversion E; subst; clear E. eexists. split; [reflexivity|]. split; [cbn; lia|]. split; [cbv; reflexivity|].
  split; [left; reflexivity|split; reflexivity].
Qed.
Print Assumptions C56_late_serve_accepts.

Theorem C56_accepted_before_served_after : exists s t, run (vstep 1) vinit acceptRace = Some s /\ isDown s /\
  run (vstep 1) s [ESpawn 0] = Some t /\ serves t 0.
Proof.
  destruct (run (vstep 1) vinit acceptRace) as [s|] eqn:E; [|discriminate E]. exists s. unfold acceptRace, isDown, serves.
  cbv in E. inversion E; subst; clear E. eexists. split; [reflexivity|]. split; [cbn; lia|]. split; [cbv; reflexivity|].
  left; reflexivity.
Qed.
Print Assumptions C56_accepted_before_served_after.

Theorem C56_refuted : ~ C56_statement.
Proof.
  intros ST. destruct C56_accepted_before_served_after as (s & t & R & D & R' & S).
  destruct (ST 1 s [ESpawn 0] t (ex_intro _ acceptRace R) D R') as (_ & A & _). exact (A 0 S).
Qed.
Print Assumptions C56_refuted.

(** *** Proofs *)

Lemma nset_eq : forall A (f : nat -> A) i v, nset f i v i = v.
Proof. intros. unfold nset. rewrite Nat.eqb_refl. reflexivity. Qed.
Lemma nset_neq : forall A (f : nat -> A) i j v, j <> i -> nset f i v j = f j.
Proof. intros. unfold nset. destruct (j =? i) eqn:E; [apply Nat.eqb_eq in E; contradiction|reflexivity]. Qed.

(** tracked exactly while Serve runs and Shutdown has not taken the listener; the serve call of an untracked binding has begun *)
Record vinv (n : nat) (s : vst) : Prop := {
  k_trk : forall i, trk s i = true -> i < n /\ (match vp s i with VIdle | VLast | VGone => False | _ => True end);
  k_opn : forall i, opn s i = true -> trk s i = true \/ vp s i = VIdle \/ vp s i = VLast;
  k_idle : forall i, n <= i -> vp s i = VIdle;
  k_chan : dchan s = true -> done s = true;
  k_ups : forall k, nth_error (ups s) k <> None -> done s = true;
  k_got : forall i c, vp s i = VGot c -> c < acc s;
  k_conn : forall c, In c (conns s) -> c < acc s;
  k_ret : forall i, vp s i = VRet \/ vp s i = VLast \/ vp s i = VGone -> dchan s = true }.

Lemma vinv_init : forall n, vinv n vinit.
Proof. intros n. constructor; cbn; intros; try discriminate; try contradiction; auto. - destruct k; contradiction. - destruct H as [H|[H|H]]; discriminate. Qed.

Lemma put_err : forall A (l : list A) k v j, nth_error (putNth l k v) j <> None -> nth_error l j <> None.
Proof. induction l as [|x l IH]; intros [|k] v [|j] H; cbn in *; try congruence; eauto. Qed.
Lemma drop_err : forall A (l : list A) k j, nth_error (dropNth l k) j <> None -> exists j', nth_error l j' <> None.
Proof. induction l as [|x l IH]; intros [|k] j H; cbn in *; try (destruct j; contradiction); [exists 0; discriminate|exists 0; discriminate]. Qed.

Lemma vinv_step : forall n s l t, vinv n s -> vstep n s l = Some t -> vinv n t.
Proof.
  intros n s l t [K1 K2 K3 K4 K5 K6 K7 K8] H.
  assert (PC : forall i p, vinv n s -> (trk s i = true -> match p with VIdle | VLast | VGone => False | _ => True end) ->
    (opn s i = true -> trk s i = true \/ p = VIdle \/ p = VLast) -> (n <= i -> p = VIdle) -> (forall c, p = VGot c -> c < acc s) -> (p = VRet \/ p = VLast \/ p = VGone -> dchan s = true) ->
    vinv n (v_vp (nset (vp s) i p) s)).
  { intros i p _ A1 A2 A3 A4 A5. constructor; cbn; auto.
    - intros j A. destruct (Nat.eq_dec j i) as [->|NE]; [rewrite nset_eq; split; [apply (K1 i A)|apply A1, A]|rewrite nset_neq by assumption; auto].
    - intros j A. destruct (Nat.eq_dec j i) as [->|NE]; [rewrite nset_eq; auto|rewrite nset_neq by assumption; auto].
    - intros j A. destruct (Nat.eq_dec j i) as [->|NE]; [rewrite nset_eq; auto|rewrite nset_neq by assumption; auto].
    - intros j c A. destruct (Nat.eq_dec j i) as [->|NE]; [rewrite nset_eq in A; auto|rewrite nset_neq in A by assumption; eauto].
    - intros j A. destruct (Nat.eq_dec j i) as [->|NE]; [rewrite nset_eq in A; auto|rewrite nset_neq in A by assumption; eauto]. }
  assert (I : vinv n s) by (constructor; assumption).
  assert (OUT : forall i, n <= i -> vp s i <> VIdle -> False) by (intros i A B; apply B; auto).
  destruct l as [i|i|i|i|i|i|i|c|bad|k]; cbn in H.
  - destruct (vp s i) eqn:E; try discriminate. destruct (i <? n) eqn:EL; [|discriminate]. apply Nat.ltb_lt in EL. inversion H; subst; clear H. constructor; cbn; auto.
    + intros j A. destruct (Nat.eq_dec j i) as [->|NE]; [rewrite nset_eq; auto|rewrite nset_neq in * by assumption; auto].
    + intros j A. destruct (Nat.eq_dec j i) as [->|NE]; [rewrite nset_eq; auto|rewrite !nset_neq by assumption; auto].
    + intros j A. rewrite nset_neq by lia. auto.
    + intros j c A. destruct (Nat.eq_dec j i) as [->|NE]; [rewrite nset_eq in A; discriminate|rewrite nset_neq in A by assumption; eauto].
    + intros j A. destruct (Nat.eq_dec j i) as [->|NE]; [rewrite nset_eq in A; destruct A as [A|[A|A]]; discriminate|rewrite nset_neq in A by assumption; eauto].
  - destruct (vp s i) eqn:E; try discriminate. destruct (opn s i) eqn:EO; [|discriminate]. inversion H; subst; clear H. constructor; cbn; auto.
    + intros j A. destruct (Nat.eq_dec j i) as [->|NE]; [rewrite nset_eq; split; [apply (K1 i A)|exact Logic.I]|rewrite nset_neq by assumption; auto].
    + intros j A. destruct (Nat.eq_dec j i) as [->|NE]; [|rewrite nset_neq by assumption; auto]. destruct (K2 i A) as [B|[B|B]]; [auto|congruence|congruence].
    + intros j A. destruct (Nat.eq_dec j i) as [->|NE]; [|rewrite nset_neq by assumption; auto]. exfalso. apply (OUT i A). congruence.
    + intros j c A. destruct (Nat.eq_dec j i) as [->|NE]; [rewrite nset_eq in A; inversion A; lia|rewrite nset_neq in A by assumption; pose proof (K6 j c A); lia].
    + intros c A. pose proof (K7 c A). lia.
    + intros j A. destruct (Nat.eq_dec j i) as [->|NE]; [rewrite nset_eq in A; destruct A as [A|[A|A]]; discriminate|rewrite nset_neq in A by assumption; eauto].
  - destruct (vp s i) eqn:E; try discriminate. inversion H; subst; clear H. apply PC; auto; try discriminate.
    + intros A. destruct (K2 i A) as [B|[B|B]]; [auto|congruence|congruence].
    + intros A. exfalso. apply (OUT i A). congruence.
    + intros [A|[A|A]]; discriminate.
  - destruct (vp s i) eqn:E; try discriminate. inversion H; subst; clear H. apply PC; auto.
    + destruct (dchan s); exact (fun _ => Logic.I).
    + intros A. destruct (K2 i A) as [B|[B|B]]; [auto|congruence|congruence].
    + intros A. exfalso. apply (OUT i A). congruence.
    + destruct (dchan s); discriminate.
    + destruct (dchan s); [reflexivity|intros [A|[A|A]]; discriminate].
  - destruct (vp s i) eqn:E; try discriminate. inversion H; subst; clear H. apply PC; auto; try discriminate.
    + intros A. destruct (K2 i A) as [B|[B|B]]; [auto|congruence|congruence].
    + intros A. exfalso. apply (OUT i A). congruence.
    + intros [A|[A|A]]; discriminate.
  - destruct (vp s i) eqn:E; try discriminate. inversion H; subst; clear H.
    assert (J : vinv n (v_vp (nset (vp s) i VWait) s)).
    { apply PC; auto; try discriminate.
      + intros A. destruct (K2 i A) as [B|[B|B]]; [auto|congruence|congruence].
      + intros A. exfalso. apply (OUT i A). congruence.
      + intros [A|[A|A]]; discriminate. }
    destruct J as [J1 J2 J3 J4 J5 J6 J7 J8]. constructor; cbn in *; auto. intros x [<-|A]; [exact (K6 i c E)|auto].
  - destruct (vp s i) eqn:E; try discriminate; inversion H; subst; clear H.
    + constructor; cbn; auto.
      * intros j A. destruct (Nat.eq_dec j i) as [->|NE]; [rewrite nset_eq in A; discriminate|rewrite nset_neq in * by assumption; auto].
      * intros j A. destruct (Nat.eq_dec j i) as [->|NE]; [rewrite !nset_eq; auto|rewrite !nset_neq by assumption; auto].
      * intros j A. destruct (Nat.eq_dec j i) as [->|NE]; [|rewrite nset_neq by assumption; auto]. exfalso. apply (OUT i A). congruence.
      * intros j c A. destruct (Nat.eq_dec j i) as [->|NE]; [rewrite nset_eq in A; discriminate|rewrite nset_neq in A by assumption; eauto].
      * intros j A. destruct (Nat.eq_dec j i) as [->|NE]; [apply (K8 i); auto|rewrite nset_neq in A by assumption; eauto].
    + constructor; cbn; auto.
      * intros j A. destruct (Nat.eq_dec j i) as [->|NE]; [destruct (K1 i A) as [_ B]; rewrite E in B; contradiction|rewrite nset_neq by assumption; auto].
      * intros j A. destruct (Nat.eq_dec j i) as [->|NE]; [rewrite nset_eq in A; discriminate|rewrite !nset_neq in * by assumption; auto].
      * intros j A. destruct (Nat.eq_dec j i) as [->|NE]; [|rewrite nset_neq by assumption; auto]. exfalso. apply (OUT i A). congruence.
      * intros j c A. destruct (Nat.eq_dec j i) as [->|NE]; [rewrite nset_eq in A; discriminate|rewrite nset_neq in A by assumption; eauto].
      * intros j A. destruct (Nat.eq_dec j i) as [->|NE]; [apply (K8 i); auto|rewrite nset_neq in A by assumption; eauto].
  - destruct (existsb _ _); [|discriminate]. inversion H; subst; clear H. constructor; cbn; auto. intros x A. apply filter_In in A as [A _]. auto.
  - destruct (done s) eqn:ED.
    + inversion H; subst; clear H. constructor; cbn; auto.
    + destruct bad as [b|].
      * destruct (_ && _)%bool eqn:EB; [|discriminate]. apply andb_true_iff in EB as [EB1 EB2]. apply Nat.ltb_lt in EB1. inversion H; subst; clear H. constructor; cbn; auto.
        -- intros j A. destruct (j <? b); [discriminate|auto].
        -- intros j A. destruct (Nat.eq_dec j b) as [->|NE]; [rewrite nset_eq in A; discriminate|]. rewrite nset_neq in A by assumption. destruct (j <? b) eqn:EJ; cbn in A; [|auto]. destruct (trk s j) eqn:ET; [discriminate|]. destruct (K2 j A) as [B|B]; [congruence|auto].
        -- rewrite ED. auto.
        -- rewrite ED. auto.
      * inversion H; subst; clear H. constructor; cbn; auto.
        -- intros j A. destruct (j <? n); [discriminate|auto].
        -- intros j A. destruct (j <? n) eqn:EJ; cbn in A; [|auto]. destruct (trk s j) eqn:ET; [discriminate|]. destruct (K2 j A) as [B|B]; [congruence|auto].
  - destruct (nth_error (ups s) k) as [[]|] eqn:EK; [| |discriminate].
    + inversion H; subst; clear H. constructor; cbn; auto.
      * intros _. apply (K5 k). congruence.
      * intros j A. apply put_err in A. eauto.
    + destruct (conns s) eqn:EC; [|discriminate]. inversion H; subst; clear H. constructor; cbn; auto.
      * intros j A. apply drop_err in A as [j' A]. eauto.
      * rewrite EC. contradiction.
Qed.

Lemma vinv_reachable : forall n s, reachable (vstep n) vinit s -> vinv n s.
Proof. intros n s HR. apply (reachable_inv (vstep n) (vinv n) vinit); [apply vinv_init|intros; eapply vinv_step; eauto|assumption]. Qed.

(** all listeners are closed, and no Serve call is to come *)
Definition allClosed (n : nat) (s : vst) : Prop := done s = true /\ (forall i, i < n -> vp s i <> VIdle) /\ forall i, i < n -> opn s i = false \/ vp s i = VLast.

Lemma closed_step : forall n s l t, allClosed n s -> vinv n s -> vstep n s l = Some t ->
  allClosed n t /\ acc t = acc s /\ (forall c, In c (conns t) -> In c (conns s) \/ exists i, vp s i = VGot c) /\ (forall i c, vp t i = VGot c -> vp s i = VGot c).
Proof.
  intros n s l t (A1 & A2 & A3) I H. destruct l as [i|i|i|i|i|i|i|c|bad|k]; cbn in H.
  all: assert (G : forall i p, p <> VIdle -> (forall c, p <> VGot c) -> (vp s i = VLast -> p = VLast) ->
    (forall j, j < n -> nset (vp s) i p j <> VIdle) /\ (forall j, j < n -> opn s j = false \/ nset (vp s) i p j = VLast) /\ (forall j c, nset (vp s) i p j = VGot c -> vp s j = VGot c))
    by (intros i0 p B C D; split; [|split]; intros j; [intros J|intros J|intros c0 J]; destruct (Nat.eq_dec j i0) as [->|NE]; rewrite ?nset_eq, ?nset_neq in * by assumption; auto;
        [destruct (A3 i0 J); auto|contradiction (C c0)]).
  - destruct (vp s i) eqn:E; try discriminate. destruct (i <? n) eqn:EL; [|discriminate]. apply Nat.ltb_lt in EL. contradiction (A2 i EL).
  - destruct (vp s i) eqn:E; try discriminate. destruct (opn s i) eqn:EO; [|discriminate]. destruct (le_lt_dec n i) as [L|L]; [pose proof (k_idle n s I i L); congruence|].
    destruct (A3 i L); congruence.
  - destruct (vp s i) eqn:E; try discriminate. inversion H; subst; clear H. destruct (G i VErr) as (G1 & G2 & G3); try discriminate; [congruence|]. repeat split; cbn; auto.
  - destruct (vp s i) eqn:E; try discriminate. inversion H; subst; clear H. destruct (G i (if dchan s then VRet else VWait)) as (G1 & G2 & G3); try (destruct (dchan s); discriminate); [congruence|]. repeat split; cbn; auto.
  - destruct (vp s i) eqn:E; try discriminate. inversion H; subst; clear H. destruct (G i VWait) as (G1 & G2 & G3); try discriminate; [congruence|]. repeat split; cbn; auto.
  - destruct (vp s i) eqn:E; try discriminate. inversion H; subst; clear H. destruct (G i VWait) as (G1 & G2 & G3); try discriminate; [congruence|]. repeat split; cbn; auto.
    intros x [<-|B]; [right; eauto|auto].
  - destruct (vp s i) eqn:E; try discriminate; inversion H; subst; clear H.
    + destruct (G i VLast) as (G1 & G2 & G3); try discriminate; [congruence|]. repeat split; cbn; auto.
    + repeat split; cbn; auto.
      * intros j J. destruct (Nat.eq_dec j i) as [->|NE]; [rewrite nset_eq; discriminate|rewrite nset_neq by assumption; auto].
      * intros j J. destruct (Nat.eq_dec j i) as [->|NE]; [rewrite nset_eq; auto|rewrite !nset_neq by assumption; auto].
      * intros j c J. destruct (Nat.eq_dec j i) as [->|NE]; [rewrite nset_eq in J; discriminate|rewrite nset_neq in J by assumption; assumption].
  - destruct (existsb _ _); [|discriminate]. inversion H; subst; clear H. repeat split; cbn; auto. intros x B. apply filter_In in B as [B _]. auto.
  - rewrite A1 in H. inversion H; subst; clear H. repeat split; cbn; auto.
  - destruct (nth_error (ups s) k) as [[]|] eqn:EK; [| |discriminate].
    + inversion H; subst; clear H. repeat split; cbn; auto.
    + destruct (conns s) eqn:EC; [|discriminate]. inversion H; subst; clear H. repeat split; cbn; auto. rewrite EC. contradiction.
Qed.

Lemma closed_run : forall n ls s t, allClosed n s -> vinv n s -> run (vstep n) s ls = Some t ->
  allClosed n t /\ vinv n t /\ acc t = acc s /\ (forall c, In c (conns t) -> In c (conns s) \/ exists i, vp s i = VGot c) /\ (forall i c, vp t i = VGot c -> vp s i = VGot c).
Proof.
  intros n. induction ls as [|l ls IH]; intros s t A I H; cbn in H; [inversion H; subst; auto 10|].
  destruct (vstep n s l) as [u|] eqn:E; [|discriminate]. destruct (closed_step n s l u A I E) as (B1 & B2 & B3 & B4). destruct (IH u t B1 (vinv_step n s l u I E) H) as (C1 & C2 & C3 & C4 & C5).
  split; [assumption|]. split; [assumption|]. split; [congruence|]. split; [|intros i c C; auto]. intros c C. destruct (C4 c C) as [D|[i D]]; [auto|]. right. exists i. auto.
Qed.

Lemma shutdown_closes : forall n s t, vinv n s -> done s = false -> (forall i, i < n -> vp s i <> VIdle) -> vstep n s (EShutdown None) = Some t -> allClosed n t /\ acc t = acc s /\ conns t = conns s /\ vp t = vp s.
Proof.
  intros n s t I D A H. cbn in H. rewrite D in H. inversion H; subst; clear H. cbn. repeat split; cbn; auto. intros i L. apply Nat.ltb_lt in L. rewrite L. cbn.
  destruct (trk s i) eqn:ET; [auto|]. apply Nat.ltb_lt in L. destruct (opn s i) eqn:EO; [|auto]. destruct (k_opn n s I i EO) as [B|[B|B]]; [congruence|contradiction (A i L)|auto].
Qed.

(** If all Serve calls have registered their listeners when Shutdown is called and closing them succeeds, then no connection is
    accepted any more, and only those already accepted are ever served.  Missing: Serve calls that come later, and that an
    accepted connection may start to be served after Shutdown has returned. *)
Theorem C56_accepts_no_more_partial : forall n s s1 ls t, reachable (vstep n) vinit s -> done s = false -> (forall i, i < n -> vp s i <> VIdle) ->
  vstep n s (EShutdown None) = Some s1 -> run (vstep n) s1 ls = Some t ->
  (forall i, ~ accepts t i) /\ acc t = acc s /\ (forall c, serves t c -> serves s c \/ exists i, vp s i = VGot c).
Proof.
  intros n s s1 ls t HR D A H R. pose proof (vinv_reachable n s HR) as I. destruct (shutdown_closes n s s1 I D A H) as (B1 & B2 & B3 & B4).
  destruct (closed_run n ls s1 t B1 (vinv_step n s _ s1 I H) R) as (C1 & C2 & C3 & C4 & _). split; [|split; [congruence|]].
  - intros i [E1 E2]. destruct (le_lt_dec n i) as [L|L]; [pose proof (k_idle n t C2 i L); congruence|]. destruct C1 as (_ & _ & C1). destruct (C1 i L); congruence.
  - unfold serves. intros c E. destruct (C4 c E) as [F|[i F]]; [left; congruence|right; exists i; congruence].
Qed.
Print Assumptions C56_accepts_no_more_partial.

(** Whichever Shutdown call returns nil, and at whichever step: no connection is being served at that moment. *)
Lemma ok_step : forall n s l t, vstep n s l = Some t -> okRet t <> okRet s -> conns s = [] /\ conns t = [] /\ exists k, l = EShut k /\ nth_error (ups s) k = Some UWg.
Proof.
  intros n s l t H OK. destruct l; cbn in H;
    repeat match type of H with
    | context [match ?x with _ => _ end] => destruct x eqn:?; try discriminate
    end; inversion H; subst; try (contradiction OK; reflexivity). cbn. eauto.
Qed.
Theorem C56_returns_only_when_ended : forall n s l t, reachable (vstep n) vinit s -> vstep n s l = Some t -> okRet t <> okRet s -> (forall c, ~ serves s c) /\ (forall c, ~ serves t c).
Proof.
  intros n s l t _ H OK. destruct (ok_step n s l t H OK) as (A & B & _). unfold serves. rewrite A, B. auto.
Qed.
Print Assumptions C56_returns_only_when_ended.

(** If moreover no Accept had just returned, then once a Shutdown call returns nil nothing is served, now and ever after. *)
Theorem C56_down_for_good_partial : forall n s s1 ls t l u ls' v, reachable (vstep n) vinit s -> done s = false -> (forall i, i < n -> vp s i <> VIdle) -> (forall i c, vp s i <> VGot c) ->
  vstep n s (EShutdown None) = Some s1 -> run (vstep n) s1 ls = Some t -> vstep n t l = Some u -> okRet u <> okRet t -> run (vstep n) u ls' = Some v ->
  (forall i, ~ accepts v i) /\ (forall c, ~ serves v c) /\ acc v = acc s.
Proof.
  intros n s s1 ls t l u ls' v HR D A G H R E OK R'. pose proof (vinv_reachable n s HR) as I. destruct (shutdown_closes n s s1 I D A H) as (B1 & B2 & B3 & B4).
  destruct (closed_run n ls s1 t B1 (vinv_step n s _ s1 I H) R) as (C1 & C2 & C3 & C4 & C5). destruct (closed_step n t _ u C1 C2 E) as (D1 & D2 & _ & D4). pose proof (vinv_step n t _ u C2 E) as D5.
  destruct (closed_run n ls' u v D1 D5 R') as (F1 & F2 & F3 & F4 & _).
  assert (CU : conns u = []) by (apply (ok_step n t l u E OK)).
  split; [|split; [|congruence]].
  - intros i [E1 E2]. destruct (le_lt_dec n i) as [L|L]; [pose proof (k_idle n v F2 i L); congruence|]. destruct F1 as (_ & _ & F1). destruct (F1 i L); congruence.
  - unfold serves. intros c X. destruct (F4 c X) as [Y|[i Y]]; [rewrite CU in Y; contradiction|]. apply (G i c). rewrite <- B4. apply C5, D4, Y.
Qed.
Print Assumptions C56_down_for_good_partial.

(** Every Serve call that is under way when the done channel is closed returns: it is never blocked (Accept on a closed listener
    returns an error), and has few steps left. *)
Definition left (p : vpc) : nat := match p with VGone | VIdle => 0 | VLast => 1 | VRet => 2 | VErr => 3 | VWait => 4 | VGot _ => 5 end.
Definition ofServe (i : nat) (l : vlabel) : bool :=
  match l with EAccept j | EAcceptErr j | ECheck j | ERefuse j | ESpawn j | ERet j => j =? i | _ => false end.
Definition stepsOf (i : nat) (ls : list vlabel) : nat := length (filter (ofServe i) ls).

Lemma serve_returns : forall n i s, reachable (vstep n) vinit s -> allClosed n s -> dchan s = true -> i < n ->
  (vp s i = VGone \/ exists l t, ofServe i l = true /\ vstep n s l = Some t) /\
  forall ls t, run (vstep n) s ls = Some t -> stepsOf i ls + left (vp t i) <= left (vp s i).
Proof.
  intros n i s HR HC HD L. pose proof (vinv_reachable n s HR) as I. split.
  - destruct (vp s i) eqn:E.
    + destruct HC as (_ & A & _). contradiction (A i L).
    + right. eexists (EAcceptErr i), _. split; [apply Nat.eqb_refl|]. cbn. rewrite E. reflexivity.
    + right. eexists (ESpawn i), _. split; [apply Nat.eqb_refl|]. cbn. rewrite E. reflexivity.
    + right. eexists (ECheck i), _. split; [apply Nat.eqb_refl|]. cbn. rewrite E. reflexivity.
    + right. eexists (ERet i), _. split; [apply Nat.eqb_refl|]. cbn. rewrite E. reflexivity.
    + right. eexists (ERet i), _. split; [apply Nat.eqb_refl|]. cbn. rewrite E. reflexivity.
    + auto.
  - intros ls. revert s I HC HD HR. induction ls as [|l ls IH]; intros s I HC HD HR t R; cbn in R; [inversion R; subst; cbn; lia|].
    destruct (vstep n s l) as [u|] eqn:E; [|discriminate]. pose proof (closed_step n s l u HC I E) as (CU & _).
    assert (DU : dchan u = true).
    { clear -E HD HC. destruct HC as (D & _). destruct l; cbn in E.
      - destruct (vp s i); try discriminate. destruct (i <? n); [|discriminate]. inversion E; subst; assumption.
      - destruct (vp s i); try discriminate. destruct (opn s i); [|discriminate]. inversion E; subst; assumption.
      - destruct (vp s i); try discriminate. inversion E; subst; assumption.
      - destruct (vp s i); try discriminate. inversion E; subst; assumption.
      - destruct (vp s i); try discriminate. inversion E; subst; assumption.
      - destruct (vp s i); try discriminate. inversion E; subst; assumption.
      - destruct (vp s i); try discriminate; inversion E; subst; assumption.
      - destruct (existsb _ _); [|discriminate]. inversion E; subst; assumption.
      - rewrite D in E. inversion E; subst; assumption.
      - destruct (nth_error _ _) as [[]|]; [| |discriminate]; [inversion E; subst; reflexivity|]. destruct (conns s); [|discriminate]. inversion E; subst; assumption. }
    specialize (IH u (vinv_step n s l u I E) CU DU (reachable_step _ _ _ _ _ HR E) t R).
    enough (X : (if ofServe i l then 1 else 0) + left (vp u i) <= left (vp s i)). { unfold stepsOf in *. cbn. destruct (ofServe i l); cbn; lia. }
    clear IH R. destruct HC as (D & A2 & A3).
    assert (G : forall j p (w : vst), vp w = nset (vp s) j p -> (j = i -> 1 + left p <= left (vp s i)) -> (if j =? i then 1 else 0) + left (vp w i) <= left (vp s i)).
    { intros j p w -> B. destruct (Nat.eq_dec j i) as [->|NE]; [rewrite Nat.eqb_refl, nset_eq; auto|]. rewrite nset_neq by congruence. replace (j =? i) with false by (symmetry; apply Nat.eqb_neq; assumption). lia. }
    destruct l as [j|j|j|j|j|j|j|c|bad|k]; cbn in E; cbn [ofServe].
    + destruct (vp s j) eqn:EJ; try discriminate. destruct (j <? n) eqn:EL; [|discriminate]. apply Nat.ltb_lt in EL. contradiction (A2 j EL).
    + destruct (vp s j) eqn:EJ; try discriminate. destruct (opn s j) eqn:EO; [|discriminate]. destruct (le_lt_dec n j) as [LJ|LJ]; [pose proof (k_idle n s I j LJ); congruence|]. destruct (A3 j LJ); congruence.
    + destruct (vp s j) eqn:EJ; try discriminate. inversion E; subst. apply (G j VErr); [reflexivity|]. intros ->. rewrite EJ. cbn. lia.
    + destruct (vp s j) eqn:EJ; try discriminate. inversion E; subst. rewrite HD. apply (G j VRet); [reflexivity|]. intros ->. rewrite EJ. cbn. lia.
    + destruct (vp s j) eqn:EJ; try discriminate. inversion E; subst. apply (G j VWait); [reflexivity|]. intros ->. rewrite EJ. cbn. lia.
    + destruct (vp s j) eqn:EJ; try discriminate. inversion E; subst. apply (G j VWait); [reflexivity|]. intros ->. rewrite EJ. cbn. lia.
    + destruct (vp s j) eqn:EJ; try discriminate; inversion E; subst; [apply (G j VLast)|apply (G j VGone)]; try reflexivity; intros ->; rewrite EJ; cbn; lia.
    + destruct (existsb _ _); [|discriminate]. inversion E; subst. cbn. lia.
    + rewrite D in E. inversion E; subst. cbn. lia.
    + destruct (nth_error _ _) as [[]|]; [| |discriminate]; [inversion E; subst; cbn; lia|]. destruct (conns s); [|discriminate]. inversion E; subst. cbn. lia.
Qed.

Theorem C56_serve_returns_partial : forall n s s1 ls0 t i, reachable (vstep n) vinit s -> done s = false -> (forall i, i < n -> vp s i <> VIdle) ->
  vstep n s (EShutdown None) = Some s1 -> run (vstep n) s1 ls0 = Some t -> dchan t = true -> i < n ->
  (vp t i = VGone \/ exists l u, ofServe i l = true /\ vstep n t l = Some u) /\
  forall ls u, run (vstep n) t ls = Some u -> stepsOf i ls + left (vp u i) <= left (vp t i).
Proof.
  intros n s s1 ls0 t i HR D A H R DC L. pose proof (vinv_reachable n s HR) as I. destruct (shutdown_closes n s s1 I D A H) as (B1 & _).
  destruct (closed_run n ls0 s1 t B1 (vinv_step n s _ s1 I H) R) as (C1 & _). apply serve_returns; try assumption.
  destruct HR as [ls HR]. exists (ls ++ EShutdown None :: ls0). rewrite run_app, HR. cbn [run]. rewrite H. assumption.
Qed.
Print Assumptions C56_serve_returns_partial.

(** and Shutdown itself returns: closing the channel is never blocked, and waiting ends once the connections have ended *)
Theorem C56_shutdown_returns : forall n s k, k < length (ups s) ->
  exists ls t, run (vstep n) s (map EEnd ls ++ [EShut k]) = Some t /\ (okRet t = S (okRet s) \/ nth_error (ups t) k = Some UWg).
Proof.
  intros n s k L. destruct (nth_error (ups s) k) as [[]|] eqn:E.
  - exists []. eexists. split; [cbn; rewrite E; reflexivity|]. right. cbn. clear -L. revert k L. induction (ups s) as [|x l IH]; intros [|k] L; cbn in *; try lia; [reflexivity|apply IH; lia].
  - enough (X : forall m s, length (conns s) <= m -> nth_error (ups s) k = Some UWg -> exists ls t, run (vstep n) s (map EEnd ls ++ [EShut k]) = Some t /\ okRet t = S (okRet s)).
    { destruct (X _ s (le_n _) E) as (ls & t & X1 & X2). eauto. }
    clear. induction m as [|m IH]; intros s L E.
    + destruct (conns s) eqn:EC; [|cbn in L; lia]. exists []. eexists. split; [cbn; rewrite E, EC; reflexivity|]. reflexivity.
    + destruct (conns s) as [|c cs] eqn:EC; [exists []; eexists; split; [cbn; rewrite E, EC; reflexivity|]; reflexivity|].
      destruct (IH (v_conns (filter (fun x => negb (x =? c)) (conns s)) s)) as (ls & t & X1 & X2).
      * cbn. rewrite EC. cbn. rewrite Nat.eqb_refl. cbn in *. assert (length (filter (fun x => negb (x =? c)) cs) <= length cs) by (clear; induction cs; cbn; [lia|destruct (negb _); cbn; lia]). lia.
      * exact E.
      * exists (c :: ls), t. split; [|exact X2]. cbn -[v_conns]. rewrite EC at 1. cbn -[v_conns]. rewrite Nat.eqb_refl. cbn -[v_conns]. exact X1.
  - apply nth_error_None in E. lia.
Qed.
Print Assumptions C56_shutdown_returns.

(** When closing a listener fails, Shutdown returns an error with the listeners before it closed and forgotten: their Serve calls
    accept nothing any more and do not return either, until a Shutdown succeeds. *)
Theorem C56_failed_shutdown_half_closed : forall n b i s s1 ls t, reachable (vstep n) vinit s -> i < b -> trk s i = true -> vp s i = VWait -> done s = false ->
  vstep n s (EShutdown (Some b)) = Some s1 -> run (vstep n) s1 ls = Some t -> ~ In (EShutdown None) ls ->
  errRet s1 = S (errRet s) /\ ~ accepts t i /\ (vp t i = VWait \/ vp t i = VErr).
Proof.
  intros n b i s s1 ls t HR LB T W D H R NI.
  assert (P1 : errRet s1 = S (errRet s) /\ done s1 = false /\ opn s1 i = false /\ vp s1 i = VWait /\ dchan s1 = dchan s).
  { cbn in H. rewrite D in H. destruct (_ && _)%bool eqn:EB; [|discriminate]. inversion H; subst; clear H. cbn. rewrite nset_neq by lia. apply Nat.ltb_lt in LB. rewrite LB, T. auto. }
  destruct P1 as (P1 & P2 & P3 & P4 & P5). split; [assumption|].
  assert (DC : dchan s1 = false) by (rewrite P5; destruct (dchan s) eqn:E; [rewrite (k_chan n s (vinv_reachable n s HR) E) in D; discriminate|reflexivity]).
  pose proof (vinv_step n s _ s1 (vinv_reachable n s HR) H) as I1. clear H HR.
  assert (G : forall ls s1, vinv n s1 -> done s1 = false -> dchan s1 = false -> opn s1 i = false -> (vp s1 i = VWait \/ vp s1 i = VErr) -> run (vstep n) s1 ls = Some t -> ~ In (EShutdown None) ls ->
    opn t i = false /\ (vp t i = VWait \/ vp t i = VErr)).
  { clear. intros ls. induction ls as [|l ls IH]; intros s I D DC O V R NI; cbn in R; [inversion R; subst; auto|].
    destruct (vstep n s l) as [u|] eqn:E; [|discriminate].
    enough (X : done u = false /\ dchan u = false /\ opn u i = false /\ (vp u i = VWait \/ vp u i = VErr)).
    { destruct X as (X1 & X2 & X3 & X4). apply (IH u (vinv_step n s l u I E) X1 X2 X3 X4 R). intros A. apply NI. right. assumption. }
    assert (G : forall j p, (j = i -> p = VWait \/ p = VErr) -> nset (vp s) j p i = VWait \/ nset (vp s) j p i = VErr).
    { intros j p B. destruct (Nat.eq_dec i j) as [->|NE]; [rewrite nset_eq; auto|rewrite nset_neq by assumption; assumption]. }
    destruct l as [j|j|j|j|j|j|j|c|bad|k]; cbn in E.
    - destruct (vp s j) eqn:EJ; try discriminate. destruct (j <? n); [|discriminate]. inversion E; subst. cbn. repeat split; auto.
    - destruct (vp s j) eqn:EJ; try discriminate. destruct (opn s j) eqn:EO; [|discriminate]. inversion E; subst. cbn. repeat split; auto. apply G. intros ->. congruence.
    - destruct (vp s j) eqn:EJ; try discriminate. inversion E; subst. cbn. repeat split; auto.
    - destruct (vp s j) eqn:EJ; try discriminate. inversion E; subst. cbn. rewrite DC. repeat split; auto.
    - destruct (vp s j) eqn:EJ; try discriminate. inversion E; subst. cbn. repeat split; auto.
    - destruct (vp s j) eqn:EJ; try discriminate. inversion E; subst. cbn. repeat split; auto.
    - destruct (vp s j) eqn:EJ; try discriminate; pose proof (k_ret n s I j) as K; rewrite K in DC; auto; discriminate.
    - destruct (existsb _ _); [|discriminate]. inversion E; subst. cbn. auto.
    - rewrite D in E. destruct bad as [b|]; [|contradiction NI; left; reflexivity]. destruct (_ && _)%bool; [|discriminate]. inversion E; subst. cbn. repeat split; auto.
      unfold nset. rewrite O. destruct (i =? b); [reflexivity|]. destruct (_ && _)%bool; reflexivity.
    - destruct (nth_error (ups s) k) as [x|] eqn:EK; [|discriminate]. pose proof (k_ups n s I k) as K. rewrite EK, D in K. discriminate K. discriminate. }
  destruct (G ls s1 I1 P2 DC P3 (or_introl P4) R NI) as [G1 G2]. split; [|assumption]. intros [_ A]. congruence.
Qed.
Print Assumptions C56_failed_shutdown_half_closed.

(** Two bindings with connections: Shutdown, the connections end, all return. *)
Example C56_example : exists s s1 t, run (vstep 2) vinit [EServe 0; EServe 1; EAccept 1; ESpawn 1; EAcceptErr 0] = Some s /\
  vstep 2 s (EShutdown None) = Some s1 /\ done s = false /\ (forall i, i < 2 -> vp s i <> VIdle) /\ (forall i c, vp s i <> VGot c) /\
  run (vstep 2) s1 [EShut 0; ECheck 0; EAcceptErr 1; ECheck 1; ERet 0; EEnd 0; EShut 0; ERet 1; ERet 0; ERet 1] = Some t /\ isDown t /\ vp t 0 = VGone /\ vp t 1 = VGone /\ acc t = 1.
Proof.
  destruct (run (vstep 2) vinit [EServe 0; EServe 1; EAccept 1; ESpawn 1; EAcceptErr 0]) as [s|] eqn:E; [|discriminate E]. exists s.
  cbv in E. inversion E; subst; clear E.
  match goal with |- context [vstep 2 ?x (EShutdown None)] => destruct (vstep 2 x (EShutdown None)) as [s1|] eqn:E1; [|discriminate E1] end.
  exists s1. cbv in E1. inversion E1; subst; clear E1. eexists. split; [reflexivity|]. split; [reflexivity|]. split; [reflexivity|].
  split; [|split; [|split; [cbv; reflexivity|]]].
  - intros [|[|i]] L; [discriminate|discriminate|lia].
  - intros [|[|i]] c; discriminate.
  - unfold isDown. cbn. repeat split; lia.
Qed.
Example C56_failed_case : exists s s1, run (vstep 2) vinit [EServe 0; EServe 1] = Some s /\ trk s 0 = true /\ vp s 0 = VWait /\ done s = false /\ vstep 2 s (EShutdown (Some 1)) = Some s1.
Proof.
  destruct (run (vstep 2) vinit [EServe 0; EServe 1]) as [s|] eqn:E; [|discriminate E]. exists s. cbv in E. inversion E; subst; clear E.
  eexists. repeat (split; [reflexivity|]). cbv. reflexivity.
Qed.
