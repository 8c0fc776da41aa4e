(** C80: OnAccept comes first and OnClose last. *)
From Verif Require Import Model.GoBase Model.Machine Model.Serve Model.Hooks Props.Serve Proofs.HooksP.
Open Scope N_scope.

(** calls of handlers and of SubFunc *)
Definition handling (c : N) (e : hvt) : Prop := match e with VHandler d _ | VSub d => d = c | _ => False end.
(** an action of connection c alone *)
Definition ofConn (c : N) (l : hlabel) : Prop := match l with HConn d _ | HOnClose d => d = c | _ => False end.

Lemma about_in : forall c e l, conOf e = c -> (In e (about c l) <-> In e l).
Proof. intros c e l H. unfold about. rewrite filter_In, H, N.eqb_refl. tauto. Qed.
Lemma about_split : forall c l1 e l2, conOf e = c -> about c (l1 ++ e :: l2) = about c l1 ++ e :: about c l2.
Proof. intros c l1 e l2 H. rewrite about_app. cbn. rewrite H, N.eqb_refl. reflexivity. Qed.

Lemma not_inner : forall c b e, Forall (inner c) b -> (forall d, e <> VClosed d) -> ~ handling c e -> (forall d, e <> VSubEnd d) -> conOf e = c -> ~ In e b.
Proof.
  intros c b e F A B C D H. rewrite Forall_forall in F. specialize (F e H). destruct e; cbn in *; try contradiction; try congruence.
Qed.

(** a list in which e occurs only at the end *)
Lemma last_split : forall (e : hvt) p l1 l2, ~ In e p -> p ++ [e] = l1 ++ e :: l2 -> l1 = p /\ l2 = [].
Proof.
  intros e p l1 l2 N H. destruct l2 as [|x l2 _] using rev_ind.
  - apply app_inj_tail in H. intuition.
  - exfalso. rewrite app_comm_cons, app_assoc in H. apply app_inj_tail in H. destruct H as [H _]. apply N. rewrite H, in_app_iff. right. left. reflexivity.
Qed.

(** what the log holds about a connection, in one formula *)
Definition shape (hasA hasC : bool) (c : N) (a : list hvt) : Prop :=
  a = [] \/ (hasA = true /\ (a = [VAccept c; VAsk c] \/ a = refusal c \/ a = refusal c ++ [VClosed c] \/
    a = refusal c ++ VClosed c :: if hasC then [VOnClose c] else [])) \/
  (exists b, a = intro hasA c ++ b /\ Forall (inner c) b) \/
  (exists b, hasC = true /\ a = intro hasA c ++ b ++ [VOnClose c] /\ Forall (inner c) b /\
     In (VClosed c) b /\ (forall n, In (EStart n) (hevs b) -> In (EFinish n) (hevs b)) /\ subs b = subEnds b).

Lemma shape_reach : forall K lim hasA hasC s c, reachable (hstep K lim hasA hasC) hinit s -> shape hasA hasC c (about c (log s)).
Proof.
  intros K lim hasA hasC s c R. pose proof (good_reach K lim hasA hasC s R c) as G. unfold good in G. unfold shape.
  destruct (ph (con s c)); try tauto.
  - right. right. left. destruct G as (_ & _ & _ & _ & _ & b & G1 & G2 & _). eauto.
  - destruct G as (_ & _ & [[G1 G2]|(b & G1 & G2 & G3)]); [tauto|]. destruct hasC; [right; right; right; eauto 8|].
    right. right. left. exists b. rewrite app_nil_r in G1. auto.
Qed.

(** OnAccept, if it is set, is called first, once for each accepted connection, and has returned nil before a handler or
    SubFunc is called. *)
Theorem C80_accept_first :
  forall K lim hasC s c, reachable (hstep K lim true hasC) hinit s -> In (VAccept c) (log s) ->
  count_occ Bool.bool_dec (map (fun e => match e with VAsk d => d =? c | _ => false end) (log s)) true = 1%nat /\
  forall l1 e l2, log s = l1 ++ e :: l2 -> handling c e -> In (VAsk c) l1 /\ In (VAnswer c true) l1.
Proof.
  intros K lim hasC s c R HA. pose proof (shape_reach _ _ _ _ s c R) as S. apply (about_in c (VAccept c)) in HA; [|reflexivity].
  split.
  - assert (X : forall l, count_occ Bool.bool_dec (map (fun e => match e with VAsk d => d =? c | _ => false end) l) true =
                          count_occ Bool.bool_dec (map (fun e => match e with VAsk d => d =? c | _ => false end) (about c l)) true).
    { induction l as [|e l IH]; [reflexivity|]. cbn [map about filter]. destruct (conOf e =? c) eqn:E.
      - cbn [map count_occ]. destruct (Bool.bool_dec _ _); rewrite IH; reflexivity.
      - destruct e; cbn in E |- *; rewrite ?E; cbn; exact IH. }
    rewrite X. assert (Y : forall b, Forall (inner c) b -> count_occ Bool.bool_dec (map (fun e => match e with VAsk d => d =? c | _ => false end) b) true = 0%nat).
    { induction 1 as [|e b HE HB IH]; [reflexivity|]. destruct e; cbn in HE |- *; tauto. }
    destruct S as [S|[(_ & S)|[(b & S & F)|(b & -> & S & F & _)]]].
    + rewrite S in HA. contradiction.
    + destruct S as [S|[S|[S|S]]]; rewrite S; cbn; rewrite ?N.eqb_refl; try reflexivity; destruct hasC; reflexivity.
    + rewrite S. cbn. rewrite N.eqb_refl. cbn. rewrite Y by assumption. reflexivity.
    + rewrite S, app_assoc, map_app, count_occ_app, map_app, count_occ_app, (Y b F). cbn. rewrite N.eqb_refl. reflexivity.
  - intros l1 e l2 E HE. assert (CE : conOf e = c) by (destruct e; cbn in HE |- *; tauto). rewrite E, (about_split c l1 e l2 CE) in S.
    assert (Z : forall r, (exists t, about c l1 ++ e :: about c l2 = VAccept c :: VAsk c :: VAnswer c true :: t) -> r = c -> In (VAsk c) l1 /\ In (VAnswer c true) l1).
    { intros r (t & T) _. rewrite <- (about_in c (VAsk c) l1 eq_refl), <- (about_in c (VAnswer c true) l1 eq_refl).
      destruct (about c l1) as [|x [|y [|z m]]]; cbn [app] in T.
      - injection T as T1 T2. rewrite T1 in HE. contradiction.
      - injection T as T1 T2 T3. rewrite T2 in HE. contradiction.
      - injection T as T1 T2 T3 T4. rewrite T3 in HE. contradiction.
      - injection T as -> -> -> T4. cbn. auto. }
    apply (Z c); [|reflexivity]. destruct S as [S|[(_ & S)|[(b & S & F)|(b & -> & S & F & _)]]].
    + destruct (about c l1); discriminate S.
    + exfalso. assert (W : In e (about c l1 ++ e :: about c l2)) by (rewrite in_app_iff; right; left; reflexivity).
      destruct S as [S|[S|[S|S]]]; rewrite S in W; cbn in W; destruct hasC; cbn in W;
        repeat (destruct W as [W|W]; [rewrite <- W in HE; contradiction|]); contradiction.
    + exists b. exact S.
    + eexists. exact S.
Qed.
Print Assumptions C80_accept_first.

(** A connection OnAccept refuses is never handled. *)
Theorem C80_refused_not_handled :
  forall K lim hasA hasC s c e, reachable (hstep K lim hasA hasC) hinit s -> In (VAnswer c false) (log s) -> handling c e -> ~ In e (log s).
Proof.
  intros K lim hasA hasC s c e R HA HE HI. pose proof (shape_reach _ _ _ _ s c R) as S. apply (about_in c (VAnswer c false)) in HA; [|reflexivity].
  assert (CE : conOf e = c) by (destruct e; cbn in HE |- *; tauto). apply (about_in c e _ CE) in HI.
  assert (NI : forall b, Forall (inner c) b -> ~ In (VAnswer c false) (intro hasA c ++ b ++ [VOnClose c])).
  { intros b F X. unfold intro in X. rewrite !in_app_iff in X. destruct X as [X|[X|[X|[]]]]; [destruct hasA; cbn in X; intuition discriminate| |discriminate X].
    rewrite Forall_forall in F. exact (F _ X). }
  destruct S as [S|[(_ & S)|[(b & S & F)|(b & -> & S & F & _)]]].
  - rewrite S in HA. contradiction.
  - destruct S as [S|[S|[S|S]]]; rewrite S in HI; cbn in HI; destruct hasC; cbn in HI;
      repeat (destruct HI as [HI|HI]; [rewrite <- HI in HE; contradiction|]); contradiction.
  - rewrite S in HA. apply (NI b F). rewrite app_assoc, in_app_iff. auto.
  - rewrite S in HA. exact (NI b F HA).
Qed.
Print Assumptions C80_refused_not_handled.

Lemma hevs_in : forall c b h, Forall (inner c) b -> (In h (hevs b) <-> In (VHandler c h) b).
Proof.
  intros c b h F. unfold hevs. rewrite in_flat_map. split.
  - intros (x & A & B). rewrite Forall_forall in F. specialize (F x A). destruct x; cbn in *; try contradiction. destruct B as [->|[]]. subst. assumption.
  - intro A. exists (VHandler c h). split; [assumption|left; reflexivity].
Qed.
Lemma count_intro : forall hasA c, subs (intro hasA c) = 0%nat /\ subEnds (intro hasA c) = 0%nat.
Proof. intros. unfold intro. destruct hasA; cbn; auto. Qed.

(** OnClose of a connection: the connection was accepted and has been closed, every handler that was called on it has returned
    and so has every call of SubFunc, and nothing happens to the connection afterwards; so it is called at most once. *)
Theorem C80_close_last :
  forall K lim hasA hasC s c l1 l2, reachable (hstep K lim hasA hasC) hinit s -> log s = l1 ++ VOnClose c :: l2 ->
  In (VAccept c) l1 /\ In (VClosed c) l1 /\
  (forall n, In (VHandler c (EStart n)) l1 -> In (VHandler c (EFinish n)) l1) /\
  subs (about c l1) = subEnds (about c l1) /\
  (forall e, In e l2 -> conOf e <> c).
Proof.
  intros K lim hasA hasC s c l1 l2 R E. pose proof (shape_reach _ _ _ _ s c R) as S. rewrite E, (about_split c l1 (VOnClose c) l2 eq_refl) in S.
  assert (W : In (VOnClose c) (about c l1 ++ VOnClose c :: about c l2)) by (rewrite in_app_iff; right; left; reflexivity).
  assert (L2 : about c l2 = [] -> forall e, In e l2 -> conOf e <> c).
  { intros A e HE HC. apply (about_in c e l2 HC) in HE. rewrite A in HE. contradiction. }
  assert (NI : forall b, Forall (inner c) b -> ~ In (VOnClose c) (intro hasA c ++ b)).
  { intros b F X. unfold intro in X. rewrite in_app_iff in X. destruct X as [X|X]; [destruct hasA; cbn in X; intuition discriminate|].
    rewrite Forall_forall in F. exact (F _ X). }
  rewrite <- (about_in c (VAccept c) l1 eq_refl), <- (about_in c (VClosed c) l1 eq_refl).
  destruct S as [S|[(_ & S)|[(b & S & F)|(b & -> & S & F & S1 & S2 & S3)]]].
  - destruct (about c l1); discriminate S.
  - destruct S as [S|[S|[S|S]]].
    1-3: exfalso; rewrite S in W; cbn in W; intuition discriminate.
    destruct hasC; [|exfalso; rewrite S in W; cbn in W; intuition discriminate].
    change (refusal c ++ [VClosed c; VOnClose c]) with ((refusal c ++ [VClosed c]) ++ [VOnClose c]) in S. symmetry in S.
    destruct (last_split (VOnClose c) (refusal c ++ [VClosed c]) (about c l1) (about c l2)) as [A B]; [cbn; intuition discriminate|exact S|].
    rewrite A. cbn. repeat split; auto.
    + intros n H. apply (about_in c (VHandler c (EStart n)) l1 eq_refl) in H. rewrite A in H. cbn in H. intuition discriminate.
  - exfalso. rewrite S in W. exact (NI b F W).
  - rewrite app_assoc in S. symmetry in S.
    destruct (last_split (VOnClose c) (intro hasA c ++ b) (about c l1) (about c l2) (NI b F) S) as [A B].
    rewrite A. split; [rewrite in_app_iff; left; unfold intro; left; reflexivity|]. split; [rewrite in_app_iff; right; assumption|].
    split; [|split; [|apply L2; assumption]].
    + intros n H. apply (about_in c (VHandler c (EStart n)) l1 eq_refl) in H. apply (about_in c (VHandler c (EFinish n)) l1 eq_refl). rewrite A in *.
      rewrite in_app_iff in *. right. destruct H as [H|H]; [unfold intro in H; destruct hasA; cbn in H; intuition discriminate|].
      apply (hevs_in c b _ F). apply S2. apply (hevs_in c b _ F). assumption.
    + rewrite subs_app, subEnds_app. destruct (count_intro hasA c) as [-> ->]. rewrite S3. reflexivity.
Qed.
Print Assumptions C80_close_last.

Lemma rmv_shorter : forall n l, (length (rmv n l) <= length l)%nat.
Proof. intros n l. unfold rmv. induction l as [|x l IH]; [apply le_n|]. cbn [filter]. destruct (negb (x =? n)%nat); cbn [length]; lia. Qed.

(** the goroutines of nonblocking requests that were started all run and return *)
Lemma drain : forall K lim k v, (length (spawned v) <= k)%nat -> running v = [] ->
  exists ls v', run (sstep K lim) v ls = Some v' /\ Forall (fun l => readerAct l = false) ls /\
    rd v' = rd v /\ sv v' = sv v /\ cancelled v' = cancelled v /\ gateFull v' = gateFull v /\ spawned v' = [] /\ running v' = [].
Proof.
  intros K lim. induction k as [|k IH]; intros v HL HR.
  - destruct (spawned v) eqn:E; [|cbn in HL; lia]. exists [], v. cbn. repeat split; auto.
  - destruct (spawned v) as [|n l] eqn:E; [exists [], v; cbn; repeat split; auto|].
    set (v1 := mkS (rd v) (sv v) (ch v) (gateFull v) (cancelled v) (rmv n l) [] (decr lim (counter v)) (narr v) (kind v) ((evs v ++ [EStart n]) ++ [EFinish n]) (blkDone v)).
    assert (R : run (sstep K lim) v [SLStart n; SLFinish n] = Some v1).
    { assert (M1 : mem n (n :: l) = true) by (unfold mem; cbn; rewrite Nat.eqb_refl; reflexivity). assert (M2 : mem n [n] = true) by (unfold mem; cbn; rewrite Nat.eqb_refl; reflexivity).
      assert (M3 : rmv n (n :: l) = rmv n l) by (unfold rmv; cbn; rewrite Nat.eqb_refl; reflexivity). assert (M4 : rmv n [n] = []) by (unfold rmv; cbn; rewrite Nat.eqb_refl; reflexivity).
      cbn [run sstep]. rewrite E, M1. cbn [running rd sv ch gateFull cancelled spawned counter narr kind evs blkDone]. rewrite HR. cbn [app]. rewrite M2, M3, M4. reflexivity. }
    destruct (IH v1) as (ls & v' & A & B & C & D & F & G & H & J); [cbn; cbn in HL; pose proof (rmv_shorter n l); lia|reflexivity|].
    exists ([SLStart n; SLFinish n] ++ ls), v'. rewrite run_app, R. cbn in C, D, F, G. repeat split; auto. repeat (apply Forall_cons; [reflexivity|]). exact B.
Qed.

Lemma lift : forall K lim hasA hasC c ls s v', ph (con s c) = PServe -> insub (con s c) = false ->
  run (sstep K lim) (srv (con s c)) ls = Some v' ->
  exists s', run (hstep K lim hasA hasC) s (map (HConn c) ls) = Some s' /\ ph (con s' c) = PServe /\ insub (con s' c) = false /\ srv (con s' c) = v'.
Proof.
  intros K lim hasA hasC c. induction ls as [|l ls IH]; intros s v' P I R; cbn in R |- *.
  - injection R as <-. exists s. auto.
  - destruct (sstep K lim (srv (con s c)) l) as [v|] eqn:E; [|discriminate R]. rewrite P, I. cbn. apply IH; cbn; rewrite upd_eq; cbn; auto.
Qed.

(** the reader returns only after it, or another goroutine, has closed the connection: serveconn.go:377-384, 417-436 *)
Lemma exit_cancelled : forall K lim v, reachable (sstep K lim) sinit v -> rd v = RExit -> cancelled v = true.
Proof.
  intros K lim v R. refine (reachable_inv (sstep K lim) (fun v => rd v = RExit -> cancelled v = true) sinit _ _ v R); [discriminate|].
  clear v R. intros s l s' I H. unfold sstep, dispatch, afterSend in H. destruct l;
  repeat match type of H with context[match ?x with _ => _ end] => destruct x eqn:?; try discriminate H end;
  injection H as <-; cbn [rd cancelled]; intro X; try reflexivity; try assumption; try discriminate X; apply I; congruence.
Qed.

(** OnClose comes: when the connection was closed, its reader has returned and no handler runs, then OnClose is called by what
    remains to be done for this connection alone (and the return of handlers about to be called). *)
Theorem C80_close_comes :
  forall K lim hasA s c, limOk lim -> reachable (hstep K lim hasA true) hinit s ->
  ph (con s c) = PServe -> rd (srv (con s c)) = RExit ->
  running (srv (con s c)) = [] -> (forall n, sv (srv (con s c)) <> SBlk n) ->
  exists ls s', Forall (ofConn c) ls /\ run (hstep K lim hasA true) s ls = Some s' /\ In (VOnClose c) (log s').
Proof.
  intros K lim hasA s c HL R P RX RN NB. pose proof (good_reach _ _ _ _ s R c) as G. unfold good in G. rewrite P in G.
  destruct G as (_ & _ & G & _ & GS & _).
  pose proof (exit_cancelled K lim _ G RX) as CA.
  assert (IS : insub (con s c) = false) by (destruct (insub (con s c)); [specialize (GS eq_refl); congruence|reflexivity]).
  destruct (drain K lim (length (spawned (srv (con s c)))) (srv (con s c)) (le_n _) RN) as (l1 & v1 & A1 & A2 & A3 & A4 & A5 & A6 & A7 & A8).
  assert (R1 : reachable (sstep K lim) sinit v1) by (destruct G as (l0 & G); exists (l0 ++ l1); rewrite run_app, G; exact A1).
  pose proof (v_tok _ _ _ (sreach K lim v1 HL R1)) as TO. cbn [airTok Nat.add] in TO.
  assert (E : exists l2 v2, run (sstep K lim) v1 l2 = Some v2 /\ rd v2 = RExit /\ sv v2 = SClosed /\ spawned v2 = [] /\ running v2 = []).
  { rewrite A4 in TO. destruct (sv (srv (con s c))) as [|n|n| | |] eqn:V.
    - exists [SLSvDone; SLSvClose]. cbn. rewrite A4, A5, CA. cbn. eexists. repeat split; cbn; congruence.
    - exfalso. exact (NB n eq_refl).
    - cbn in TO. destruct (gateFull v1) eqn:GF; [cbn in TO; lia|].
      exists [SLDefer; SLReadMore; SLSvDone; SLSvClose]. cbn. rewrite A4. cbn. rewrite GF. cbn. rewrite A5, CA. cbn. eexists. repeat split; cbn; congruence.
    - cbn in TO. destruct (gateFull v1) eqn:GF; [cbn in TO; lia|].
      exists [SLReadMore; SLSvDone; SLSvClose]. cbn. rewrite A4, GF. cbn. rewrite A5, CA. cbn. eexists. repeat split; cbn; congruence.
    - exists [SLSvClose]. cbn. rewrite A4. eexists. repeat split; cbn; congruence.
    - exists [], v1. cbn. repeat split; congruence. }
  destruct E as (l2 & v2 & E1 & E2 & E3 & E4 & E5).
  destruct (lift K lim hasA true c (l1 ++ l2) s v2 P IS) as (s' & S1 & S2 & S3 & S4); [rewrite run_app, A1; exact E1|].
  exists (map (HConn c) (l1 ++ l2) ++ [HOnClose c]). rewrite run_app, S1. cbn. rewrite S2. unfold allBack. rewrite S4, E2, E3, E4, E5.
  eexists. split; [|split; [reflexivity|]].
  - apply Forall_app. split; [|repeat constructor]. apply Forall_forall. intros x HX. apply in_map_iff in HX. destruct HX as (y & <- & _). reflexivity.
  - cbn. rewrite in_app_iff. right. left. reflexivity.
Qed.
Print Assumptions C80_close_comes.

(** ... and for a refused connection the accept loop closes it and calls OnClose before it accepts another one. *)
Theorem C80_refused_closed :
  forall K lim hasA s c, reachable (hstep K lim hasA true) hinit s -> In (VAnswer c false) (log s) ->
  In (VOnClose c) (log s) \/
  (hstep K lim hasA true s HAccept = None /\
   exists ls s', incl ls [HRefClose; HRefNotify] /\ run (hstep K lim hasA true) s ls = Some s' /\
     In (VClosed c) (log s') /\ In (VOnClose c) (log s')).
Proof.
  intros K lim hasA s c R HA. pose proof (good_reach _ _ _ _ s R c) as G. unfold good in G. apply (about_in c (VAnswer c false)) in HA; [|reflexivity].
  assert (NI : forall b, Forall (inner c) b -> ~ In (VAnswer c false) (intro hasA c ++ b ++ [VOnClose c])).
  { intros b F X. unfold intro in X. rewrite !in_app_iff in X. destruct X as [X|[X|[X|[]]]]; [destruct hasA; cbn in X; intuition discriminate| |discriminate X].
    rewrite Forall_forall in F. exact (F _ X). }
  destruct (ph (con s c)) eqn:P.
  - destruct G as (_ & G). rewrite G in HA. contradiction.
  - destruct G as (_ & _ & _ & G). rewrite G in HA. cbn in HA. intuition discriminate.
  - destruct G as (_ & L & _ & G). right. split; [cbn; rewrite L; reflexivity|]. exists [HRefClose; HRefNotify]. cbn. rewrite L, P. cbn. rewrite L, upd_eq. cbn.
    eexists. split; [apply incl_refl|]. split; [reflexivity|]. cbn. rewrite !in_app_iff. cbn. auto.
  - destruct G as (_ & L & _ & G). right. split; [cbn; rewrite L; reflexivity|]. exists [HRefNotify]. cbn. rewrite L, P.
    eexists. split; [intros x [<-|[]]; right; left; reflexivity|]. split; [reflexivity|]. cbn. rewrite !in_app_iff. split; [left|right; left; reflexivity].
    apply (about_in c (VClosed c) (log s) eq_refl). rewrite G. cbn. auto.
  - exfalso. destruct G as (_ & _ & _ & _ & _ & b & G & F & _). apply (NI b F). rewrite G in HA. rewrite app_assoc, in_app_iff. auto.
  - destruct G as (_ & _ & [[_ G]|(b & G & F & _)]).
    + left. apply (about_in c (VOnClose c) (log s) eq_refl). rewrite G. cbn. auto 8.
    + exfalso. rewrite G in HA. exact (NI b F HA).
Qed.
Print Assumptions C80_refused_closed.

(** connection 0 is refused; connection 1 gets a push, a nonblocking and a blocking request, its peer leaves, both handlers
    return after that, OnClose is called *)
Example C80_case :
  match run (hstep 0 None true true) hinit
    ([HAccept; HAnswer false; HRefClose; HRefNotify; HAccept; HAnswer true; HSub 1; HSubEnd 1] ++
     map (HConn 1) [SLRead false; SLHand; SLStart 0; SLRead true; SLHand; SLCancel; SLRdDone; SLBlkRet; SLDefer; SLReadMore; SLSvDone; SLSvClose; SLFinish 0] ++
     [HOnClose 1]) with
  | Some s => log s = [VAccept 0; VAsk 0; VAnswer 0 false; VClosed 0; VOnClose 0; VAccept 1; VAsk 1; VAnswer 1 true; VSub 1; VSubEnd 1;
                       VHandler 1 (EStart 0); VHandler 1 (EStart 1); VHandler 1 (EFinish 1); VClosed 1; VHandler 1 (EFinish 0); VOnClose 1]
  | None => False
  end.
Proof. vm_compute. reflexivity. Qed.
(** the hypotheses of C80_close_comes: the peer left while a blocking request was being handled *)
Example C80_comes_case :
  match run (hstep 0 None false true) hinit
    (HAccept :: map (HConn 0) [SLRead true; SLHand; SLCancel; SLRdDone; SLBlkRet]) with
  | Some s => ph (con s 0) = PServe /\ rd (srv (con s 0)) = RExit /\ cancelled (srv (con s 0)) = true /\ running (srv (con s 0)) = [] /\ sv (srv (con s 0)) = SDefer 0
  | None => False
  end.
Proof. vm_compute. repeat split. Qed.
