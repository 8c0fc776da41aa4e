(** C85: one channel.Receiver used by several goroutines. *)
From Coq Require Import Permutation.
From Verif Require Import Model.GoBase Model.Machine Model.RecvShared.
Open Scope N_scope.

(** the messages that were returned; how many calls of Receive have been made, have returned, are running; whether t is in a call *)
Definition gots (l : list revt) : list N := flat_map (fun e => match e with EGot _ m => [m] | _ => [] end) l.
Definition calls (l : list revt) : nat := length (filter (fun e => match e with ECall _ => true | _ => false end) l).
Definition rets (l : list revt) : nat := length (filter (fun e => match e with ECall _ => false | _ => true end) l).
Definition running (l : list revt) : nat := (calls l - rets l)%nat.
Definition busy (t : N) (l : list revt) : bool :=
  fold_left (fun b e => match e with ECall u => (u =? t) || b | EGot u _ | EFin u | EErr u => negb (u =? t) && b end) l false.
(** the first n messages of the stream *)
Definition iota (n : nat) : list N := map N.of_nat (seq 0 n).

(** t's call can return by t's own steps, without its context expiring *)
Definition ownStep (t : N) (l : rlabel) : Prop := match l with LLook u | LTake u | LStore u | LRecv u => u = t | _ => False end.
Definition canReturn (s : rst) (t : N) : Prop :=
  exists ls s', Forall (ownStep t) ls /\ run rstep s ls = Some s' /\ busy t (rlog s') = false.

(** Each message is returned by one Receive and none is passed over, but for those that running calls have in their hands *)
Definition each_once (s : rst) : Prop :=
  exists now n, Permutation (gots (rlog s) ++ now) (iota n) /\ (n <= N.to_nat (narr s))%nat /\ (length now <= running (rlog s))%nat.
(** A Receive returns when there are messages for all that are running, and when the stream has ended (with a message before its end)
    or the connection has *)
Definition all_return (s : rst) : Prop :=
  forall t, busy t (rlog s) = true ->
  (ended s = false -> (length (gots (rlog s)) + running (rlog s) <= N.to_nat (narr s))%nat -> canReturn s t) /\
  (ended s = true -> 0 < narr s \/ glost s = true -> canReturn s t).
(** A Receive returns ErrStreamFinished only when all messages have been returned, unless the connection was lost *)
Definition finished_last (s : rst) : Prop :=
  forall l1 l2 t, rlog s = l1 ++ EFin t :: l2 -> glost s = false -> ended s = true /\ Permutation (gots l1) (iota (N.to_nat (narr s))).

(** The full statement of C85 *)
Definition C85_statement : Prop := forall b ls s, run rstep (rinit b) ls = Some s -> each_once s /\ all_return s /\ finished_last s.

(** Two Receives before the first message, one of which gives up: the next ones wait although messages are there *)
Definition twoFirst : list rlabel :=
  [LCall 0; LCall 1; LLook 0; LLook 1; LArrive; LTake 0; LStore 0; LCtx 1; LStore 1; LCall 2; LLook 2; LArrive].

(** on the server's side two first Receives return the same message *)
Definition twice : list rlabel := [LCall 0; LCall 1; LLook 0; LLook 1; LStore 0; LStore 1].
Lemma twice_gots : option_map (fun s => (gots (rlog s), running (rlog s))) (run rstep (rinit true) twice) = Some ([0; 0], 0%nat).
Proof. vm_compute. reflexivity. Qed.

Lemma iota_nodup : forall n, NoDup (iota n).
Proof. intro n. apply FinFun.Injective_map_NoDup; [intros a b H; lia|apply seq_NoDup]. Qed.

Theorem C85_refuted : ~ C85_statement.
Proof.
  intro H. pose proof twice_gots as M. destruct (run rstep (rinit true) twice) as [s|] eqn:R; [|discriminate M]. injection M as M1 M2.
  destruct (H true twice s R) as [(now & n & P & _) _]. rewrite M1 in P.
  apply Permutation_sym in P. pose proof (Permutation_NoDup P (iota_nodup n)) as D.
  inversion D as [|x l N _]. apply N. left. reflexivity.
Qed.
Print Assumptions C85_refuted.

(** On the client's side a Receive that overlapped the first one leaves the Receiver useless: the third call can never return but by its context,
    whatever arrives and whoever calls, although message 1 is there. *)
Definition stuck (s : rst) : Prop := srv s = false /\ rch s = [] /\ rclosed s = false /\ 0 < narr s /\ rthr s 2 = RWait.
Lemma stuck_step : forall s l s', stuck s -> rstep s l = Some s' -> l <> LCtx 2 -> stuck s'.
Proof.
  intros s l s' (A & B & C & D & E) H N. assert (Z : (narr s =? 0) = false) by (apply N.eqb_neq; lia).
  unfold stuck. destruct l; cbn [rstep] in H.
  1: { destruct (ended s); [discriminate H|]. rewrite Z in H. injection H as <-; cbn. repeat split; auto. lia. }
  1: { destruct (ended s); [discriminate H|]. rewrite Z, andb_false_r in H. injection H as <-; cbn. auto. }
  all: repeat match type of H with context[match ?x with _ => _ end] => destruct x eqn:?; try discriminate H end;
    try (injection H as <-; cbn; rewrite ?A, ?B, ?C; repeat split; auto; destruct (N.eq_dec t 2) as [->|NE]; [congruence|rewrite upd_neq by congruence; assumption]);
    congruence.
Qed.
Lemma stuck_run : forall ls s s', stuck s -> run rstep s ls = Some s' -> ~ In (LCtx 2) ls -> stuck s'.
Proof.
  induction ls as [|l ls IH]; intros s s' S R N; cbn in R; [congruence|]. destruct (rstep s l) as [s1|] eqn:E; [|discriminate R].
  apply (IH s1 s'); [|exact R|intro X; apply N; right; exact X]. apply (stuck_step s l); [exact S|exact E|]. intros ->. apply N. left. reflexivity.
Qed.
(** ** Counting *)
Lemma gots_app : forall a b, gots (a ++ b) = gots a ++ gots b.
Proof. intros. apply flat_map_app. Qed.
Lemma calls_app : forall a b, calls (a ++ b) = (calls a + calls b)%nat.
Proof. intros. unfold calls. rewrite filter_app, app_length. reflexivity. Qed.
Lemma rets_app : forall a b, rets (a ++ b) = (rets a + rets b)%nat.
Proof. intros. unfold rets. rewrite filter_app, app_length. reflexivity. Qed.
Lemma busy_snoc : forall t l e, busy t (l ++ [e]) = match e with ECall u => (u =? t) || busy t l | EGot u _ | EFin u | EErr u => negb (u =? t) && busy t l end.
Proof. intros. unfold busy. rewrite fold_left_app. reflexivity. Qed.

Definition idle (p : rpc) : bool := match p with RIdle => true | _ => false end.
Record cinv (s : rst) : Prop := {
  c_busy : forall t, busy t (rlog s) = negb (idle (rthr s t));
  c_count : exists B, NoDup B /\ (forall t, In t B <-> busy t (rlog s) = true) /\ calls (rlog s) = (rets (rlog s) + length B)%nat }.

(** the effect of an action on who is where and on the log *)
Inductive effect (s s' : rst) : Prop :=
| EfEnv : rthr s' = rthr s -> rlog s' = rlog s -> effect s s'
| EfMove t p : idle (rthr s t) = false -> idle p = false -> rthr s' = upd (rthr s) t p -> rlog s' = rlog s -> effect s s'
| EfCall t p : idle (rthr s t) = true -> idle p = false -> rthr s' = upd (rthr s) t p -> rlog s' = rlog s ++ [ECall t] -> effect s s'
| EfGot t m : idle (rthr s t) = false -> rthr s' = upd (rthr s) t RIdle -> rlog s' = rlog s ++ [EGot t m] -> effect s s'
| EfErr t e : idle (rthr s t) = false -> e = EErr t \/ e = EFin t /\ ended s = true /\ rthr s t = RCh /\ fq s = [] -> rthr s' = upd (rthr s) t RIdle -> rlog s' = rlog s ++ [e] -> effect s s'.

Lemma step_effect : forall s l s', rstep s l = Some s' -> effect s s'.
Proof.
  intros s l s' H. destruct l; cbn [rstep] in H.
  - destruct (ended s); [discriminate H|]. destruct (narr s =? 0); injection H as <-; apply EfEnv; reflexivity.
  - destruct (ended s); [discriminate H|]. injection H as <-; apply EfEnv; reflexivity.
  - destruct (rthr s t) eqn:P; try discriminate H. injection H as <-. apply (EfCall _ _ t RLook); auto. rewrite P. reflexivity.
  - destruct (rthr s t) eqn:P; try discriminate H. injection H as <-.
    apply (EfMove _ _ t (if first s then RCh else if srv s then RStore (Some 0) else RWait)); auto; [rewrite P; reflexivity|destruct (first s), (srv s); reflexivity].
  - destruct (rthr s t) eqn:P; try discriminate H. destruct (rch s); [destruct (rclosed s); [|discriminate H]|]; injection H as <-.
    + apply (EfMove _ _ t (RStore None)); auto. rewrite P. reflexivity.
    + apply (EfMove _ _ t (RStore (Some n))); auto. rewrite P. reflexivity.
  - destruct (rthr s t) eqn:P; try discriminate H; injection H as <-.
    + apply (EfMove _ _ t (RStore None)); auto. rewrite P. reflexivity.
    + apply (EfErr _ _ t (EErr t)); auto. rewrite P. reflexivity.
  - destruct (rthr s t) eqn:P; try discriminate H; injection H as <-. destruct m as [m|].
    + apply (EfGot _ _ t m); auto. rewrite P. reflexivity.
    + apply (EfErr _ _ t (EErr t)); auto. rewrite P. reflexivity.
  - destruct (rthr s t) eqn:P; try discriminate H. destruct (fq s) eqn:Q; [destruct (ended s) eqn:E; [|discriminate H]|]; injection H as <-.
    + apply (EfErr _ _ t (EFin t)); auto. rewrite P. reflexivity.
    + apply (EfGot _ _ t n); auto. rewrite P. reflexivity.
Qed.

Lemma remove_nodup : forall (l : list N) t, NoDup l -> NoDup (remove N.eq_dec t l).
Proof.
  induction l as [|a l IH]; intros t D; cbn; [constructor|]. inversion D as [|x y N D']; subst. destruct (N.eq_dec t a); [auto|].
  constructor; [intro X; apply in_remove in X; tauto|auto].
Qed.
Lemma remove_length1 : forall (l : list N) t, NoDup l -> In t l -> length l = S (length (remove N.eq_dec t l)).
Proof.
  induction l as [|a l IH]; intros t D I; [destruct I|]. inversion D as [|x y N D']; subst. cbn. destruct (N.eq_dec t a) as [->|E].
  - rewrite notin_remove by assumption. reflexivity.
  - destruct I as [I|I]; [congruence|]. cbn. rewrite (IH t D' I). reflexivity.
Qed.

Lemma cinv_init : forall b, cinv (rinit b).
Proof. intro b. split; [reflexivity|]. exists []. repeat split; [constructor|intros []|intro H; discriminate H]. Qed.
Lemma cinv_step : forall s l s', cinv s -> rstep s l = Some s' -> cinv s'.
Proof.
  intros s l s' [I (B & D & J & K)] H. apply step_effect in H.
  assert (X : (forall t, busy t (rlog s') = negb (idle (rthr s' t)))).
  { intro u. destruct H as [T L|t p A Bp T L|t p A Bp T L|t m A T L|t e A Ee T L]; rewrite T, L, ?busy_snoc; rewrite ?I; try reflexivity; try (destruct Ee as [->|[-> _]]);
      (destruct (N.eq_dec t u) as [->|NE]; [rewrite upd_eq, ?N.eqb_refl|rewrite upd_neq by congruence; apply N.eqb_neq in NE; rewrite ?NE]);
      rewrite ?A, ?Bp; try reflexivity. }
  split; [exact X|].
  destruct H as [T L|t p A Bp T L|t p A Bp T L|t m A T L|t e A Ee T L]; rewrite L, ?calls_app, ?rets_app.
  - exists B. auto.
  - exists B. auto.
  - exists (t :: B). assert (NB : ~ In t B) by (rewrite J, I, A; discriminate).
    split; [constructor; assumption|split; [intro u; rewrite busy_snoc; split|cbn; lia]].
    + intros [->|U]; [rewrite N.eqb_refl; reflexivity|]. apply J in U. rewrite U. apply orb_true_r.
    + intro U. apply orb_true_iff in U. destruct U as [U|U]; [left; apply N.eqb_eq; exact U|right; apply J; exact U].
  - exists (remove N.eq_dec t B). assert (NB : In t B) by (rewrite J, I, A; reflexivity).
    split; [apply remove_nodup; assumption|split; [intro u; rewrite busy_snoc; split|cbn; rewrite (remove_length1 _ _ D NB) in K; lia]]; intro U.
    + apply in_remove in U. destruct U as [U NE]. apply J in U. rewrite U. assert (Z : (t =? u) = false) by (apply N.eqb_neq; congruence). rewrite Z. reflexivity.
    + apply andb_true_iff in U. destruct U as [U V]. apply in_in_remove; [|apply J; exact V]. apply negb_true_iff, N.eqb_neq in U. congruence.
  - assert (Ec : calls [e] = 0%nat /\ rets [e] = 1%nat /\ forall u l, busy u (l ++ [e]) = negb (t =? u) && busy u l).
    { destruct Ee as [->|[-> _]]; (split; [reflexivity|split; [reflexivity|intros; apply busy_snoc]]). }
    destruct Ec as (Ec & Er & Eb). exists (remove N.eq_dec t B). assert (NB : In t B) by (rewrite J, I, A; reflexivity).
    split; [apply remove_nodup; assumption|split; [intro u; rewrite Eb; split|rewrite Ec, Er; rewrite (remove_length1 _ _ D NB) in K; lia]]; intro U.
    + apply in_remove in U. destruct U as [U NE]. apply J in U. rewrite U. assert (Z : (t =? u) = false) by (apply N.eqb_neq; congruence). rewrite Z. reflexivity.
    + apply andb_true_iff in U. destruct U as [U V]. apply in_in_remove; [|apply J; exact V]. apply negb_true_iff, N.eqb_neq in U. congruence.
Qed.

Theorem C85_receiver_useless : forall ls s, run rstep (rinit false) (twoFirst ++ ls) = Some s -> ~ In (LCtx 2) ls -> busy 2 (rlog s) = true.
Proof.
  intros ls s R N. assert (C : cinv s) by (eapply run_inv; [exact cinv_step|apply (cinv_init false)|exact R]). rewrite (c_busy _ C).
  rewrite run_app in R. destruct (run rstep (rinit false) twoFirst) as [s0|] eqn:E; [|discriminate R].
  assert (S : stuck s0). { vm_compute in E. injection E as <-. unfold stuck. cbn. repeat split; auto. }
  destruct (stuck_run _ _ _ S R N) as (_ & _ & _ & _ & ->). reflexivity.
Qed.
Print Assumptions C85_receiver_useless.
(** ... with two messages arrived, of which one was returned *)
Theorem C85_receiver_useless_case : option_map (fun s => (narr s, fq s, gots (rlog s), busy 2 (rlog s))) (run rstep (rinit false) twoFirst) = Some (2, [1], [0], true).
Proof. vm_compute. reflexivity. Qed.
Print Assumptions C85_receiver_useless_case.

(** ** The messages *)
Lemma iota_snoc : forall n, iota (S n) = iota n ++ [N.of_nat n].
Proof. intro n. unfold iota. rewrite seq_S, map_app. reflexivity. Qed.
Lemma iota_length : forall n, length (iota n) = n.
Proof. intro n. unfold iota. rewrite map_length, seq_length. reflexivity. Qed.
Lemma skipn_snoc : forall (l : list N) k x, (k <= length l)%nat -> skipn k (l ++ [x]) = skipn k l ++ [x].
Proof. intros l k x H. rewrite skipn_app. replace (k - length l)%nat with 0%nat by lia. reflexivity. Qed.
Lemma skipn_seq : forall k a n, skipn k (seq a n) = seq (a + k) (n - k).
Proof.
  induction k as [|k IH]; intros a n; [cbn; rewrite Nat.add_0_r, Nat.sub_0_r; reflexivity|]. destruct n as [|n]; [reflexivity|]. cbn. rewrite IH. f_equal; lia.
Qed.
Lemma skipn_iota_cons : forall n k m r, skipn k (iota n) = m :: r -> m = N.of_nat k /\ r = skipn (S k) (iota n) /\ (k < n)%nat.
Proof.
  intros n k m r H. unfold iota in *. rewrite skipn_map, skipn_seq in *. cbn [Nat.add] in *.
  destruct (n - k)%nat as [|d] eqn:E; [discriminate H|]. cbn in H. injection H as <- <-. repeat split; [|lia]. f_equal. f_equal; lia.
Qed.

(** what is left for FrameCh when k messages have been taken; nothing once the connection is lost *)
Definition left (s : rst) (k : nat) : Prop := fq s = skipn k (iota (N.to_nat (narr s))) \/ glost s = true /\ ended s = true /\ fq s = [].
Definition hasOne (p : rpc) : bool := match p with RStore (Some _) => true | _ => false end.
Definition inCh (p : rpc) : bool := match p with RCh => true | _ => false end.

(** nobody has taken message 0; t has it and has not returned; k messages have been returned *)
Inductive phase (s : rst) : Prop :=
| PhA : gots (rlog s) = [] -> first s = false -> (forall t, hasOne (rthr s t) = false /\ inCh (rthr s t) = false) ->
        rch s = (if srv s then [] else if narr s =? 0 then [] else [0]) -> (srv s = true -> 0 < narr s) -> left s 1 -> phase s
| PhB t : gots (rlog s) = [] -> first s = false -> rthr s t = RStore (Some 0) -> (forall u, u <> t -> hasOne (rthr s u) = false) ->
        (forall t, inCh (rthr s t) = false) -> rch s = [] -> 0 < narr s -> left s 1 -> phase s
| PhC k : gots (rlog s) = iota k -> (1 <= k <= N.to_nat (narr s))%nat -> (forall t, hasOne (rthr s t) = false) -> rch s = [] ->
        (srv s = true -> first s = true) -> left s k -> phase s.

Lemma phase_init : forall b, phase (rinit b).
Proof. intro b. apply PhA; try reflexivity; [split; reflexivity|destruct b; reflexivity|cbn; intros ->; reflexivity|left; destruct b; reflexivity]. Qed.

(** a serveReceiver does not wait on a Response *)
Definition sinv (s : rst) : Prop := srv s = true -> forall t, match rthr s t with RWait | RStore None => False | _ => True end.
Definition okp (s : rst) (p : rpc) : Prop := srv s = true -> match p with RWait | RStore None => False | _ => True end.
Lemma sinv_step : forall s l s', sinv s -> rstep s l = Some s' -> sinv s'.
Proof.
  intros s l s' I H. unfold sinv in *.
  assert (M : forall t p, okp s p -> srv s' = srv s -> rthr s' = upd (rthr s) t p -> sinv s').
  { intros t p A B C S u. rewrite B in S. rewrite C. destruct (N.eq_dec u t) as [->|N]; [rewrite upd_eq; exact (A S)|rewrite upd_neq by assumption; apply (I S)]. }
  assert (W : forall t, srv s = true -> match rthr s t with RWait | RStore None => False | _ => True end) by (intros t S; exact (I S t)).
  destruct l; cbn [rstep] in H.
  - destruct (ended s); [discriminate H|]. destruct (narr s =? 0); injection H as <-; exact I.
  - destruct (ended s); [discriminate H|]. injection H as <-; exact I.
  - specialize (W t). destruct (rthr s t); try discriminate H. injection H as <-. apply (M t RLook); auto; intros _; exact Logic.I.
  - specialize (W t). destruct (rthr s t); try discriminate H. injection H as <-.
    apply (M t (if first s then RCh else if srv s then RStore (Some 0) else RWait)); auto. unfold okp. destruct (first s), (srv s); auto; intro X; discriminate X.
  - specialize (W t). destruct (rthr s t); try discriminate H. destruct (rch s); [destruct (rclosed s); [|discriminate H]|]; injection H as <-.
    + apply (M t (RStore None)); auto; intro S; destruct (W S).
    + apply (M t (RStore (Some n))); auto; intros _; exact Logic.I.
  - specialize (W t). destruct (rthr s t); try discriminate H; injection H as <-; [apply (M t (RStore None)); auto; intro S; destruct (W S)|apply (M t RIdle); auto; intros _; exact Logic.I].
  - destruct (rthr s t); try discriminate H; injection H as <-. apply (M t RIdle); auto; intros _; exact Logic.I.
  - destruct (rthr s t); try discriminate H. destruct (fq s); [destruct (ended s); [|discriminate H]|]; injection H as <-; apply (M t RIdle); auto; intros _; exact Logic.I.
Qed.

Definition oneAtFirst (s : rst) : Prop := gots (rlog s) = [] -> forall t u, rthr s t <> RIdle -> rthr s u <> RIdle -> t = u.

Ltac others t := match goal with |- context[upd _ t _ ?u] => destruct (N.eq_dec u t) as [->|?]; [rewrite upd_eq|rewrite upd_neq by assumption] end.

Lemma phase_step : forall s l s', phase s -> sinv s -> (srv s = true -> oneAtFirst s) -> rstep s l = Some s' -> phase s'.
Proof.
  intros s l s' I Q0 O H. destruct l; cbn [rstep] in H.
  - (* LArrive *) destruct (ended s) eqn:E; [discriminate H|]. destruct (narr s =? 0) eqn:Z.
    + apply N.eqb_eq in Z. destruct I as [G F T R V L|t G F T U C R V L|k G K T R V L]; try lia.
      injection H as <-. destruct (srv s) eqn:S; [specialize (V eq_refl); lia|]. apply PhA; cbn; auto; [congruence|].
      left. cbn. destruct L as [L|(_ & L & _)]; [|congruence]. rewrite L, Z. reflexivity.
    + apply N.eqb_neq in Z. injection H as <-.
      assert (LL : forall k, (k <= N.to_nat (narr s))%nat -> left s k -> left (mkR (srv s) (first s) (rch s) (rclosed s) (fq s ++ [narr s]) (narr s + 1) false (glost s) (rthr s) (rlog s)) k).
      { intros k K [L|(_ & L & _)]; [|congruence]. left. cbn. replace (N.to_nat (narr s + 1)) with (S (N.to_nat (narr s))) by lia. rewrite iota_snoc, skipn_snoc by (rewrite iota_length; lia). rewrite L, N2Nat.id. reflexivity. }
      destruct I as [G F T R V L|t G F T U C R V L|k G K T R V L].
      * apply PhA; cbn; auto; [|intros _; lia|apply LL; [lia|exact L]]. rewrite R. destruct (srv s); [reflexivity|]. assert (Z1 : (narr s =? 0) = false) by (apply N.eqb_neq; lia).
        assert (Z2 : (narr s + 1 =? 0) = false) by (apply N.eqb_neq; lia). rewrite Z1, Z2. reflexivity.
      * apply (PhB _ t); cbn; auto; [lia|apply LL; [lia|exact L]].
      * apply (PhC _ k); cbn; auto; [lia|apply LL; [lia|exact L]].
  - (* LEnd *) destruct (ended s) eqn:E; [discriminate H|]. injection H as <-.
    assert (LL : forall k b, left s k -> left (mkR (srv s) (first s) (rch s) b (if lost then [] else fq s) (narr s) true lost (rthr s) (rlog s)) k).
    { intros k b [L|(_ & L & _)]; [|congruence]. destruct lost; [right; auto|left; exact L]. }
    destruct I as [G F T R V L|t G F T U C R V L|k G K T R V L].
    * apply PhA; cbn; auto; try (intros; discriminate).
    * apply (PhB _ t); cbn; auto.
    * apply (PhC _ k); cbn; auto.
  - (* LCall *) destruct (rthr s t) eqn:P; try discriminate H. injection H as <-.
    destruct I as [G F T R V L|t0 G F T U C R V L|k G K T R V L].
    * apply PhA; cbn; rewrite ?gots_app, ?app_nil_r; auto. intro u. others t; auto.
    * apply (PhB _ t0); cbn; rewrite ?gots_app, ?app_nil_r; auto; [rewrite upd_neq; [assumption|congruence]|intros u N; others t; auto|intro u; others t; auto].
    * apply (PhC _ k); cbn; rewrite ?gots_app, ?app_nil_r; auto. intro u. others t; auto.
  - (* LLook *) destruct (rthr s t) eqn:P; try discriminate H. injection H as <-.
    destruct I as [G F T R V L|t0 G F T U C R V L|k G K T R V L].
    * rewrite F. destruct (srv s) eqn:S.
      -- apply (PhB _ t); cbn; auto; [rewrite upd_eq; reflexivity|intros u N; rewrite upd_neq by assumption; apply T|intro u; others t; [reflexivity|apply T]].
      -- apply PhA; cbn; rewrite ?S; auto. intro u; others t; auto.
    * rewrite F. destruct (srv s) eqn:S.
      -- exfalso. assert (t = t0) by (apply (O eq_refl G); [rewrite P|rewrite T]; discriminate). congruence.
      -- apply (PhB _ t0); cbn; auto; [rewrite upd_neq; [assumption|congruence]|intros u N; others t; auto|intro u; others t; auto].
    * apply (PhC _ k); cbn; auto. intro u. others t; auto. destruct (first s); [reflexivity|]. destruct (srv s); [specialize (V eq_refl); discriminate V|reflexivity].
  - (* LTake *) destruct (rthr s t) eqn:P; try discriminate H. destruct (rch s) as [|m r] eqn:Q.
    + destruct (rclosed s) eqn:RC; [|discriminate H]. injection H as <-. destruct I as [G F T R V L|t0 G F T U C R V L|k G K T R V L].
      * apply PhA; cbn; auto. intro u; others t; auto.
      * apply (PhB _ t0); cbn; auto; [rewrite upd_neq; [assumption|congruence]|intros u N; others t; auto|intro u; others t; auto].
      * apply (PhC _ k); cbn; auto. intro u. others t; auto.
    + destruct I as [G F T R V L|t0 G F T U C R V L|k G K T R V L]; rewrite Q in R; try discriminate R. injection H as <-.
      destruct (srv s) eqn:S; [discriminate R|]. destruct (narr s =? 0) eqn:Z; [discriminate R|]. injection R as -> ->. apply N.eqb_neq in Z.
      apply (PhB _ t); cbn; auto; [rewrite upd_eq; reflexivity|intros u N; rewrite upd_neq by assumption; apply T|intro u; others t; [reflexivity|apply T]|lia].
  - (* LCtx *) destruct (rthr s t) eqn:P; try discriminate H; injection H as <-; (destruct I as [G F T R V L|t0 G F T U C R V L|k G K T R V L];
      [apply PhA; cbn; rewrite ?gots_app, ?app_nil_r; auto; intro u; others t; auto
      |apply (PhB _ t0); cbn; rewrite ?gots_app, ?app_nil_r; auto; [rewrite upd_neq; [assumption|congruence]|intros u N; others t; auto|intro u; others t; auto]
      |apply (PhC _ k); cbn; rewrite ?gots_app, ?app_nil_r; auto; intro u; others t; auto]).
  - (* LStore *) destruct (rthr s t) eqn:P; try discriminate H; injection H as <-. destruct m as [m|].
    + destruct I as [G F T R V L|t0 G F T U C R V L|k G K T R V L].
      * specialize (T t). rewrite P in T. destruct T as [T _]. discriminate T.
      * assert (t = t0). { destruct (N.eq_dec t t0) as [X|X]; [exact X|]. specialize (U t X). rewrite P in U. discriminate U. } subst t0.
        assert (m = 0) by congruence. subst m.
        apply (PhC _ 1); cbn; rewrite ?gots_app, ?G; auto; [lia|]. intro u. others t; auto.
      * specialize (T t). rewrite P in T. discriminate T.
    + destruct I as [G F T R V L|t0 G F T U C R V L|k G K T R V L].
      * apply PhA; cbn; rewrite ?gots_app, ?app_nil_r; auto; intro u; others t; auto.
      * apply (PhB _ t0); cbn; rewrite ?gots_app, ?app_nil_r; auto; [rewrite upd_neq; [assumption|congruence]|intros u N; others t; auto|intro u; others t; auto].
      * apply (PhC _ k); cbn; rewrite ?gots_app, ?app_nil_r; auto; [intro u; others t; auto|]. intro S. specialize (Q0 S t). rewrite P in Q0. contradiction.
  - (* LRecv *) destruct (rthr s t) eqn:P; try discriminate H. destruct (fq s) as [|m r] eqn:Q.
    + destruct (ended s) eqn:E; [|discriminate H]. injection H as <-. destruct I as [G F T R V L|t0 G F T U C R V L|k G K T R V L].
      * specialize (T t). rewrite P in T. destruct T as [_ T]. discriminate T.
      * specialize (C t). rewrite P in C. discriminate C.
      * apply (PhC _ k); cbn; rewrite ?gots_app, ?app_nil_r; auto. intro u; others t; auto.
    + injection H as <-. destruct I as [G F T R V L|t0 G F T U C R V L|k G K T R V L].
      * specialize (T t). rewrite P in T. destruct T as [_ T]. discriminate T.
      * specialize (C t). rewrite P in C. discriminate C.
      * destruct L as [L|(_ & _ & L)]; [|congruence]. rewrite Q in L. symmetry in L. apply skipn_iota_cons in L. destruct L as (-> & -> & L).
        apply (PhC _ (S k)); cbn [gots rlog narr rthr rch srv first say go fq]; rewrite ?gots_app, ?G; auto; [rewrite iota_snoc; reflexivity|lia|intro u; others t; auto|left; reflexivity].
Qed.

(** the end of the stream and of the connection *)
Definition linv (s : rst) : Prop := (ended s = false -> glost s = false) /\ (glost s = true -> narr s = 0 -> rclosed s = true).
Lemma env_step : forall s l s', rstep s l = Some s' -> ended s = false \/ (narr s' = narr s /\ ended s' = ended s /\ glost s' = glost s /\ rclosed s' = rclosed s).
Proof.
  intros s l s' H. destruct l; cbn [rstep] in H.
  - destruct (ended s); [discriminate H|auto].
  - destruct (ended s); [discriminate H|auto].
  - destruct (rthr s t); try discriminate H. injection H as <-. auto.
  - destruct (rthr s t); try discriminate H. injection H as <-. auto.
  - destruct (rthr s t); try discriminate H. destruct (rch s); [destruct (rclosed s) eqn:C; [|discriminate H]|]; injection H as <-; cbn; auto.
  - destruct (rthr s t); try discriminate H; injection H as <-; auto.
  - destruct (rthr s t); try discriminate H; injection H as <-; auto.
  - destruct (rthr s t); try discriminate H. destruct (fq s); [destruct (ended s) eqn:C; [|discriminate H]|]; injection H as <-; cbn; auto.
Qed.
Lemma linv_step : forall s l s', linv s -> rstep s l = Some s' -> linv s'.
Proof.
  intros s l s' [A B] H. destruct (env_step _ _ _ H) as [E|(N & E & G & C)]; [|split; rewrite ?N, ?E, ?G, ?C; assumption].
  specialize (A E). destruct l; cbn [rstep] in H; rewrite ?E in H.
  - destruct (narr s =? 0); injection H as <-; split; cbn; congruence.
  - injection H as <-. split; cbn; [intro X; discriminate X|]. intros -> ->. reflexivity.
  - destruct (rthr s t); try discriminate H. injection H as <-. split; cbn; congruence.
  - destruct (rthr s t); try discriminate H. injection H as <-. split; cbn; congruence.
  - destruct (rthr s t); try discriminate H. destruct (rch s); [destruct (rclosed s) eqn:C; [|discriminate H]|]; injection H as <-; split; cbn; congruence.
  - destruct (rthr s t); try discriminate H; injection H as <-; split; cbn; congruence.
  - destruct (rthr s t); try discriminate H; injection H as <-; split; cbn; congruence.
  - destruct (rthr s t); try discriminate H. destruct (fq s); [discriminate H|]; injection H as <-; split; cbn; congruence.
Qed.
Lemma snoc_case : forall (l l1 l2 : list revt) x e, l ++ [x] = l1 ++ e :: l2 -> (l1 = l /\ e = x /\ l2 = []) \/ exists l2', l2 = l2' ++ [x] /\ l = l1 ++ e :: l2'.
Proof.
  intros l l1 l2 x e H. destruct l2 as [|y l2 _] using rev_ind.
  - apply app_inj_tail in H. left. intuition.
  - right. rewrite app_comm_cons, app_assoc in H. apply app_inj_tail in H. destruct H as [-> ->]. eauto.
Qed.
Lemma fin_step : forall s l s', phase s -> linv s -> finished_last s -> rstep s l = Some s' -> finished_last s'.
Proof.
  intros s l s' P [A B] F H l1 l2 t L G.
  assert (OLD : forall l2', rlog s = l1 ++ EFin t :: l2' -> ended s' = true /\ Permutation (gots l1) (iota (N.to_nat (narr s')))).
  { intros l2' L'. destruct (env_step _ _ _ H) as [E|(N & E & G' & C)].
    - destruct (F l1 l2' t L' (A E)) as [X _]. congruence.
    - rewrite N, E. apply (F l1 l2' t L'). congruence. }
  pose proof (step_effect _ _ _ H) as Ef. destruct Ef as [T Q|u p X Bp T Q|u p X Bp T Q|u m X T Q|u e X Ee T Q]; rewrite Q in L.
  - apply (OLD _ L).
  - apply (OLD _ L).
  - apply snoc_case in L. destruct L as [(_ & L & _)|(l2' & _ & L)]; [discriminate L|apply (OLD _ L)].
  - apply snoc_case in L. destruct L as [(_ & L & _)|(l2' & _ & L)]; [discriminate L|apply (OLD _ L)].
  - apply snoc_case in L. destruct L as [(-> & L & _)|(l2' & _ & L)]; [|apply (OLD _ L)]. destruct Ee as [->|(-> & E & R & Z)]; [discriminate L|].
    destruct (env_step _ _ _ H) as [E'|(N & E' & G' & C)]; [congruence|]. rewrite N, E'. split; [exact E|].
    destruct P as [_ f W Rc V Le|t0 _ f W U I Rc V Le|k Gk K W Rc V Le].
    + destruct (W u) as [_ W2]. rewrite R in W2. discriminate W2.
    + specialize (I u). rewrite R in I. discriminate I.
    + destruct Le as [Le|(Le & _)]; [|congruence]. rewrite Z in Le. apply (f_equal (@length BinNums.N)) in Le. rewrite skipn_length, iota_length in Le. cbn in Le.
      replace (N.to_nat (narr s)) with k by lia. rewrite Gk. reflexivity.
Qed.

(** ** The client's side, with any overlap *)
Lemma held_running : forall s t, cinv s -> rthr s t <> RIdle -> (1 <= running (rlog s))%nat.
Proof.
  intros s t [I (B & D & J & K)] N. unfold running. assert (X : In t B) by (apply J; rewrite I; destruct (rthr s t); try reflexivity; congruence).
  destruct B; [destruct X|]. cbn in K. lia.
Qed.
Lemma phase_once : forall s, phase s -> cinv s -> each_once s.
Proof.
  intros s I C. destruct I as [G F T R V L|t0 G F T U H R V L|k G K T R V L].
  - exists [], 0%nat. rewrite G. repeat split; [reflexivity|lia|cbn; lia].
  - exists [0], 1%nat. rewrite G. repeat split; [reflexivity|lia|]. apply (held_running s t0 C). rewrite T. discriminate.
  - exists [], k. rewrite G, app_nil_r. repeat split; [reflexivity|lia|cbn; lia].
Qed.

Lemma srv_const : forall s l s', rstep s l = Some s' -> srv s' = srv s.
Proof.
  intros s l s' H. destruct l; cbn [rstep] in H;
    repeat match type of H with context[match ?x with _ => _ end] => destruct x eqn:?; try discriminate H end; injection H as <-; cbn; congruence.
Qed.
Lemma sinv_init : forall b, sinv (rinit b).
Proof. intros b _ t. exact Logic.I. Qed.

Theorem C85_client_once_partial : forall ls s, run rstep (rinit false) ls = Some s -> each_once s /\ finished_last s.
Proof.
  intros ls s R. assert (X : phase s /\ sinv s /\ cinv s /\ srv s = false /\ linv s /\ finished_last s).
  { eapply (@run_inv _ _ rstep (fun s => phase s /\ sinv s /\ cinv s /\ srv s = false /\ linv s /\ finished_last s)); [| |exact R].
    - intros a l b (P & S & C & V & L & F) H. split; [|split; [|split; [|split; [|split]]]].
      + apply (phase_step a l b P S); [intro X; congruence|exact H].
      + apply (sinv_step a l b S H).
      + apply (cinv_step a l b C H).
      + rewrite (srv_const _ _ _ H). exact V.
      + apply (linv_step a l b L H).
      + apply (fin_step a l b P L F H).
    - split; [apply (phase_init false)|split; [apply sinv_init|split; [apply cinv_init|split; [reflexivity|split; [split; [reflexivity|intro X; discriminate X]|]]]]].
      intros l1 l2 t L. destruct l1; discriminate L. }
  destruct X as (P & _ & C & _ & _ & F). split; [apply phase_once; assumption|exact F].
Qed.
Print Assumptions C85_client_once_partial.

(** ** When nobody else calls Receive until one has returned the first message *)
Definition firstAlone (l : list revt) : Prop := forall l1 l2, l = l1 ++ l2 -> gots l1 = [] -> (running l1 <= 1)%nat.

Lemma firstAlone_pre : forall a b, firstAlone (a ++ b) -> firstAlone a.
Proof. intros a b H l1 l2 E. apply (H l1 (l2 ++ b)). rewrite E, app_assoc. reflexivity. Qed.

Lemma alone_one : forall s, cinv s -> firstAlone (rlog s) -> oneAtFirst s.
Proof.
  intros s [I (B & D & J & K)] A G t u T U. specialize (A (rlog s) []). rewrite app_nil_r in A. specialize (A eq_refl G). unfold running in A.
  assert (X : In t B) by (apply J; rewrite I; destruct (rthr s t); try reflexivity; congruence).
  assert (Y : In u B) by (apply J; rewrite I; destruct (rthr s u); try reflexivity; congruence).
  destruct B as [|a [|b B]]; [destruct X| |cbn in K; lia]. destruct X as [X|[]], Y as [Y|[]]. congruence.
Qed.

(** once a message was returned, nobody waits on the Response any more *)
Definition ready (s : rst) : Prop := gots (rlog s) <> [] -> first s = true /\ forall t, match rthr s t with RWait | RStore _ => False | _ => True end.

Lemma ready_step : forall s l s', phase s -> ready s -> oneAtFirst s -> rstep s l = Some s' -> ready s'.
Proof.
  intros s l s' PH I O H. unfold ready in *.
  assert (M : forall t p, first s' = first s -> rthr s' = upd (rthr s) t p -> gots (rlog s') = gots (rlog s) \/ first s = true /\ gots (rlog s) <> [] ->
              (first s = true -> match p with RWait | RStore _ => False | _ => True end) ->
              gots (rlog s') <> [] -> first s' = true /\ forall t, match rthr s' t with RWait | RStore _ => False | _ => True end).
  { intros t p A B C D N. assert (G : gots (rlog s) <> []) by (destruct C as [C|[_ C]]; [rewrite <- C; exact N|exact C]). destruct (I G) as [I1 I2].
    split; [congruence|]. intro u. rewrite B. destruct (N.eq_dec u t) as [->|NE]; [rewrite upd_eq; exact (D I1)|rewrite upd_neq by assumption; apply I2]. }
  assert (W : forall t, gots (rlog s) <> [] -> match rthr s t with RWait | RStore _ => False | _ => True end) by (intros t G; exact (proj2 (I G) t)).
  destruct l; cbn [rstep] in H.
  - destruct (ended s); [discriminate H|]. destruct (narr s =? 0); injection H as <-; exact I.
  - destruct (ended s); [discriminate H|]. injection H as <-; exact I.
  - destruct (rthr s t) eqn:P; try discriminate H. injection H as <-. apply (M t RLook); auto. left. cbn. rewrite gots_app, app_nil_r. reflexivity.
  - destruct (rthr s t) eqn:P; try discriminate H. injection H as <-.
    apply (M t (if first s then RCh else if srv s then RStore (Some 0) else RWait)); auto. intros ->. exact Logic.I.
  - specialize (W t). destruct (rthr s t) eqn:P; try discriminate H.
    destruct (rch s); [destruct (rclosed s); [|discriminate H]|]; injection H as <-; cbn; intro G; destruct (W G).
  - specialize (W t). destruct (rthr s t) eqn:P; try discriminate H; injection H as <-.
    + cbn; intro G; destruct (W G).
    + apply (M t RIdle); auto. left. cbn. rewrite gots_app, app_nil_r. reflexivity.
  - specialize (W t). destruct (rthr s t) eqn:P; try discriminate H; injection H as <-. cbn. rewrite gots_app. destruct m as [m|].
    + intros _. split; [reflexivity|]. intro u. destruct (gots (rlog s)) as [|g gs] eqn:G; [|exfalso; apply W; discriminate].
      destruct (N.eq_dec u t) as [->|NE]; [rewrite upd_eq; exact Logic.I|rewrite upd_neq by assumption]. destruct (rthr s u) eqn:Q; try exact Logic.I.
      * apply NE. apply (O G); rewrite ?Q, ?P; discriminate.
      * apply NE. apply (O G); rewrite ?Q, ?P; discriminate.
    + cbn. rewrite app_nil_r. intro G. destruct (W G).
  - destruct (rthr s t) eqn:P; try discriminate H. destruct (fq s); [destruct (ended s); [|discriminate H]|]; injection H as <-.
    + apply (M t RIdle); auto. left. cbn. rewrite gots_app, app_nil_r. reflexivity.
    + destruct (gots (rlog s)) as [|g gs] eqn:G.
      * exfalso. destruct PH as [_ F T R V L|t0 _ F T U C R V L|k G2 K T R V L].
        -- destruct (T t) as [_ X]. rewrite P in X. discriminate X.
        -- specialize (C t). rewrite P in C. discriminate C.
        -- rewrite G2 in G. apply (f_equal (@length N)) in G. rewrite iota_length in G. cbn in G. lia.
      * apply (M t RIdle); auto. right. split; [|congruence]. apply I. congruence.
Qed.

Lemma step_log : forall s l s', rstep s l = Some s' -> exists es, rlog s' = rlog s ++ es.
Proof.
  intros s l s' H. apply step_effect in H. destruct H as [T L|t p A Bp T L|t p A Bp T L|t m A T L|t e A Ee T L]; rewrite L; [exists []|exists []|eauto..]; rewrite app_nil_r; reflexivity.
Qed.

Record ainv (s : rst) : Prop := { a_phase : phase s; a_sinv : sinv s; a_cinv : cinv s; a_ready : ready s; a_one : oneAtFirst s; a_linv : linv s; a_fin : finished_last s }.
Lemma ainv_run : forall b ls s, run rstep (rinit b) ls = Some s -> firstAlone (rlog s) -> ainv s.
Proof.
  intros b ls s R. assert (X : cinv s /\ (firstAlone (rlog s) -> ainv s)); [|apply X].
  eapply (@run_inv _ _ rstep (fun s => cinv s /\ (firstAlone (rlog s) -> ainv s))); [| |exact R].
  - intros a l a' [C A] H. assert (C' : cinv a') by (apply (cinv_step a l a' C H)). split; [exact C'|]. intro F.
    destruct (step_log _ _ _ H) as [es E]. assert (F0 : firstAlone (rlog a)) by (apply (firstAlone_pre _ es); rewrite <- E; exact F).
    destruct (A F0) as [P S C0 Re O Li Fi]. split.
    + apply (phase_step a l a' P S); [intros _; exact O|exact H].
    + apply (sinv_step a l a' S H).
    + exact C'.
    + apply (ready_step a l a' P Re O H).
    + apply alone_one; assumption.
    + apply (linv_step a l a' Li H).
    + apply (fin_step a l a' P Li Fi H).
  - split; [apply cinv_init|]. intros _. split; [apply phase_init|apply sinv_init|apply cinv_init|intro G; exfalso; apply G; reflexivity| | |].
    + intros _ t u T. exfalso. apply T. reflexivity.
    + split; [reflexivity|intro X; discriminate X].
    + intros l1 l2 t L. destruct l1; discriminate L.
Qed.

(** t's way out *)
Lemma out_log : forall s t e, (e = EErr t \/ e = EFin t \/ exists m, e = EGot t m) -> busy t (rlog s ++ [e]) = false.
Proof. intros s t e [->|[->|[m ->]]]; rewrite busy_snoc, N.eqb_refl; reflexivity. Qed.
Lemma out_store : forall s t m, rthr s t = RStore m -> canReturn s t.
Proof.
  intros s t m P. exists [LStore t]. eexists. split; [repeat constructor|]. cbn [run rstep]. rewrite P. split; [reflexivity|]. cbn [rlog say go].
  apply out_log. destruct m; eauto.
Qed.
Lemma out_recv : forall s t, rthr s t = RCh -> fq s <> [] \/ ended s = true -> canReturn s t.
Proof.
  intros s t P H. exists [LRecv t]. destruct (fq s) as [|m r] eqn:Q.
  - destruct H as [H|H]; [congruence|]. eexists. split; [repeat constructor|]. cbn [run rstep]. rewrite P, Q, H. split; [reflexivity|]. cbn [rlog say go]. apply out_log. auto.
  - eexists. split; [repeat constructor|]. cbn [run rstep]. rewrite P, Q. split; [reflexivity|]. cbn [rlog say go]. apply out_log. eauto.
Qed.
Lemma out_step : forall s t l s', ownStep t l -> rstep s l = Some s' -> canReturn s' t -> canReturn s t.
Proof.
  intros s t l s' O H (ls & s2 & F & R & B). exists (l :: ls), s2. split; [constructor; assumption|]. split; [|exact B]. cbn [run]. rewrite H. exact R.
Qed.
Lemma out_wait : forall s t, rthr s t = RWait -> rch s <> [] \/ rclosed s = true -> canReturn s t.
Proof.
  intros s t P H. destruct (rch s) as [|m r] eqn:Q.
  - destruct H as [H|H]; [congruence|]. apply (out_step s t (LTake t) (go s t (RStore None))); [reflexivity|cbn [rstep]; rewrite P, Q, H; reflexivity|].
    apply (out_store _ t None). cbn. apply upd_eq.
  - eapply (out_step s t (LTake t)); [reflexivity|cbn [rstep]; rewrite P, Q; reflexivity|]. apply (out_store _ t (Some m)). cbn. apply upd_eq.
Qed.
Lemma out_look : forall s t, rthr s t = RLook ->
  (first s = true -> fq s <> [] \/ ended s = true) -> (first s = false -> srv s = false -> rch s <> [] \/ rclosed s = true) -> canReturn s t.
Proof.
  intros s t P A B. eapply (out_step s t (LLook t)); [reflexivity|cbn [rstep]; rewrite P; reflexivity|]. destruct (first s) eqn:F; [|destruct (srv s) eqn:S].
  - apply out_recv; [cbn; apply upd_eq|apply A; reflexivity].
  - apply (out_store _ t (Some 0)). cbn. apply upd_eq.
  - apply out_wait; [cbn; apply upd_eq|apply B; reflexivity].
Qed.

Theorem C85_first_alone_partial : forall b ls s, run rstep (rinit b) ls = Some s -> firstAlone (rlog s) -> each_once s /\ all_return s /\ finished_last s.
Proof.
  intros b ls s R F. destruct (ainv_run b ls s R F) as [P S C Re O Li Fi]. split; [apply phase_once; assumption|split; [|exact Fi]].
  intros t B. pose proof (c_busy _ C t) as BT. rewrite B in BT.
  assert (RUN : (1 <= running (rlog s))%nat) by (apply (held_running s t C); intro X; rewrite X in BT; discriminate BT).
  assert (X : (first s = true -> fq s <> [] \/ ended s = true) -> (first s = false -> srv s = false -> rch s <> [] \/ rclosed s = true \/ hasOne (rthr s t) = true) ->
              (inCh (rthr s t) = true -> first s = true) -> (rthr s t = RWait -> first s = false /\ srv s = false) -> canReturn s t).
  { intros A1 A2 A3 A4. destruct (rthr s t) eqn:Q; [discriminate BT| | | |].
    - apply out_look; [exact Q|exact A1|]. intros f v. destruct (A2 f v) as [Y|[Y|Y]]; [auto|auto|discriminate Y].
    - destruct (A4 eq_refl) as [f v]. apply out_wait; [exact Q|]. destruct (A2 f v) as [Y|[Y|Y]]; [auto|auto|discriminate Y].
    - apply (out_store _ _ m Q).
    - apply out_recv; [exact Q|]. apply A1, A3. reflexivity. }
  assert (W : rthr s t = RWait -> srv s = false).
  { intro Q. destruct (srv s) eqn:V; [|reflexivity]. specialize (S V t). rewrite Q in S. contradiction. }
  destruct P as [G f T Rc V L|t0 G f T U H Rc V L|k G K T Rc V L].
  - assert (Z : 0 < narr s -> srv s = false -> rch s <> []).
    { intros Z v. rewrite Rc, v. replace (narr s =? 0) with false by (symmetry; apply N.eqb_neq; lia). discriminate. }
    split; intros E M; (apply X; [congruence| |intro Y; destruct (T t) as [_ T2]; congruence|auto]); intros _ v.
    + left. apply Z; [|exact v]. rewrite G in M. cbn in M. lia.
    + destruct M as [M|M]; [auto|]. destruct (N.eq_dec (narr s) 0) as [Z0|Z0]; [right; left; apply (proj2 Li M Z0)|left; apply Z; [lia|exact v]].
  - assert (t0 = t) by (apply (O G); [rewrite T; discriminate|intro Y; rewrite Y in BT; discriminate BT]). subst t0. split; intros _ _; apply (out_store _ _ _ T).
  - assert (GN : gots (rlog s) <> []) by (intro Y; rewrite G in Y; apply (f_equal (@length N)) in Y; rewrite iota_length in Y; cbn in Y; lia).
    destruct (Re GN) as [f W2].
    assert (WW : rthr s t = RWait -> first s = false /\ srv s = false) by (intro Q; specialize (W2 t); rewrite Q in W2; contradiction).
    split; intros E M; apply X; auto; try congruence; intros _.
    left. destruct L as [L|(_ & L & _)]; [|congruence]. rewrite G, iota_length in M. intro Y. rewrite L in Y. apply (f_equal (@length N)) in Y. rewrite skipn_length, iota_length in Y. cbn in Y. lia.
Qed.
Print Assumptions C85_first_alone_partial.

(** The hypotheses are met: a first Receive alone, then three at once, of which one gives up, on both sides *)
Example C85_case :
  let l := [LCall 0; LLook 0; LArrive; LTake 0; LStore 0; LCall 1; LCall 2; LCall 3; LLook 2; LLook 1; LLook 3; LArrive; LArrive; LRecv 2; LCtx 3; LRecv 1] in
  option_map (fun s => (gots (rlog s), running (rlog s), narr s)) (run rstep (rinit false) l) = Some ([0; 1; 2], 0%nat, 3) /\
  match run rstep (rinit false) l with Some s => firstAlone (rlog s) | None => False end /\
  option_map (fun s => (gots (rlog s), running (rlog s))) (run rstep (rinit true) [LCall 0; LLook 0; LStore 0; LCall 1; LCall 2; LLook 2; LLook 1; LArrive; LRecv 2]) = Some ([0; 1], 1%nat).
Proof.
  split; [vm_compute; reflexivity|split; [|vm_compute; reflexivity]]. vm_compute. intros l1 l2 E G.
  do 12 (destruct l1 as [|? l1]; [vm_compute; repeat constructor|cbn in E; injection E as <- E; try discriminate G]).
Qed.
