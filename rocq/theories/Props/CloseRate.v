(** C87: MaxCloseRate. *)
From Verif Require Import Model.GoBase Model.Machine Model.CloseRate.
Open Scope N_scope.

(** connections with closed sockets *)
Definition shutAll (s : cst) (l : list N) : Prop := NoDup l /\ forall k, In k l -> shut s k = true.
(** connections whose serve, with its last Close, is over *)
Definition endedAll (s : cst) (l : list N) : Prop := NoDup l /\ forall k, In k l -> ended s k = true.

(** In the time [now] no more sockets are closed than the limiter has turns for ... *)
Definition C87_statement : Prop := forall b ls s l, run cstep (cinit b) ls = Some s -> shutAll s l -> (length l <= b + now s)%nat.
(** ... and a connection that ends takes one of them *)
Definition C87_one_turn_statement : Prop := forall b ls s l, run cstep (cinit b) ls = Some s -> NoDup l -> (forall k r, In (k, r) (turns s) -> In k l) -> (length (turns s) <= length l)%nat.

(** bindID closes the sockets of the connections it kicks without a turn *)
Definition kickTwo : list clabel := [LStart 0 0 Kick; LUntrack 0; LDone 0; LSock 0; LStart 0 1 Kick; LUntrack 0; LDone 0; LSock 0].
Lemma kickTwo_run : match run cstep (cinit 1) kickTwo with Some s => shut s 0 = true /\ shut s 1 = true /\ now s = 0%nat | None => False end.
Proof. vm_compute. auto. Qed.

Theorem C87_refuted : ~ C87_statement.
Proof.
  intro H. pose proof kickTwo_run as K. destruct (run cstep (cinit 1) kickTwo) as [s|] eqn:R; [|contradiction]. destruct K as (A & B & C).
  specialize (H 1%nat kickTwo s [0; 1] R). rewrite C in H. cbn [length] in H. assert (2 <= 1 + 0)%nat; [|lia]. apply H. split.
  - constructor; [intros [X|[]]; discriminate X|constructor; [intros []|constructor]].
  - intros k [<-|[<-|[]]]; assumption.
Qed.
Print Assumptions C87_refuted.

(** One connection whose peer goes away: readFrames closes it, then serve closes it again; the second Close waits for the next turn *)
Definition oneEnd : list clabel := [LStart 0 0 Reader; LTake 0; LUntrack 0; LDone 0; LSock 0; LStart 1 0 Server; LTick; LTake 1; LUntrack 1; LCh 1; LSock 1].
Lemma oneEnd_run : match run cstep (cinit 1) oneEnd with Some s => turns s = [(0, Server); (0, Reader)] | None => False end.
Proof. vm_compute. auto. Qed.
Theorem C87_one_turn_refuted : ~ C87_one_turn_statement.
Proof.
  intro H. pose proof oneEnd_run as K. destruct (run cstep (cinit 1) oneEnd) as [s|] eqn:R; [|contradiction].
  specialize (H 1%nat oneEnd s [0] R). rewrite K in H. cbn [length] in H. assert (2 <= 1)%nat; [|lia]. apply H.
  - constructor; [intros []|constructor].
  - intros k r [X|[X|[]]]; injection X as <- <-; left; reflexivity.
Qed.
Print Assumptions C87_one_turn_refuted.

(** a goroutine that has passed the limiter, or went round it *)
Definition past (s : cst) (k : N) (r : role) : Prop := match r with Kick => In k (kicks s) | _ => In (k, r) (turns s) end.
Definition after (q : cpc) (k : N) (r : role) : Prop := q = TUn k r \/ q = TCb k r \/ q = TWait k r \/ q = TSock k r.

Record cinv (s : cst) : Prop := {
  i_cnt : (length (turns s) + saved s <= burst s + now s)%nat;
  i_sav : (saved s <= burst s)%nat;
  i_nk : forall t k, thr s t <> TTake k Kick;
  i_past : forall t k r, after (thr s t) k r -> past s k r;
  i_shut : forall k, shut s k = true -> exists r, past s k r;
  i_end : forall k, ended s k = true -> In (k, Server) (turns s);
  i_rdr : forall k, rdrEnd s k = true -> In (k, Reader) (turns s) \/ exists t, thr s t = TTake k Reader }.

Lemma cinv_init : forall b, cinv (cinit b).
Proof. intro b. split; cbn; try discriminate; try lia. intros t k r [H|[H|[H|H]]]; discriminate H. Qed.

Lemma past_more : forall s s' k r, incl (turns s) (turns s') -> incl (kicks s) (kicks s') -> past s k r -> past s' k r.
Proof. intros s s' k r A B. destruct r; cbn; auto. Qed.

(** a goroutine that goes on *)
Lemma cinv_go : forall s s' t q, cinv s -> thr s' = upd (thr s) t q -> incl (turns s) (turns s') -> incl (kicks s) (kicks s') ->
  (forall k, q <> TTake k Kick) -> (forall k r, after q k r -> past s' k r) -> (forall k, thr s t <> TTake k Reader \/ In (k, Reader) (turns s')) ->
  (length (turns s') + saved s' <= burst s' + now s')%nat -> (saved s' <= burst s')%nat ->
  (forall k, shut s' k = true -> shut s k = true \/ exists r, past s' k r) ->
  (forall k, ended s' k = true -> ended s k = true \/ In (k, Server) (turns s')) ->
  (forall k, rdrEnd s' k = true -> rdrEnd s k = true \/ q = TTake k Reader) -> cinv s'.
Proof.
  intros s s' t q [I1 I2 I7 I3 I4 I5 I6] T TU KI NK AF NR C1 C2 SH EN RD. split; auto.
  - intros u k. rewrite T. destruct (N.eq_dec u t) as [->|N]; [rewrite upd_eq; auto|rewrite upd_neq by assumption; auto].
  - intros u k r A. rewrite T in A. destruct (N.eq_dec u t) as [->|N]; [rewrite upd_eq in A; auto|rewrite upd_neq in A by assumption].
    apply (past_more s); auto. apply (I3 u), A.
  - intros k A. destruct (SH k A) as [B|B]; [|exact B]. destruct (I4 k B) as [r P]. exists r. apply (past_more s); auto.
  - intros k A. destruct (EN k A) as [B|B]; [|exact B]. apply TU, I5, B.
  - intros k A. destruct (RD k A) as [B|B].
    + destruct (I6 k B) as [P|[u P]]; [left; auto|]. destruct (N.eq_dec u t) as [->|N].
      * destruct (NR k) as [X|X]; [contradiction|left; exact X].
      * right. exists u. rewrite T, upd_neq by assumption. exact P.
    + right. exists t. rewrite T, upd_eq. exact B.
Qed.

Ltac fin := cbn; auto using incl_refl; try (apply incl_tl, incl_refl); try (intros ? X; discriminate X); try (intros; left; congruence); try (intros ? ? [X|[X|[X|X]]]; discriminate X).

Lemma cinv_step : forall s l s', cinv s -> cstep s l = Some s' -> cinv s'.
Proof.
  intros s l s' I H. pose proof I as [I1 I2 I7 I3 I4 I5 I6]. destruct l as [|t k r|t|t|t|t|t]; cbn [cstep] in H.
  - injection H as <-. split; cbn; auto; lia.
  - destruct (thr s t) eqn:T; try discriminate H. destruct r.
    + destruct (rdrEnd s k) eqn:E; [discriminate H|injection H as <-]. eapply (cinv_go s _ t (TTake k Reader)); fin.
      * intros x A. destruct (N.eq_dec x k) as [->|N]; [right; reflexivity|left; rewrite upd_neq in A; assumption].
    + destruct (srvEnd s k) eqn:E; [discriminate H|injection H as <-]. eapply (cinv_go s _ t (TTake k Server)); fin.
    + injection H as <-. eapply (cinv_go s _ t (TTake k App)); fin.
    + injection H as <-. eapply (cinv_go s _ t (TUn k Kick)); fin.
      intros x r [X|[X|[X|X]]]; [injection X as <- <-; left; reflexivity|discriminate X..].
  - destruct (thr s t) as [|k r| | | |] eqn:T; try discriminate H. destruct (saved s) as [|n] eqn:SV; [discriminate H|injection H as <-].
    eapply (cinv_go s _ t (TUn k r)); fin; try lia.
    + intros x y [X|[X|[X|X]]]; [injection X as <- <-|discriminate X..]. destruct r; cbn; auto. destruct (I7 t k T).
    + intro x. destruct r; [|left; congruence..]. destruct (N.eq_dec x k) as [->|N]; [right; auto|left; congruence].
  - destruct (thr s t) as [| |k r| | |] eqn:T; try discriminate H.
    assert (P : past s k r) by (apply (I3 t); rewrite T; left; reflexivity).
    destruct (untr s k) eqn:U; injection H as <-; [eapply (cinv_go s _ t (TWait k r))|eapply (cinv_go s _ t (TCb k r))]; fin;
      intros x y [X|[X|[X|X]]]; try discriminate X; injection X as <- <-; exact P.
  - destruct (thr s t) as [| | |k r| |] eqn:T; try discriminate H.
    assert (P : past s k r) by (apply (I3 t); rewrite T; right; left; reflexivity).
    injection H as <-; eapply (cinv_go s _ t (TSock k r)); fin. intros x y [X|[X|[X|X]]]; try discriminate X; injection X as <- <-; exact P.
  - destruct (thr s t) as [| | | |k r|] eqn:T; try discriminate H. destruct (chClosed s k) eqn:C; [|discriminate H].
    assert (P : past s k r) by (apply (I3 t); rewrite T; right; right; left; reflexivity).
    injection H as <-; eapply (cinv_go s _ t (TSock k r)); fin. intros x y [X|[X|[X|X]]]; try discriminate X; injection X as <- <-; exact P.
  - destruct (thr s t) as [| | | | |k r] eqn:T; try discriminate H.
    assert (P : past s k r) by (apply (I3 t); rewrite T; right; right; right; reflexivity).
    injection H as <-; eapply (cinv_go s _ t TIdle); fin.
    + intros x A. destruct (N.eq_dec x k) as [->|N]; [right; exists r; exact P|left; rewrite upd_neq in A; assumption].
    + intros x A. destruct r; [left; exact A| |left; exact A..]. destruct (N.eq_dec x k) as [->|N]; [right; exact P|left; rewrite upd_neq in A; assumption].
Qed.

Lemma cinv_run : forall b ls s, run cstep (cinit b) ls = Some s -> cinv s.
Proof. intros b ls s R. eapply (@run_inv _ _ cstep cinv); [apply cinv_step|apply cinv_init|exact R]. Qed.

Lemma burst_run : forall b ls s, run cstep (cinit b) ls = Some s -> burst s = b.
Proof.
  intros b ls s R. eapply (@run_inv _ _ cstep (fun s => burst s = b)); [| |exact R]; [clear|reflexivity]. intros s l s' <- H.
  destruct l; cbn [cstep] in H; repeat match type of H with context[match ?x with _ => _ end] => destruct x eqn:?; try discriminate H end; injection H as <-; reflexivity.
Qed.

(** Kicks aside, the sockets that are closed keep to the rate *)
Theorem C87_rate_partial : forall b ls s l, run cstep (cinit b) ls = Some s -> shutAll s l -> (length l <= b + now s + length (kicks s))%nat.
Proof.
  intros b ls s l R [D A]. pose proof (cinv_run _ _ _ R) as I. pose proof (burst_run _ _ _ R) as B. pose proof (i_cnt _ I) as C. rewrite B in C.
  assert (L : (length l <= length (map fst (turns s) ++ kicks s))%nat).
  { apply NoDup_incl_length; [exact D|]. intros k K. apply A in K. destruct (i_shut _ I k K) as [r P]. apply in_or_app.
    destruct r; cbn in P; [left; apply (in_map fst) in P; exact P..|right; exact P]. }
  rewrite app_length, map_length in L. lia.
Qed.
Print Assumptions C87_rate_partial.

(** ... and so do the ends of connections, kicked or not: serve is over, and OnClose runs, after a turn of its own *)
Theorem C87_ends_partial : forall b ls s l, run cstep (cinit b) ls = Some s -> endedAll s l -> (length l <= b + now s)%nat.
Proof.
  intros b ls s l R [D A]. pose proof (cinv_run _ _ _ R) as I. pose proof (burst_run _ _ _ R) as B. pose proof (i_cnt _ I) as C. rewrite B in C.
  assert (L : (length l <= length (map fst (turns s)))%nat).
  { apply NoDup_incl_length; [exact D|]. intros k K. apply A in K. apply (i_end _ I) in K. apply (in_map fst) in K. exact K. }
  rewrite map_length in L. lia.
Qed.
Print Assumptions C87_ends_partial.

(** Connections that end by a read error have two turns each: they end at half the rate *)
Theorem C87_half_rate_partial : forall b ls s l, run cstep (cinit b) ls = Some s -> endedAll s l ->
  (forall k, In k l -> rdrEnd s k = true /\ forall t, thr s t <> TTake k Reader) -> (2 * length l <= b + now s)%nat.
Proof.
  intros b ls s l R [D A] E. pose proof (cinv_run _ _ _ R) as I. pose proof (burst_run _ _ _ R) as B. pose proof (i_cnt _ I) as C. rewrite B in C.
  assert (L : (length (map (fun k => (k, Reader)) l ++ map (fun k => (k, Server)) l) <= length (turns s))%nat).
  { assert (INJ : forall r : role, NoDup (map (fun k : N => (k, r)) l)).
    { intro r. clear - D. induction D as [|k l N D IH]; cbn; constructor; [|exact IH]. intro X. apply in_map_iff in X. destruct X as (x & X & Y). injection X as ->. contradiction. }
    apply NoDup_incl_length.
    - assert (DIS : forall x, In x (map (fun k => (k, Reader)) l) -> ~ In x (map (fun k => (k, Server)) l)).
      { intros x X Y. apply in_map_iff in X, Y. destruct X as (u & <- & _), Y as (v & Y & _). discriminate Y. }
      pose proof (INJ Reader) as D1. induction D1 as [|x m N D1 IH]; cbn; [apply INJ|]. constructor.
      + intro X. apply in_app_or in X. destruct X as [X|X]; [contradiction|]. apply (DIS x); [left; reflexivity|exact X].
      + apply IH. intros y Y. apply DIS. right. exact Y.
    - intros x X. apply in_app_or in X. destruct X as [X|X]; apply in_map_iff in X; destruct X as (k & <- & K).
      + destruct (E k K) as [E1 E2]. destruct (i_rdr _ I k E1) as [P|[t P]]; [exact P|destruct (E2 t P)].
      + apply (i_end _ I), A, K. }
  rewrite app_length, !map_length in L. lia.
Qed.
Print Assumptions C87_half_rate_partial.

(** In every period the limiter gives at most the burst and one turn for each step of the time ... *)
Lemma period : forall ls s s', cinv s -> run cstep s ls = Some s' -> (length (turns s') + saved s' + now s <= length (turns s) + saved s + now s')%nat.
Proof.
  induction ls as [|l ls IH]; intros s s' I R; cbn [run] in R; [injection R as <-; lia|]. destruct (cstep s l) as [s1|] eqn:H; [|discriminate R].
  pose proof (IH _ _ (cinv_step _ _ _ I H) R) as K. clear IH R. enough (length (turns s1) + saved s1 + now s <= length (turns s) + saved s + now s1)%nat by lia. clear K.
  destruct l; cbn [cstep] in H; repeat match type of H with context[match ?x with _ => _ end] => destruct x eqn:?; try discriminate H end; injection H as <-; cbn; lia.
Qed.
Theorem C87_period_partial : forall b ls1 s ls2 s', run cstep (cinit b) ls1 = Some s -> run cstep s ls2 = Some s' ->
  (length (turns s') <= length (turns s) + b + (now s' - now s))%nat.
Proof.
  intros b ls1 s ls2 s' R1 R2. pose proof (cinv_run _ _ _ R1) as I. pose proof (period _ _ _ I R2). pose proof (i_sav _ I). rewrite (burst_run _ _ _ R1) in *. lia.
Qed.
Print Assumptions C87_period_partial.

(** ... and a goroutine that waits for its turn can have one after one step of the time *)
Theorem C87_turn_comes : forall b ls s t k r, (0 < b)%nat -> run cstep (cinit b) ls = Some s -> thr s t = TTake k r ->
  exists s', run cstep s [LTick; LTake t] = Some s' /\ thr s' t = TUn k r.
Proof.
  intros b ls s t k r B R T. pose proof (burst_run _ _ _ R) as E. cbn [run cstep thr saved]. rewrite T, E. destruct (Nat.min b (saved s + 1)) as [|n] eqn:M; [lia|].
  eexists. split; [reflexivity|]. cbn. apply upd_eq.
Qed.
Print Assumptions C87_turn_comes.

(** The hypotheses are met: two connections end by read errors, burst 2; the fourth turn comes at time 2 *)
Example C87_case :
  option_map (fun s => (ended s 0, ended s 1, now s, length (turns s), length (kicks s))) (run cstep (cinit 2)
    [LStart 0 0 Reader; LStart 1 1 Reader; LTake 0; LTake 1; LUntrack 0; LUntrack 1; LDone 1; LSock 1; LDone 0; LSock 0;
     LStart 0 0 Server; LStart 1 1 Server; LTick; LTake 1; LUntrack 1; LCh 1; LSock 1; LTick; LTake 0; LUntrack 0; LCh 0; LSock 0]) = Some (true, true, 2%nat, 4%nat, 0%nat).
Proof. vm_compute. reflexivity. Qed.
