(** C71: what the metrics of a server connection say. *)
From Coq Require Import ZifyBool ZifyNat.
From Verif Require Import Model.GoBase Model.Machine Model.Serve Model.Metrics Props.Serve.
Open Scope nat_scope.

(** ** Specification: reading a schedule *)
(** the commands of the requests read, in order *)
Fixpoint cmdsRead (ls : list mlabel) : list N :=
  match ls with [] => [] | MRead _ c :: ls => c :: cmdsRead ls | _ :: ls => cmdsRead ls end.
(** the handlers that ended: which request, and the panic value if it panicked *)
Fixpoint ends (ls : list mlabel) : list (nat * option N) :=
  match ls with [] => [] | MBlkEnd n e :: ls | MEnd n e :: ls => (n, e) :: ends ls | _ :: ls => ends ls end.
(** the time that passed *)
Fixpoint ticks (ls : list mlabel) : N :=
  match ls with [] => 0 | MTick d :: ls => (d + ticks ls)%N | _ :: ls => ticks ls end.
(** the labels under which the end of a handler is to be counted *)
Definition labelOf (cmds : list N) (x : nat * option N) : mlabels :=
  (MCmd (nth (fst x) cmds 0%N), match snd x with None => MNil | Some v => MPanic v end).
Definition countOf (lab : mlabels) (l : list mlabels) : nat := length (filter (fun x => mlabels_eqb x lab) l).

Definition inHandler (m : mst) (n : nat) : Prop := In n (running (sc m)) \/ sv (sc m) = SBlk n.
(** a blocking handler ended and its deferred function has not run *)
Definition deferPending (m : mst) : Prop := exists n, sv (sc m) = SDefer n.

(** *** Lemmas *)
Lemma cmdsRead_app : forall a b, cmdsRead (a ++ b) = cmdsRead a ++ cmdsRead b.
Proof. induction a as [|x a IH]; intro b; [reflexivity|]. destruct x; cbn; rewrite ?IH; reflexivity. Qed.
Lemma ends_app : forall a b, ends (a ++ b) = ends a ++ ends b.
Proof. induction a as [|x a IH]; intro b; [reflexivity|]. destruct x; cbn; rewrite ?IH; reflexivity. Qed.
Lemma ticks_app : forall a b, ticks (a ++ b) = (ticks a + ticks b)%N.
Proof. induction a as [|x a IH]; intro b; [reflexivity|]. destruct x; cbn; rewrite ?IH; lia. Qed.
Lemma countOf_app : forall lab a b, countOf lab (a ++ b) = countOf lab a + countOf lab b.
Proof. intros. unfold countOf. rewrite filter_app, app_length. reflexivity. Qed.
Lemma mlabels_eqb_eq : forall a b, mlabels_eqb a b = true <-> a = b.
Proof.
  intros [a e] [b g]. unfold mlabels_eqb. cbn. rewrite andb_true_iff. split.
  - intros [A B]. f_equal.
    + destruct a, b; cbn in A; try discriminate; try reflexivity. apply N.eqb_eq in A. congruence.
    + destruct e, g; cbn in B; try discriminate; try reflexivity; apply N.eqb_eq in B; congruence.
  - intro H. inversion H; subst. split.
    + destruct b; cbn; [apply N.eqb_refl|reflexivity].
    + destruct g; cbn; try reflexivity; apply N.eqb_refl.
Qed.

(** number of ends of request n in the log of the serve loop *)
Definition finCnt (e : list hev) (n : nat) : nat :=
  length (filter (fun x => match x with EFinish k => k =? n | _ => false end) e).
Arguments finCnt : simpl never.
Lemma finCnt_snoc : forall e x n, finCnt (e ++ [x]) n = finCnt e n + match x with EFinish k => if k =? n then 1 else 0 | _ => 0 end.
Proof. intros. unfold finCnt. rewrite filter_app, app_length. cbn. destruct x as [k|k]; [|destruct (k =? n)]; reflexivity. Qed.
Definition blkCnt (p : svpc) (n : nat) : nat := match p with SBlk k => if k =? n then 1 else 0 | _ => 0 end.

(** What the actions of the serve loop do to the log, to the running handlers and to serve. *)
Definition sameSv (s s' : sst) : Prop := sv s' = sv s \/ (blkOf (sv s) = None /\ blkOf (sv s') = None).
Lemma sstep_kinds : forall K lim s l s', sstep K lim s l = Some s' ->
  match l with
  | SLBlkRet => exists n, sv s = SBlk n /\ sv s' = SDefer n /\ evs s' = evs s ++ [EFinish n] /\ running s' = running s
  | SLDefer => exists n, sv s = SDefer n /\ sv s' = SDone /\ evs s' = evs s /\ running s' = running s
  | SLStart n => evs s' = evs s ++ [EStart n] /\ sv s' = sv s /\ running s' = running s ++ [n]
  | SLFinish n => evs s' = evs s ++ [EFinish n] /\ sv s' = sv s /\ running s' = rmv n (running s) /\ mem n (running s) = true
  | SLHand | SLRecv => running s' = running s /\
      ((exists n, sv s = SLoop /\ sv s' = SBlk n /\ evs s' = evs s ++ [EStart n]) \/ (evs s' = evs s /\ sameSv s s'))
  | _ => evs s' = evs s /\ running s' = running s /\ sameSv s s'
  end.
Proof.
  intros K lim s l s' H. destruct l; cbn in H.
  all: repeat match goal with
       | H : match ?x with _ => _ end = Some _ |- _ => destruct x eqn:?; try discriminate H
       end; inversion H; subst; clear H; cbn; unfold sameSv; cbn; auto.
  all: try (eexists; repeat split; eassumption || reflexivity).
  all: unfold dispatch; cbn; repeat match goal with |- context [match ?x with _ => _ end] => destruct x eqn:? end; cbn; auto.
  all: try (split; [reflexivity|]; try (left; eexists; repeat split; eassumption || reflexivity)).
  all: try (right; split; [reflexivity|right; rewrite ?Heqs0, ?Heqs1; cbn; auto]).
  all: repeat match goal with H : sv ?x = _ |- context [sv ?x] => rewrite H end; auto.
Qed.

Lemma sstep_narr : forall K lim s l s', sstep K lim s l = Some s' ->
  narr s' = (match l with SLRead _ => S (narr s) | _ => narr s end) /\
  (match l with SLReadErr | SLRdDone => rd s <> RExit /\ rd s' = RExit | _ => rd s' = RExit <-> rd s = RExit end).
Proof.
  intros K lim s l s' H. destruct l; cbn in H.
  all: repeat match goal with
       | H : match ?x with _ => _ end = Some _ |- _ => destruct x eqn:?; try discriminate H
       end; inversion H; subst; clear H; cbn.
  all: try (split; [reflexivity|]; try (split; congruence); try (split; intro; congruence); try tauto).
  all: try (unfold dispatch; cbn; repeat match goal with |- context [match ?x with _ => _ end] => destruct x eqn:? end; cbn).
  all: try (split; [reflexivity|]; split; intro; try congruence).
  all: try match goal with X : afterSend ?b = RExit |- _ => destruct b; discriminate X end.
  all: try (match goal with |- afterSend ?b = RExit <-> _ => destruct b end; split; discriminate).
Qed.

(** Started handlers are running, or have ended once. *)
Definition balance (s : sst) : Prop := forall n, startCnt (evs s) n = finCnt (evs s) n + cnt (running s) n + blkCnt (sv s) n.
Lemma blkCnt_same : forall s s' n, sameSv s s' -> blkCnt (sv s') n = blkCnt (sv s) n.
Proof. intros s s' n [->|[A B]]; [reflexivity|]. destruct (sv s), (sv s'); cbn in *; try discriminate; reflexivity. Qed.
Lemma balance_step : forall K lim s l s', sinv lim s -> balance s -> sstep K lim s l = Some s' -> balance s'.
Proof.
  intros K lim s l s' HI HB H n. specialize (HB n). assert (X := sstep_kinds _ _ _ _ _ H).
  destruct l.
  all: try (destruct X as (E & R & Y); rewrite E, R, (blkCnt_same s s' n Y); assumption).
  - destruct X as (R & [(k & A & B & C)|(E & Y)]).
    + rewrite R, B, C, startCnt_snoc, finCnt_snoc. rewrite A in HB. cbn in *. lia.
    + rewrite R, E, (blkCnt_same s s' n Y). assumption.
  - destruct X as (R & [(k & A & B & C)|(E & Y)]).
    + rewrite R, B, C, startCnt_snoc, finCnt_snoc. rewrite A in HB. cbn in *. lia.
    + rewrite R, E, (blkCnt_same s s' n Y). assumption.
  - destruct X as (k & A & B & C & D). rewrite B, C, D, startCnt_snoc, finCnt_snoc. rewrite A in HB. cbn in *. lia.
  - destruct X as (k & A & B & C & D). rewrite B, C, D. rewrite A in HB. cbn in *. lia.
  - destruct X as (A & B & C). rewrite A, B, C, startCnt_snoc, finCnt_snoc, cnt_snoc. lia.
  - destruct X as (A & B & C & D). rewrite A, B, C, startCnt_snoc, finCnt_snoc, cnt_rmv. apply cnt_mem in D.
    destruct HI as [SE CH SP RU TO RD CL SL FI OR LT FS CN CR LI BO]. specialize (CN n0). specialize (CR n0).
    destruct (Nat.eqb_spec n0 n) as [->|]; lia.
Qed.

Lemma finCnt_In : forall e n, 1 <= finCnt e n <-> In (EFinish n) e.
Proof.
  intros e n. unfold finCnt. induction e as [|x e IH]; cbn; [lia|]. destruct x as [k|k].
  - rewrite IH. split; [auto|intros [E|]; [congruence|assumption]].
  - destruct (Nat.eqb_spec k n) as [->|]; cbn; [split; [auto|lia]|]. rewrite IH. split; [auto|intros [E|]; [congruence|assumption]].
Qed.

(** The action of the serve loop behind an action of the model. *)
Definition under (l : mlabel) : option slabel :=
  match l with
  | MTick _ => None | MRead b _ => Some (SLRead b) | MReadErr _ => Some SLReadErr | MBlkEnd _ _ => Some SLBlkRet
  | MEnd n _ => Some (SLFinish n) | MDo l => Some l
  end.
Lemma mstep_under : forall K lim ov m l m', mstep K lim ov m l = Some m' ->
  match under l with Some sl => sstep K lim (sc m) sl = Some (sc m') | None => sc m' = sc m end /\
  clock m' = (clock m + match l with MTick d => d | _ => 0 end)%N.
Proof.
  intros K lim ov m l m' H. destruct l as [d|b c|e|n e|n e|l]; cbn [mstep under] in *.
  - inversion H; subst; cbn. auto.
  - destruct (sstep K lim (sc m) (SLRead b)) eqn:E; [|discriminate]. inversion H; subst; cbn [sc clock]. split; [reflexivity|lia].
  - destruct (sstep K lim (sc m) SLReadErr) eqn:E; [|discriminate]. inversion H; subst; cbn [sc clock]. split; [reflexivity|lia].
  - destruct (sv (sc m)); try discriminate. destruct (n =? n0); [|discriminate].
    destruct (sstep K lim (sc m) SLBlkRet) eqn:E; [|discriminate]. inversion H; subst; cbn [sc clock]. split; [reflexivity|lia].
  - destruct (sstep K lim (sc m) (SLFinish n)) eqn:E; [|discriminate]. inversion H; subst; cbn [sc clock]. split; [reflexivity|lia].
  - destruct l; try discriminate H.
    6: destruct (sv (sc m)); try discriminate H.
    all: match type of H with (match ?x with _ => _ end) = _ => destruct x eqn:E; [|discriminate H] end.
    all: inversion H; subst; cbn [sc clock]; split; [reflexivity|lia].
Qed.

(** The invariant, for a schedule [ls] that led to [m]. *)
Definition pendCnt (m : mst) (lab : mlabels) : nat :=
  match sv (sc m) with SDefer n => if mlabels_eqb (MCmd (cmdOf m n), errStr (blkErr m)) lab then 1 else 0 | _ => 0 end.
Definition startedAt (K : nat) (lim : option Z) (ov : bool) (m0 : mst) (ls : list mlabel) (n : nat) (t : N) : Prop :=
  exists l1 x l2 m1 m2, ls = l1 ++ x :: l2 /\ run (mstep K lim ov) m0 l1 = Some m1 /\ mstep K lim ov m1 x = Some m2 /\
    ~ In (EStart n) (evs (sc m1)) /\ In (EStart n) (evs (sc m2)) /\ t = ticks l1.

Record minv (K : nat) (lim : option Z) (ov : bool) (m0 : mst) (ls : list mlabel) (m : mst) : Prop := {
  i_s : sinv lim (sc m);
  i_b : balance (sc m);
  i_clock : clock m = ticks ls;
  i_n : length (cmdsRead ls) = narr (sc m);
  i_cmd : forall n, n < narr (sc m) -> cmdOf m n = nth n (cmdsRead ls) 0%N;
  i_ends : forall n, length (filter (fun x => fst x =? n) (ends ls)) = finCnt (evs (sc m)) n;
  i_pend : forall n, sv (sc m) = SDefer n -> In (n, blkErr m) (ends ls);
  i_cnt : forall f, counterM (mx m) = Some f -> forall c e,
            f (MCmd c, e) + pendCnt m (MCmd c, e) = countOf (MCmd c, e) (map (labelOf (cmdsRead ls)) (ends ls));
  i_rd : forall f, counterM (mx m) = Some f ->
            (rd (sc m) <> RExit -> forall e, f (MReadFrames, e) = 0) /\
            (rd (sc m) = RExit -> exists e0, forall e, f (MReadFrames, e) = if merror_eqb e e0 then 1 else 0);
  i_lat : forall obs, latencyM (mx m) = Some obs -> forall c e,
            countOf (MCmd c, e) (map fst obs) + pendCnt m (MCmd c, e) = countOf (MCmd c, e) (map (labelOf (cmdsRead ls)) (ends ls));
  i_begin : forall n, In (EStart n) (evs (sc m)) -> startedAt K lim ov m0 ls n (beginOf m n);
  i_obs : forall obs, latencyM (mx m) = Some obs -> forall lab d, In (lab, d) obs ->
            exists n err l1 y l2 t, ls = l1 ++ y :: l2 /\ In (n, err) (ends (l1 ++ [y])) /\ (y = MEnd n err \/ y = MDo SLDefer) /\
              lab = labelOf (cmdsRead ls) (n, err) /\ startedAt K lim ov m0 l1 n t /\ d = (ticks l1 - t)%N }.

Lemma minv_init : forall K lim ov c l, limOk lim -> minv K lim ov (minit c l) [] (minit c l).
Proof.
  intros K lim ov c l HL. split; cbn.
  - apply sinv_init. exact HL.
  - intro n. reflexivity.
  - reflexivity.
  - reflexivity.
  - intros n H. lia.
  - intro n. reflexivity.
  - discriminate.
  - intros f H c' e. destruct c; inversion H; reflexivity.
  - intros f H. destruct c; inversion H; subst. split; [reflexivity|discriminate].
  - intros obs H c' e. destruct l; inversion H; subst. reflexivity.
  - contradiction.
  - intros obs H lab d HI. destruct l; inversion H; subst. contradiction.
Qed.

Lemma startedAt_snoc : forall K lim ov m0 ls l n t, startedAt K lim ov m0 ls n t -> startedAt K lim ov m0 (ls ++ [l]) n t.
Proof.
  intros K lim ov m0 ls l n t (l1 & x & l2 & m1 & m2 & -> & A & B & C & D & E).
  exists l1, x, (l2 ++ [l]), m1, m2. rewrite <- app_assoc. repeat split; assumption.
Qed.

(** labels of ended handlers do not change when more requests are read *)
Lemma labelOf_more : forall cmds more n e, n < length cmds -> labelOf (cmds ++ more) (n, e) = labelOf cmds (n, e).
Proof. intros. unfold labelOf. cbn. rewrite app_nth1 by assumption. reflexivity. Qed.

Lemma ends_lt : forall K lim ov m0 ls m n e, minv K lim ov m0 ls m -> In (n, e) (ends ls) -> n < narr (sc m).
Proof.
  intros K lim ov m0 ls m n e I H. destruct I. destruct i_s0 as [SE CH SP RU TO RD CL SL FI OR LT FS CN CR LI BO].
  assert (1 <= finCnt (evs (sc m)) n).
  { rewrite <- i_ends0. assert (X : In (n, e) (filter (fun x => fst x =? n) (ends ls))) by (apply filter_In; split; [assumption|apply Nat.eqb_refl]).
    destruct (filter (fun x => fst x =? n) (ends ls)); [contradiction|cbn; lia]. }
  apply finCnt_In in H0. apply in_split in H0. destruct H0 as (a & b & E). apply LT. apply FS in E as E'. rewrite E. apply in_or_app. auto.
Qed.

Lemma map_labels_more : forall cmds more l, (forall n e, In (n, e) l -> n < length cmds) ->
  map (labelOf (cmds ++ more)) l = map (labelOf cmds) l.
Proof. intros cmds more l H. apply map_ext_in. intros [n e] HI. apply labelOf_more. eapply H. eassumption. Qed.

Lemma instrument_counter : forall m c b t e f', counterM (instrument m c b t e) = Some f' ->
  exists f, counterM m = Some f /\ f' = addOne f (MCmd c, errStr e).
Proof.
  intros m c b t e f' H. unfold instrument in H. destruct m as [[f|] [obs|]]; cbn in H; inversion H; subst; eexists; split; reflexivity.
Qed.
Lemma instrument_latency : forall m c b t e o', latencyM (instrument m c b t e) = Some o' ->
  exists o, latencyM m = Some o /\ o' = o ++ [((MCmd c, errStr e), (t - b)%N)].
Proof.
  intros m c b t e o' H. unfold instrument in H. destruct m as [[f|] [obs|]]; cbn in H; inversion H; subst; eexists; split; reflexivity.
Qed.
Lemma countRead_counter : forall ov m e f', counterM (countReadFrames ov m e) = Some f' ->
  exists f e0, counterM m = Some f /\ f' = addOne f (MReadFrames, e0).
Proof.
  intros ov m e f' H. unfold countReadFrames in H. destruct m as [[f|] l]; cbn in H; inversion H; subst. do 2 eexists. split; reflexivity.
Qed.
Lemma countRead_latency : forall ov m e, latencyM (countReadFrames ov m e) = latencyM m.
Proof. intros ov m e. unfold countReadFrames. destruct m as [[f|] l]; reflexivity. Qed.
Lemma addOne_read : forall f e0 c e, addOne f (MReadFrames, e0) (MCmd c, e) = f (MCmd c, e).
Proof. reflexivity. Qed.
Lemma addOne_cmd : forall f c0 e0 e, addOne f (MCmd c0, e0) (MReadFrames, e) = f (MReadFrames, e).
Proof. reflexivity. Qed.
Lemma mlabels_eqb_sym : forall a b, mlabels_eqb a b = mlabels_eqb b a.
Proof.
  intros a b. destruct (mlabels_eqb a b) eqn:E.
  - apply mlabels_eqb_eq in E. subst. symmetry. apply mlabels_eqb_eq. reflexivity.
  - destruct (mlabels_eqb b a) eqn:E'; [|reflexivity]. apply mlabels_eqb_eq in E'. subst.
    rewrite (proj2 (mlabels_eqb_eq a a) eq_refl) in E. discriminate.
Qed.
Lemma addOne_val : forall f lab x, addOne f lab x = f x + if mlabels_eqb lab x then 1 else 0.
Proof. intros. unfold addOne. rewrite (mlabels_eqb_sym lab x). destruct (mlabels_eqb x lab); lia. Qed.
Lemma countOf_one : forall lab x, countOf lab [x] = if mlabels_eqb x lab then 1 else 0.
Proof. intros. unfold countOf. cbn. destruct (mlabels_eqb x lab); reflexivity. Qed.

Lemma noteBegin_same : forall m s', sameSv (sc m) s' -> noteBegin m s' = beginOf m.
Proof.
  intros m s' [H|[A B]]; unfold noteBegin; [rewrite H; destruct (blkOf (sv (sc m))); reflexivity|].
  rewrite A, B. reflexivity.
Qed.

(** time.Now() is noted when the handler starts, and kept. *)
Lemma begin_step : forall K lim ov m l m', sinv lim (sc m') -> mstep K lim ov m l = Some m' ->
  forall n, In (EStart n) (evs (sc m')) ->
  (In (EStart n) (evs (sc m)) /\ beginOf m' n = beginOf m n) \/ (~ In (EStart n) (evs (sc m)) /\ beginOf m' n = clock m).
Proof.
  intros K lim ov m l m' HI H n HN.
  assert (ONE : forall k, evs (sc m') = evs (sc m) ++ [EStart k] -> ~ In (EStart k) (evs (sc m))).
  { intros k E X. destruct HI as [SE CH SP RU TO RD CL SL FI OR LT FS CN CR LI BO]. specialize (CN k).
    rewrite E, startCnt_snoc, Nat.eqb_refl in CN. apply startCnt_In in X. lia. }
  destruct (mstep_under _ _ _ _ _ _ H) as [U _].
  assert (OLD : evs (sc m') = evs (sc m) -> beginOf m' = beginOf m ->
    (In (EStart n) (evs (sc m)) /\ beginOf m' n = beginOf m n) \/ (~ In (EStart n) (evs (sc m)) /\ beginOf m' n = clock m)).
  { intros E1 E2. left. rewrite <- E1, E2. split; [assumption|reflexivity]. }
  assert (FIN : forall k, evs (sc m') = evs (sc m) ++ [EFinish k] -> beginOf m' = beginOf m ->
    (In (EStart n) (evs (sc m)) /\ beginOf m' n = beginOf m n) \/ (~ In (EStart n) (evs (sc m)) /\ beginOf m' n = clock m)).
  { intros k E1 E2. left. rewrite E2. split; [|reflexivity]. rewrite E1 in HN. apply in_app_or in HN.
    destruct HN as [HN|[HN|[]]]; [assumption|discriminate]. }
  assert (NEW : forall k, evs (sc m') = evs (sc m) ++ [EStart k] -> beginOf m' = (fun j => if j =? k then clock m else beginOf m j) ->
    (In (EStart n) (evs (sc m)) /\ beginOf m' n = beginOf m n) \/ (~ In (EStart n) (evs (sc m)) /\ beginOf m' n = clock m)).
  { intros k E1 E2. specialize (ONE k E1). rewrite E1 in HN. apply in_app_or in HN. rewrite E2. destruct HN as [HN|[HN|[]]].
    - left. split; [assumption|]. destruct (Nat.eqb_spec n k) as [->|]; [contradiction|reflexivity].
    - inversion HN; subst. right. split; [assumption|]. rewrite Nat.eqb_refl. reflexivity. }
  destruct l as [d|b c|e|k e|k e|l]; cbn [mstep under] in *.
  - inversion H; subst; clear H. apply OLD; reflexivity.
  - rename U into E. assert (X := sstep_kinds _ _ _ _ _ E). cbv beta iota in X. destruct X as (X & _).
    destruct (sstep K lim (sc m) (SLRead b)); [|discriminate]. inversion H; subst; clear H. apply OLD; [exact X|reflexivity].
  - rename U into E. assert (X := sstep_kinds _ _ _ _ _ E). cbv beta iota in X. destruct X as (X & _).
    destruct (sstep K lim (sc m) SLReadErr); [|discriminate]. inversion H; subst; clear H. apply OLD; [exact X|reflexivity].
  - rename U into E. assert (X := sstep_kinds _ _ _ _ _ E). cbv beta iota in X. destruct X as (j & _ & _ & X & _).
    destruct (sv (sc m)); try discriminate. destruct (k =? n0); [|discriminate].
    destruct (sstep K lim (sc m) SLBlkRet); [|discriminate]. inversion H; subst; clear H. apply (FIN j); [exact X|reflexivity].
  - rename U into E. assert (X := sstep_kinds _ _ _ _ _ E). cbv beta iota in X. destruct X as (X & _).
    destruct (sstep K lim (sc m) (SLFinish k)); [|discriminate]. inversion H; subst; clear H. apply (FIN k); [exact X|reflexivity].
  - assert (X := sstep_kinds _ _ _ _ _ U). destruct l; try discriminate H; cbv beta iota in X.
    1, 4, 7, 8, 9, 10: destruct X as (X & _ & Y); rewrite U in H; apply (f_equal (fun o => match o with Some x => beginOf x | None => beginOf m end)) in H; cbn [beginOf] in H; symmetry in H; apply OLD; [exact X|rewrite H; apply noteBegin_same; exact Y].
    1, 2: rewrite U in H; apply (f_equal (fun o => match o with Some x => beginOf x | None => beginOf m end)) in H; cbn [beginOf] in H; symmetry in H; destruct X as (_ & [(j & A & B & C)|(E & Y)]);
      [apply (NEW j); [exact C|]; rewrite H; unfold noteBegin; rewrite A, B; reflexivity
      |apply OLD; [exact E|rewrite H; apply noteBegin_same; exact Y]].
    + destruct X as (X & _ & Y). rewrite U in H. apply (f_equal (fun o => match o with Some x => beginOf x | None => beginOf m end)) in H; cbn [beginOf] in H; symmetry in H. apply OLD; [exact X|exact H].
    + destruct X as (j & A & _ & X & _). rewrite A, U in H. apply (f_equal (fun o => match o with Some x => beginOf x | None => beginOf m end)) in H; cbn [beginOf] in H; symmetry in H. apply OLD; [exact X|exact H].
    + destruct X as (X & _ & _). rewrite U in H. apply (f_equal (fun o => match o with Some x => beginOf x | None => beginOf m end)) in H; cbn [beginOf] in H; symmetry in H. apply (NEW n0); [exact X|exact H].
Qed.

Lemma mstep_fields : forall K lim ov m l m', mstep K lim ov m l = Some m' ->
  cmdOf m' = (match l with MRead _ c => fun k => if k =? narr (sc m) then c else cmdOf m k | _ => cmdOf m end) /\
  match l with
  | MReadErr e => blkErr m' = blkErr m /\ mx m' = countReadFrames ov (mx m) (Some e)
  | MDo SLRdDone => blkErr m' = blkErr m /\ mx m' = countReadFrames ov (mx m) None
  | MBlkEnd n e => sv (sc m) = SBlk n /\ blkErr m' = e /\ mx m' = mx m
  | MEnd n e => blkErr m' = blkErr m /\ mx m' = instrument (mx m) (cmdOf m n) (beginOf m n) (clock m) e
  | MDo SLDefer => exists n, sv (sc m) = SDefer n /\ mx m' = instrument (mx m) (cmdOf m n) (beginOf m n) (clock m) (blkErr m)
  | MDo (SLRead _) | MDo SLReadErr | MDo SLBlkRet | MDo (SLFinish _) => False
  | _ => blkErr m' = blkErr m /\ mx m' = mx m
  end.
Proof.
  intros K lim ov m l m' H. destruct l as [d|b c|e|n e|n e|l]; cbn [mstep] in *.
  - inversion H; subst; clear H. repeat split.
  - destruct (sstep K lim (sc m) (SLRead b)); [|discriminate]. inversion H; subst; clear H. repeat split.
  - destruct (sstep K lim (sc m) SLReadErr); [|discriminate]. inversion H; subst; clear H. repeat split.
  - destruct (sv (sc m)); try discriminate. destruct (Nat.eqb_spec n n0) as [->|]; [|discriminate].
    destruct (sstep K lim (sc m) SLBlkRet); [|discriminate]. inversion H; subst; clear H. repeat split.
  - destruct (sstep K lim (sc m) (SLFinish n)); [|discriminate]. inversion H; subst; clear H. repeat split.
  - destruct l; try discriminate H.
    6: destruct (sv (sc m)) eqn:SV; try discriminate H.
    all: match type of H with (match ?x with _ => _ end) = _ => destruct x eqn:E; [|discriminate H] end.
    all: inversion H; subst; clear H; cbn [blkErr mx cmdOf]; try (repeat split; fail).
    split; [reflexivity|]. eexists. split; reflexivity.
Qed.

Lemma pendCnt_not : forall m lab, (forall n, sv (sc m) <> SDefer n) -> pendCnt m lab = 0.
Proof. intros m lab H. unfold pendCnt. destruct (sv (sc m)); try reflexivity. exfalso. apply (H n). reflexivity. Qed.

Lemma sameSv_defer : forall s s' n, sameSv s s' -> (sv s' = SDefer n <-> sv s = SDefer n).
Proof. intros s s' n [->|[A B]]; [tauto|]. split; intro X; rewrite X in *; discriminate. Qed.

Lemma pendCnt_same : forall m m' lab, (forall n, sv (sc m') = SDefer n <-> sv (sc m) = SDefer n) -> blkErr m' = blkErr m ->
  (forall n, sv (sc m) = SDefer n -> cmdOf m' n = cmdOf m n) -> pendCnt m' lab = pendCnt m lab.
Proof.
  intros m m' lab H1 H2 H3. unfold pendCnt. destruct (sv (sc m')) eqn:E.
  3: { rewrite (proj1 (H1 n) eq_refl) in *. rewrite H2, H3; reflexivity. }
  all: destruct (sv (sc m)) eqn:E'; try reflexivity; destruct (H1 n0) as [_ X] || destruct (H1 n) as [_ X]; discriminate (X eq_refl).
Qed.

Lemma obs_snoc : forall K lim ov m0 ls l obs,
  (forall lab d, In (lab, d) obs -> exists n err l1 y l2 t, ls = l1 ++ y :: l2 /\ In (n, err) (ends (l1 ++ [y])) /\ (y = MEnd n err \/ y = MDo SLDefer) /\
              lab = labelOf (cmdsRead ls) (n, err) /\ startedAt K lim ov m0 l1 n t /\ d = (ticks l1 - t)%N) ->
  (forall n e, In (n, e) (ends ls) -> n < length (cmdsRead ls)) ->
  (forall lab d, In (lab, d) obs -> exists n err l1 y l2 t, ls ++ [l] = l1 ++ y :: l2 /\ In (n, err) (ends (l1 ++ [y])) /\ (y = MEnd n err \/ y = MDo SLDefer) /\
              lab = labelOf (cmdsRead (ls ++ [l])) (n, err) /\ startedAt K lim ov m0 l1 n t /\ d = (ticks l1 - t)%N).
Proof.
  intros K lim ov m0 ls l obs H HL lab d HI. destruct (H lab d HI) as (n & err & l1 & y & l2 & t & A & B & C & D & E & F).
  exists n, err, l1, y, (l2 ++ [l]), t. split; [rewrite A, <- app_assoc; reflexivity|]. split; [assumption|]. split; [assumption|].
  split; [|split; assumption]. rewrite D, cmdsRead_app. symmetry. apply labelOf_more. apply (HL n err).
  rewrite A. replace (l1 ++ y :: l2) with ((l1 ++ [y]) ++ l2) by (rewrite <- app_assoc; reflexivity).
  rewrite ends_app. apply in_or_app. left. assumption.
Qed.

Lemma minv_step : forall K lim ov m0 ls m l m', run (mstep K lim ov) m0 ls = Some m -> minv K lim ov m0 ls m ->
  mstep K lim ov m l = Some m' -> minv K lim ov m0 (ls ++ [l]) m'.
Proof.
  intros K lim ov m0 ls m l m' HR I H.
  assert (EL := fun n e => ends_lt K lim ov m0 ls m n e I).
  destruct I as [IS IB IC IN ICM IE IP ICN IRD ILA IBE IOB].
  destruct (mstep_under _ _ _ _ _ _ H) as [U CK]. destruct (mstep_fields _ _ _ _ _ _ H) as [FC FM].
  assert (EL' : forall n e, In (n, e) (ends ls) -> n < length (cmdsRead ls)) by (intros n e X; rewrite IN; eapply EL; eassumption).
  assert (IS' : sinv lim (sc m')).
  { destruct (under l) as [sl|]; [exact (sinv_step K lim (sc m) sl (sc m') IS U)|rewrite U; assumption]. }
  assert (IB' : balance (sc m')).
  { destruct (under l) as [sl|]; [exact (balance_step K lim (sc m) sl (sc m') IS IB U)|rewrite U; assumption]. }
  assert (IBE' : forall n, In (EStart n) (evs (sc m')) -> startedAt K lim ov m0 (ls ++ [l]) n (beginOf m' n)).
  { intros n X. destruct (begin_step _ _ _ _ _ _ IS' H n X) as [[A B]|[A B]].
    - rewrite B. apply startedAt_snoc. apply IBE. assumption.
    - rewrite B. exists ls, l, [], m, m'. repeat split; try assumption. }
  assert (IC' : clock m' = ticks (ls ++ [l])) by (rewrite CK, IC, ticks_app; destruct l; cbn; lia).
  assert (LTR : forall n, In (EStart n) (evs (sc m)) -> n < narr (sc m)) by (destruct IS; assumption).
  assert (SVN : forall n, sv (sc m) = SBlk n \/ sv (sc m) = SDefer n -> n < narr (sc m)).
  { intros n X. destruct IS as [SE CH SP RU TO RD CL SL FI OR LT FS CN CR LI BO]. destruct (SL n X) as (Y & _). lia. }
  (* labels under which nothing is counted and no handler ends *)
  assert (QUIET : cmdsRead [l] = [] -> ends [l] = [] -> evs (sc m') = evs (sc m) ++ [] \/ (exists k, evs (sc m') = evs (sc m) ++ [EStart k]) ->
    narr (sc m') = narr (sc m) -> (rd (sc m') = RExit <-> rd (sc m) = RExit) ->
    (forall n, sv (sc m') = SDefer n <-> sv (sc m) = SDefer n) -> blkErr m' = blkErr m -> mx m' = mx m -> cmdOf m' = cmdOf m ->
    minv K lim ov m0 (ls ++ [l]) m').
  { intros Q1 Q2 Q3 Q4 Q5 Q6 Q7 Q8 Q9.
    assert (PC : forall lab, pendCnt m' lab = pendCnt m lab) by (intro lab; apply pendCnt_same; [exact Q6|exact Q7|intros; rewrite Q9; reflexivity]).
    assert (FC' : forall n, finCnt (evs (sc m')) n = finCnt (evs (sc m)) n).
    { intro n. destruct Q3 as [->|(k & ->)]; [rewrite app_nil_r; reflexivity|rewrite finCnt_snoc; lia]. }
    split; try assumption.
    - rewrite cmdsRead_app, Q1, app_nil_r, Q4. assumption.
    - rewrite cmdsRead_app, Q1, app_nil_r, Q4, Q9. assumption.
    - intro n. rewrite ends_app, Q2, app_nil_r, FC'. apply IE.
    - intros n X. rewrite ends_app, Q2, app_nil_r, Q7. apply IP. apply Q6. assumption.
    - intros f X c e. rewrite PC, cmdsRead_app, ends_app, Q1, Q2, !app_nil_r. rewrite Q8 in X. exact (ICN f X c e).
    - intros f X. rewrite Q8 in X. destruct (IRD f X) as [A B]. rewrite Q5. split; assumption.
    - intros f X c e. rewrite PC, cmdsRead_app, ends_app, Q1, Q2, !app_nil_r. rewrite Q8 in X. exact (ILA f X c e).
    - intros obs X. rewrite Q8 in X. apply obs_snoc; [apply IOB; assumption|assumption]. }
  destruct l as [d|b c|e|n e|n e|l]; cbn [under] in U.
  - apply QUIET; try reflexivity; try (rewrite U; rewrite ?app_nil_r; auto; tauto).
    + apply FM.
    + apply FM.
    + assumption.
  - assert (X := sstep_kinds _ _ _ _ _ U). cbv beta iota in X. destruct X as (E & _ & S). destruct (sstep_narr _ _ _ _ _ U) as [EN ER].
    destruct FM as [FB FX].
    assert (PC : forall lab, pendCnt m' lab = pendCnt m lab).
    { intro lab. apply pendCnt_same; [intro; apply sameSv_defer; exact S|exact FB|]. intros n Hn. rewrite FC.
      assert (n < narr (sc m)) by (apply SVN; auto). destruct (Nat.eqb_spec n (narr (sc m))); [lia|reflexivity]. }
    split; try assumption.
    + rewrite cmdsRead_app, app_length, IN, EN. cbn. lia.
    + rewrite EN. intros n Hn. rewrite FC, cmdsRead_app. cbn [cmdsRead]. destruct (Nat.eqb_spec n (narr (sc m))) as [->|].
      * rewrite app_nth2 by lia. rewrite IN, Nat.sub_diag. reflexivity.
      * rewrite app_nth1 by lia. apply ICM. lia.
    + intro n. rewrite ends_app, app_nil_r, E. apply IE.
    + intros n X. rewrite ends_app, app_nil_r, FB. apply IP. apply (sameSv_defer _ _ n S). assumption.
    + intros f X c' e'. rewrite PC, cmdsRead_app, ends_app, app_nil_r, map_labels_more by exact EL'. rewrite FX in X. exact (ICN f X c' e').
    + intros f X. rewrite FX in X. destruct (IRD f X) as [A B]. rewrite ER. split; assumption.
    + intros f X c' e'. rewrite PC, cmdsRead_app, ends_app, app_nil_r, map_labels_more by exact EL'. rewrite FX in X. exact (ILA f X c' e').
    + intros obs X. rewrite FX in X. apply obs_snoc; [apply IOB; assumption|assumption].
  - assert (X := sstep_kinds _ _ _ _ _ U). cbv beta iota in X. destruct X as (E & _ & S). destruct (sstep_narr _ _ _ _ _ U) as [EN ER].
    destruct FM as [FB FX].
    assert (PC : forall lab, pendCnt m' lab = pendCnt m lab).
    { intro lab. apply pendCnt_same; [intro; apply sameSv_defer; exact S|exact FB|]. intros n Hn. rewrite FC. reflexivity. }
    split; try assumption.
    + rewrite cmdsRead_app, app_nil_r, EN. assumption.
    + rewrite cmdsRead_app, app_nil_r, EN, FC. assumption.
    + intro n. rewrite ends_app, app_nil_r, E. apply IE.
    + intros n X. rewrite ends_app, app_nil_r, FB. apply IP. apply (sameSv_defer _ _ n S). assumption.
    + intros f X c' e'. rewrite PC, cmdsRead_app, ends_app, !app_nil_r. rewrite FX in X.
      destruct (countRead_counter _ _ _ _ X) as (f0 & e0 & X0 & ->). rewrite addOne_read. exact (ICN f0 X0 c' e').
    + intros f X. rewrite FX in X. destruct (countRead_counter _ _ _ _ X) as (f0 & e0 & X0 & ->). destruct (IRD f0 X0) as [A B].
      destruct ER as [ER1 ER2]. split; [congruence|]. intros _. exists e0. intro e1. unfold addOne, mlabels_eqb. cbn [fst snd mmethod_eqb andb].
      rewrite (A ER1). destruct (merror_eqb e1 e0); reflexivity.
    + intros f X c' e'. rewrite PC, cmdsRead_app, ends_app, !app_nil_r. rewrite FX, countRead_latency in X. exact (ILA f X c' e').
    + intros obs X. rewrite FX, countRead_latency in X. apply obs_snoc; [apply IOB; assumption|assumption].
  - assert (X := sstep_kinds _ _ _ _ _ U). cbv beta iota in X. destruct X as (k & S1 & S2 & E & _). destruct (sstep_narr _ _ _ _ _ U) as [EN ER].
    destruct FM as (FS & FB & FX). assert (k = n) by congruence. subst k.
    assert (P0 : forall lab, pendCnt m lab = 0) by (intro lab; apply pendCnt_not; congruence).
    assert (NL : n < narr (sc m)) by (apply SVN; auto).
    assert (P1 : forall lab, pendCnt m' lab = countOf lab [labelOf (cmdsRead ls) (n, e)]).
    { intro lab. rewrite countOf_one. unfold pendCnt. rewrite S2, FB, FC. unfold labelOf. cbn [fst snd]. rewrite (ICM n NL). reflexivity. }
    split; try assumption.
    + rewrite cmdsRead_app, app_nil_r, EN. assumption.
    + rewrite cmdsRead_app, app_nil_r, EN, FC. assumption.
    + intro k. rewrite ends_app, filter_app, app_length, IE, E, finCnt_snoc. cbn. destruct (n =? k); reflexivity.
    + intros k X. rewrite S2 in X. inversion X; subst k. rewrite ends_app, FB. apply in_or_app. right. left. reflexivity.
    + intros f X c' e'. rewrite cmdsRead_app, ends_app, map_app, countOf_app, app_nil_r, P1. rewrite FX in X. rewrite <- (ICN f X c' e'), P0. cbn [ends map]. lia.
    + intros f X. rewrite FX in X. destruct (IRD f X) as [A B]. rewrite ER. split; assumption.
    + intros f X c' e'. rewrite cmdsRead_app, ends_app, map_app, countOf_app, app_nil_r, P1. rewrite FX in X. rewrite <- (ILA f X c' e'), P0. cbn [ends map]. lia.
    + intros obs X. rewrite FX in X. apply obs_snoc; [apply IOB; assumption|assumption].
  - assert (X := sstep_kinds _ _ _ _ _ U). cbv beta iota in X. destruct X as (E & S1 & _ & ME). destruct (sstep_narr _ _ _ _ _ U) as [EN ER].
    destruct FM as (FB & FX).
    assert (ST : In (EStart n) (evs (sc m))) by (destruct IS as [SE CH SP RU TO RD CL SL FI OR LT FS CN CR LI BO]; apply RU; apply cnt_In; apply cnt_mem; assumption).
    assert (NL : n < narr (sc m)) by (apply LTR; assumption).
    assert (PC : forall lab, pendCnt m' lab = pendCnt m lab).
    { intro lab. apply pendCnt_same; [intro; rewrite S1; tauto|exact FB|]. intros k Hk. rewrite FC. reflexivity. }
    assert (LB : labelOf (cmdsRead ls) (n, e) = (MCmd (cmdOf m n), errStr e)) by (unfold labelOf; cbn [fst snd]; rewrite (ICM n NL); reflexivity).
    split; try assumption.
    + rewrite cmdsRead_app, app_nil_r, EN. assumption.
    + rewrite cmdsRead_app, app_nil_r, EN, FC. assumption.
    + intro k. rewrite ends_app, filter_app, app_length, IE, E, finCnt_snoc. cbn. destruct (n =? k); reflexivity.
    + intros k X. rewrite ends_app, FB. apply in_or_app. left. apply IP. congruence.
    + intros f X c' e'. rewrite cmdsRead_app, ends_app, map_app, countOf_app, app_nil_r, PC. rewrite FX in X.
      destruct (instrument_counter _ _ _ _ _ _ X) as (f0 & X0 & ->). rewrite <- (ICN f0 X0 c' e'), addOne_val. cbn [ends map].
      rewrite countOf_one, LB. lia.
    + intros f X. rewrite FX in X. destruct (instrument_counter _ _ _ _ _ _ X) as (f0 & X0 & ->). destruct (IRD f0 X0) as [A B]. rewrite ER.
      split; [intros Y e1; rewrite addOne_cmd; apply A; assumption|]. intro Y. destruct (B Y) as (e0 & B0). exists e0. intro e1. rewrite addOne_cmd. apply B0.
    + intros f X c' e'. rewrite cmdsRead_app, ends_app, map_app, countOf_app, app_nil_r, PC. rewrite FX in X.
      destruct (instrument_latency _ _ _ _ _ _ X) as (f0 & X0 & ->). rewrite <- (ILA f0 X0 c' e'), map_app, countOf_app. cbn [ends map fst].
      rewrite !countOf_one, LB. lia.
    + intros obs X lab d HI. rewrite FX in X. destruct (instrument_latency _ _ _ _ _ _ X) as (o0 & X0 & ->).
      apply in_app_or in HI. destruct HI as [HI|[HI|[]]].
      * revert lab d HI. apply obs_snoc; [apply IOB; assumption|assumption].
      * inversion HI; subst lab d. exists n, e, ls, (MEnd n e), [], (beginOf m n). split; [reflexivity|]. split.
        { rewrite ends_app. apply in_or_app. right. left. reflexivity. }
        split; [left; reflexivity|]. split; [rewrite cmdsRead_app, app_nil_r; symmetry; exact LB|]. split; [apply IBE; assumption|].
        rewrite IC. reflexivity.
  - assert (X := sstep_kinds _ _ _ _ _ U). destruct (sstep_narr _ _ _ _ _ U) as [EN ER].
    destruct l; try contradiction; cbv beta iota in X, FM, EN, ER.
    1, 4, 7, 8, 9, 10: destruct X as (E & _ & S); destruct FM as [FB FX]; apply QUIET; try reflexivity; try assumption;
      [left; rewrite app_nil_r; exact E|intro; apply sameSv_defer; exact S].
    1, 2: destruct X as (_ & [(k & A & B & C)|(E & S)]); destruct FM as [FB FX]; apply QUIET; try reflexivity; try assumption;
      [right; exists k; exact C|intro k'; rewrite A, B; split; discriminate|left; rewrite app_nil_r; exact E|intro; apply sameSv_defer; exact S].
    + destruct X as (E & _ & S). destruct FM as [FB FX].
      assert (PC : forall lab, pendCnt m' lab = pendCnt m lab).
      { intro lab. apply pendCnt_same; [intro; apply sameSv_defer; exact S|exact FB|]. intros n Hn. rewrite FC. reflexivity. }
      split; try assumption.
      * rewrite cmdsRead_app, app_nil_r, EN. assumption.
      * rewrite cmdsRead_app, app_nil_r, EN, FC. assumption.
      * intro n. rewrite ends_app, app_nil_r, E. apply IE.
      * intros n X. rewrite ends_app, app_nil_r, FB. apply IP. apply (sameSv_defer _ _ n S). assumption.
      * intros f X c' e'. rewrite PC, cmdsRead_app, ends_app, !app_nil_r. rewrite FX in X.
        destruct (countRead_counter _ _ _ _ X) as (f0 & e0 & X0 & ->). rewrite addOne_read. exact (ICN f0 X0 c' e').
      * intros f X. rewrite FX in X. destruct (countRead_counter _ _ _ _ X) as (f0 & e0 & X0 & ->). destruct (IRD f0 X0) as [A B].
        destruct ER as [ER1 ER2]. split; [congruence|]. intros _. exists e0. intro e1. unfold addOne, mlabels_eqb. cbn [fst snd mmethod_eqb andb].
        rewrite (A ER1). destruct (merror_eqb e1 e0); reflexivity.
      * intros f X c' e'. rewrite PC, cmdsRead_app, ends_app, !app_nil_r. rewrite FX, countRead_latency in X. exact (ILA f X c' e').
      * intros obs X. rewrite FX, countRead_latency in X. apply obs_snoc; [apply IOB; assumption|assumption].
    + destruct X as (n & S1 & S2 & E & _). destruct FM as (k & FS & FX). assert (k = n) by congruence. subst k.
      assert (P0 : forall lab, pendCnt m' lab = 0) by (intro lab; apply pendCnt_not; congruence).
      assert (NL : n < narr (sc m)) by (apply SVN; auto).
      assert (ST : In (EStart n) (evs (sc m))).
      { destruct IS as [SE CH SP RU TO RD CL SL FI OR LT FSx CN CR LI BO]. destruct (SL n (or_intror S1)) as (_ & _ & Y). exact Y. }
      assert (LB : labelOf (cmdsRead ls) (n, blkErr m) = (MCmd (cmdOf m n), errStr (blkErr m))) by (unfold labelOf; cbn [fst snd]; rewrite (ICM n NL); reflexivity).
      assert (P1 : forall lab, pendCnt m lab = if mlabels_eqb (MCmd (cmdOf m n), errStr (blkErr m)) lab then 1 else 0).
      { intro lab. unfold pendCnt. rewrite S1. reflexivity. }
      split; try assumption.
      * rewrite cmdsRead_app, app_nil_r, EN. assumption.
      * rewrite cmdsRead_app, app_nil_r, EN, FC. assumption.
      * intro j. rewrite ends_app, app_nil_r, E. apply IE.
      * intros j X. congruence.
      * intros f X c' e'. rewrite cmdsRead_app, ends_app, !app_nil_r, P0. rewrite FX in X.
        destruct (instrument_counter _ _ _ _ _ _ X) as (f0 & X0 & ->). rewrite <- (ICN f0 X0 c' e'), addOne_val, P1. lia.
      * intros f X. rewrite FX in X. destruct (instrument_counter _ _ _ _ _ _ X) as (f0 & X0 & ->). destruct (IRD f0 X0) as [A B]. rewrite ER.
        split; [intros Y e1; rewrite addOne_cmd; apply A; assumption|]. intro Y. destruct (B Y) as (e0 & B0). exists e0. intro e1. rewrite addOne_cmd. apply B0.
      * intros f X c' e'. rewrite cmdsRead_app, ends_app, !app_nil_r, P0. rewrite FX in X.
        destruct (instrument_latency _ _ _ _ _ _ X) as (f0 & X0 & ->). rewrite <- (ILA f0 X0 c' e'), map_app, countOf_app, P1. cbn [map fst].
        rewrite countOf_one. lia.
      * intros obs X lab d HI. rewrite FX in X. destruct (instrument_latency _ _ _ _ _ _ X) as (o0 & X0 & ->).
        apply in_app_or in HI. destruct HI as [HI|[HI|[]]].
        -- revert lab d HI. apply obs_snoc; [apply IOB; assumption|assumption].
        -- inversion HI; subst lab d. exists n, (blkErr m), ls, (MDo SLDefer), [], (beginOf m n). split; [reflexivity|]. split.
           { rewrite ends_app. apply in_or_app. left. apply IP. assumption. }
           split; [right; reflexivity|]. split; [rewrite cmdsRead_app, app_nil_r; symmetry; exact LB|]. split; [apply IBE; assumption|].
           rewrite IC. reflexivity.
    + destruct X as (E & S & _). destruct FM as [FB FX]. apply QUIET; try reflexivity; try assumption.
      * right. eexists. exact E.
      * intro. rewrite S. tauto.
Qed.

Lemma minv_reach : forall K lim ov c l ls m, limOk lim -> run (mstep K lim ov) (minit c l) ls = Some m ->
  minv K lim ov (minit c l) ls m.
Proof.
  intros K lim ov c l ls m HL. revert m. induction ls as [|x ls IH] using rev_ind; intros m H.
  - inversion H; subst. apply minv_init. assumption.
  - rewrite run_app in H. destruct (run (mstep K lim ov) (minit c l) ls) as [m1|] eqn:E; [|discriminate]. cbn in H.
    destruct (mstep K lim ov m1 x) as [m2|] eqn:E2; [|discriminate]. inversion H; subst.
    eapply minv_step; [exact E|apply IH; reflexivity|exact E2].
Qed.

Lemma mx_kept : forall K lim ov c l ls m, run (mstep K lim ov) (minit c l) ls = Some m ->
  (counterM (mx m) = None <-> c = false) /\ (latencyM (mx m) = None <-> l = false).
Proof.
  intros K lim ov c l ls m H.
  refine (run_inv (mstep K lim ov) (fun m => (counterM (mx m) = None <-> c = false) /\ (latencyM (mx m) = None <-> l = false)) _ ls (minit c l) m _ H).
  - intros s x s' [A B] E. destruct (mstep_fields _ _ _ _ _ _ E) as [_ F].
    assert (INS : forall a b t e, (counterM (instrument (mx s) a b t e) = None <-> counterM (mx s) = None) /\
                                  (latencyM (instrument (mx s) a b t e) = None <-> latencyM (mx s) = None)).
    { intros a b t e. unfold instrument. destruct (mx s) as [[f|] [o|]]; cbn; split; split; congruence. }
    assert (CRF : forall e, (counterM (countReadFrames ov (mx s) e) = None <-> counterM (mx s) = None) /\
                            (latencyM (countReadFrames ov (mx s) e) = None <-> latencyM (mx s) = None)).
    { intro e. unfold countReadFrames. destruct (mx s) as [[f|] [o|]]; cbn; split; split; congruence. }
    destruct x as [d|b cc|e|n e|n e|x].
    + destruct F as [_ ->]. tauto.
    + destruct F as [_ ->]. tauto.
    + destruct F as [_ ->]. destruct (CRF (Some e)). tauto.
    + destruct F as (_ & _ & ->). tauto.
    + destruct F as [_ ->]. destruct (INS (cmdOf s n) (beginOf s n) (clock s) e). tauto.
    + destruct x; try contradiction.
      1-4, 7-10: destruct F as [_ ->]; tauto.
      * destruct F as [_ ->]. destruct (CRF None). tauto.
      * destruct F as (n & _ & ->). destruct (INS (cmdOf s n) (beginOf s n) (clock s) (blkErr s)). tauto.
      * destruct F as [_ ->]. tauto.
  - unfold minit. cbn. destruct c, l; cbn; split; split; congruence.
Qed.

Lemma filter_fst_NoDup : forall (l : list (nat * option N)), (forall n, length (filter (fun x => fst x =? n) l) <= 1) -> NoDup (map fst l).
Proof.
  induction l as [|[k e] l IH]; intro H; cbn; [constructor|]. constructor.
  - intro X. apply in_map_iff in X. destruct X as ([k' e'] & E & HI). cbn in E. subst k'. specialize (H k). cbn in H.
    rewrite Nat.eqb_refl in H. cbn in H.
    assert (In (k, e') (filter (fun x => fst x =? k) l)) by (apply filter_In; split; [assumption|apply Nat.eqb_refl]).
    destruct (filter (fun x => fst x =? k) l); [contradiction|cbn in H; lia].
  - apply IH. intro n. specialize (H n). cbn in H. destruct (k =? n); cbn in H; lia.
Qed.

(** ** C71 *)

(** The handler of a request ends at most once, and only if the request was read; a handler that started and is not
    running has ended. *)
Theorem C71_ends :
  forall K lim ov c l ls m, limOk lim -> run (mstep K lim ov) (minit c l) ls = Some m ->
  NoDup (map fst (ends ls)) /\
  (forall n e, In (n, e) (ends ls) -> n < length (cmdsRead ls)) /\
  (forall n, In n (map fst (ends ls)) <-> In (EStart n) (evs (sc m)) /\ ~ inHandler m n).
Proof.
  intros K lim ov c l ls m HL H. assert (I := minv_reach _ _ _ _ _ _ _ HL H).
  assert (EL := fun n e => ends_lt _ _ _ _ _ _ n e I). destruct I as [IS IB IC IN ICM IE IP ICN IRD ILA IBE IOB].
  assert (ONE : forall n, startCnt (evs (sc m)) n <= 1).
  { intro n. destruct IS as [SE CH SP RU TO RD CL SL FI OR LT FS CN CR LI BO]. specialize (CN n). lia. }
  assert (FI : forall n, In n (map fst (ends ls)) <-> 1 <= finCnt (evs (sc m)) n).
  { intro n. rewrite <- IE. split.
    - intro X. apply in_map_iff in X. destruct X as ([k e] & E & HI). cbn in E. subst k.
      assert (In (n, e) (filter (fun x => fst x =? n) (ends ls))) by (apply filter_In; split; [assumption|apply Nat.eqb_refl]).
      destruct (filter (fun x => fst x =? n) (ends ls)); [contradiction|cbn; lia].
    - intro X. destruct (filter (fun x => fst x =? n) (ends ls)) as [|[k e] r] eqn:E; [cbn in X; lia|].
      assert (In (k, e) (filter (fun x => fst x =? n) (ends ls))) as Y by (rewrite E; left; reflexivity).
      apply filter_In in Y. destruct Y as [Y1 Y2]. cbn in Y2. apply Nat.eqb_eq in Y2. subst k. apply (in_map fst) in Y1. exact Y1. }
  split; [|split].
  - apply filter_fst_NoDup. intro n. rewrite IE. specialize (IB n). specialize (ONE n). lia.
  - intros n e X. rewrite IN. eapply EL. eassumption.
  - intro n. rewrite FI. specialize (IB n). specialize (ONE n). rewrite <- startCnt_In. unfold inHandler.
    assert (RN : In n (running (sc m)) <-> 1 <= cnt (running (sc m)) n) by (symmetry; apply cnt_In).
    assert (BN : sv (sc m) = SBlk n <-> 1 <= blkCnt (sv (sc m)) n).
    { destruct (sv (sc m)); cbn; try (split; [discriminate|lia]). destruct (Nat.eqb_spec n0 n) as [->|]; split; intro; try lia; try reflexivity. congruence. }
    rewrite RN, BN. lia.
Qed.
Print Assumptions C71_ends.

(** CounterMetric: for every command and every outcome, the number of handlers of requests with this command that ended this
    way (while the deferred function of a blocking handler has not run, that one is missing), and one more count, under
    "readFrames", exactly when reading has ended.  Without CounterMetric nothing is counted. *)
Theorem C71_counter :
  forall K lim ov c l ls m, limOk lim -> run (mstep K lim ov) (minit c l) ls = Some m ->
  match counterM (mx m) with
  | None => c = false
  | Some f => c = true /\
    (forall cmd e, let k := countOf (MCmd cmd, e) (map (labelOf (cmdsRead ls)) (ends ls)) in
       f (MCmd cmd, e) <= k <= S (f (MCmd cmd, e)) /\ (~ deferPending m -> f (MCmd cmd, e) = k)) /\
    (rd (sc m) <> RExit -> forall e, f (MReadFrames, e) = 0) /\
    (rd (sc m) = RExit -> exists e0, forall e, f (MReadFrames, e) = if merror_eqb e e0 then 1 else 0)
  end.
Proof.
  intros K lim ov c l ls m HL H. assert (I := minv_reach _ _ _ _ _ _ _ HL H). destruct (mx_kept _ _ _ _ _ _ _ H) as [MK _].
  destruct I as [IS IB IC IN ICM IE IP ICN IRD ILA IBE IOB]. destruct (counterM (mx m)) as [f|] eqn:E; [|apply MK; reflexivity].
  split; [destruct c; [reflexivity|destruct MK as [_ MK]; discriminate (MK eq_refl)]|]. split; [|exact (IRD f eq_refl)].
  intros cmd e. specialize (ICN f eq_refl cmd e). cbv zeta. split.
  - unfold pendCnt in ICN. destruct (sv (sc m)); try lia. destruct (mlabels_eqb _ _) in ICN; lia.
  - intro NP. rewrite pendCnt_not in ICN; [lia|]. intros n X. apply NP. exists n. assumption.
Qed.
Print Assumptions C71_counter.

(** LatencyMetric: as many observations per command and outcome, and each observation is the time from the start of the
    handler to its end (for a blocking request: to the deferred function). *)
Theorem C71_latency :
  forall K lim ov c l ls m, limOk lim -> run (mstep K lim ov) (minit c l) ls = Some m ->
  match latencyM (mx m) with
  | None => l = false
  | Some obs => l = true /\
    (forall cmd e, let k := countOf (MCmd cmd, e) (map (labelOf (cmdsRead ls)) (ends ls)) in
       countOf (MCmd cmd, e) (map fst obs) <= k <= S (countOf (MCmd cmd, e) (map fst obs)) /\
       (~ deferPending m -> countOf (MCmd cmd, e) (map fst obs) = k)) /\
    (forall lab d, In (lab, d) obs -> exists n err l1 x l2 y l3 m1 m2,
       ls = l1 ++ x :: l2 ++ y :: l3 /\ lab = labelOf (cmdsRead ls) (n, err) /\
       run (mstep K lim ov) (minit c l) l1 = Some m1 /\ mstep K lim ov m1 x = Some m2 /\
       ~ In (EStart n) (evs (sc m1)) /\ In (EStart n) (evs (sc m2)) /\
       (y = MEnd n err \/ (y = MDo SLDefer /\ In (n, err) (ends (l1 ++ x :: l2)))) /\ d = ticks (x :: l2))
  end.
Proof.
  intros K lim ov c l ls m HL H. assert (I := minv_reach _ _ _ _ _ _ _ HL H). destruct (mx_kept _ _ _ _ _ _ _ H) as [_ MK].
  destruct I as [IS IB IC IN ICM IE IP ICN IRD ILA IBE IOB]. destruct (latencyM (mx m)) as [obs|] eqn:E; [|apply MK; reflexivity].
  split; [destruct l; [reflexivity|destruct MK as [_ MK]; discriminate (MK eq_refl)]|]. split.
  - intros cmd e. specialize (ILA obs eq_refl cmd e). cbv zeta. split.
    + unfold pendCnt in ILA. destruct (sv (sc m)); try lia. destruct (mlabels_eqb _ _) in ILA; lia.
    + intro NP. rewrite pendCnt_not in ILA; [lia|]. intros n X. apply NP. exists n. assumption.
  - intros lab d HI. destruct (IOB obs eq_refl lab d HI) as (n & err & l1 & y & l2 & t & A & B & C & D & F & G).
    destruct F as (l1a & x & l1b & m1 & m2 & E1 & E2 & E3 & E4 & E5 & E6).
    exists n, err, l1a, x, l1b, y, l2, m1, m2. split; [rewrite A, E1, <- app_assoc; reflexivity|]. split; [assumption|].
    split; [assumption|]. split; [assumption|]. split; [assumption|]. split; [assumption|]. split.
    + destruct C as [C|C]; [left; assumption|right]. split; [assumption|]. subst y. rewrite ends_app in B. cbn in B. rewrite app_nil_r in B.
      rewrite <- E1. assumption.
    + rewrite G, E6, E1, ticks_app. lia.
Qed.
Print Assumptions C71_latency.

(** Concrete case: a blocking request that panics with value 9 and two nonblocking ones that overlap with it; the reader
    ends with error 5. *)
Definition exM : list mlabel :=
  [MRead false 7; MDo SLEnq; MDo SLRecv; MDo (SLStart 0); MTick 3; MRead true 8; MDo SLEnq; MDo SLRecv; MTick 2; MEnd 0 None;
   MBlkEnd 1 (Some 9%N); MTick 1; MDo SLDefer; MDo SLReadMore; MDo SLGate; MRead false 7; MDo SLEnq; MReadErr 5; MDo SLRecv; MDo (SLStart 2); MEnd 2 (Some 9%N)].
Example C71_case :
  match run (mstep 4 None false) (minit true true) exM with
  | Some m => ~ deferPending m /\
      ends exM = [(0, None); (1, Some 9%N); (2, Some 9%N)] /\
      match counterM (mx m), latencyM (mx m) with
      | Some f, Some obs => f (MCmd 7, MNil) = 1 /\ f (MCmd 7, MPanic 9) = 1 /\ f (MCmd 8, MPanic 9) = 1 /\ f (MCmd 8, MNil) = 0 /\
          f (MReadFrames, MIO 5) = 1 /\ obs = [((MCmd 7, MNil), 5%N); ((MCmd 8, MPanic 9), 3%N); ((MCmd 7, MPanic 9), 0%N)]
      | _, _ => False
      end
  | None => False
  end.
Proof. vm_compute. split; [intros (n & X); discriminate X|]. repeat split. Qed.
