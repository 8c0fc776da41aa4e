(** C83: one channel.Sender used by several goroutines. *)
From Coq Require Import Permutation.
From Verif Require Import Model.GoBase Model.Machine Model.ChanShared.
Open Scope N_scope.

(** the frames put on the wire, the messages of Sends, and those of the Sends that returned nil *)
Definition frames (l : list cev) : list (N * N * N * list N) := flat_map (fun e => match e with EPut k n c p => [(k, n, c, p)] | _ => [] end) l.
Definition sends (l : list cev) : list msg := flat_map (fun e => match e with ESend _ m => [m] | _ => [] end) l.
Definition returns (l : list cev) : list msg := flat_map (fun e => match e with ERet _ m _ => [m] | _ => [] end) l.
Definition oks (l : list cev) : list msg := flat_map (fun e => match e with ERet _ m true => [m] | _ => [] end) l.
(** how message m is to look as a frame of stream k: 24 bits of its cmd, its bytes, and their length with the header *)
Definition frameOf (k : N) (m : msg) : N * N * N * list N := (k, 12 + N.of_nat (length (m_bytes m)), m_cmd m mod 2 ^ 24, m_bytes m).

(** The full statement of C83: on one stream, the wire carries messages that were sent, whole, those of the Sends that returned nil
    and, of those still running, each at most once; and nothing after End's reset. *)
Definition C83_statement : Prop :=
  forall ls s, run cstep cinit ls = Some s ->
  (exists sent now more, frames (clog s) = map (frameOf 1) sent /\ Permutation sent (oks (clog s) ++ now) /\ Permutation (sends (clog s)) (sent ++ more)) /\
  (forall l1 l2, clog s = l1 ++ EEnd :: l2 -> frames l2 = []).

(** two Sends in the shared buffer *)
Definition mixed : list clabel :=
  let a := mkMsg 1 [97] in let b := mkMsg 2 [98] in
  [LCall 0 a; LLock 0; LLook 0; LReq 0 true; LSet 0; LCall 0 a; LCall 1 b; LLock 0; LLock 1; LLook 0; LLook 1; LStart 0; LStart 1; LBytes 0; LBytes 1; LLen 0; LPut 0 true].

Lemma mixed_frames : option_map (fun s => frames (clog s)) (run cstep cinit mixed) = Some [(1, 13, 1, [97]); (1, 14, 2, [97; 98])].
Proof. vm_compute. reflexivity. Qed.

Theorem C83_refuted : ~ C83_statement.
Proof.
  intro H. pose proof mixed_frames as M. destruct (run cstep cinit mixed) as [s|] eqn:R; [|discriminate M]. injection M as M.
  destruct (H mixed s R) as [(sent & now & more & A & _ & B) _]. rewrite M in A.
  assert (S : option_map (fun s => sends (clog s)) (run cstep cinit mixed) = Some [mkMsg 1 [97]; mkMsg 1 [97]; mkMsg 2 [98]]) by (vm_compute; reflexivity).
  rewrite R in S. injection S as S. rewrite S in B.
  destruct sent as [|x [|y [|z sent]]]; try discriminate A. injection A as _ _ _ _ _ A.
  assert (I : In y [mkMsg 1 [97]; mkMsg 1 [97]; mkMsg 2 [98]]) by (eapply Permutation_in; [apply Permutation_sym; exact B|]; right; left; reflexivity).
  destruct I as [I|[I|[I|[]]]]; rewrite <- I in A; discriminate A.
Qed.
Print Assumptions C83_refuted.

(** ... the length field may be wrong, so that the peer takes payload for a header *)
Theorem C83_wrong_length :
  option_map (fun s => frames (clog s)) (run cstep cinit
    (let a := mkMsg 1 [97] in let b := mkMsg 2 [98] in
     [LCall 0 a; LLock 0; LLook 0; LReq 0 true; LSet 0; LCall 0 a; LCall 1 b; LLock 0; LLock 1; LLook 0; LLook 1; LStart 0; LStart 1; LBytes 0; LLen 0; LBytes 1; LPut 0 true])) =
  Some [(1, 13, 1, [97]); (1, 13, 2, [97; 98])].
Proof. vm_compute. reflexivity. Qed.
Print Assumptions C83_wrong_length.

(** ... and two first Sends open two streams, of which the Receiver sees one *)
Theorem C83_two_streams :
  option_map (fun s => (frames (clog s), sw s)) (run cstep cinit
    (let a := mkMsg 1 [97] in let b := mkMsg 2 [98] in
     [LCall 0 a; LCall 1 b; LLock 0; LLock 1; LLook 0; LLook 1; LReq 0 true; LReq 1 true; LSet 1; LSet 0])) =
  Some ([(1, 13, 1, [97]); (2, 13, 2, [98])], Some 1).
Proof. vm_compute. reflexivity. Qed.
Print Assumptions C83_two_streams.

(** ** The lock *)
Definition outside (p : tpc) : Prop := match p with TIdle | TLock _ => True | _ => False end.

Record linv (s : cst) : Prop := {
  l_held : forall t, outside (thr s t) \/ In t (held s);
  l_closed : closed s = true -> held s = [];
  l_end : In EEnd (clog s) -> closed s = true;
  l_after : forall l1 l2, clog s = l1 ++ EEnd :: l2 -> frames l2 = [] }.

Lemma snoc_case : forall (l l1 l2 : list cev) x e, l ++ [x] = l1 ++ e :: l2 -> (l1 = l /\ e = x /\ l2 = []) \/ exists l2', l2 = l2' ++ [x] /\ l = l1 ++ e :: l2'.
Proof.
  intros l l1 l2 x e H. destruct l2 as [|y l2 _] using rev_ind.
  - apply app_inj_tail in H. left. intuition.
  - right. rewrite app_comm_cons, app_assoc in H. apply app_inj_tail in H. destruct H as [-> ->]. eauto.
Qed.
Lemma frames_app : forall a b, frames (a ++ b) = frames a ++ frames b.
Proof. intros. apply flat_map_app. Qed.

Lemma in_remove_other : forall t u l, In t l -> t <> u -> In t (remove N.eq_dec u l).
Proof. intros. apply in_in_remove; assumption. Qed.

(** what one goroutine's move does to the invariant *)
Lemma linv_move : forall s t p s' es, linv s -> ~ outside (thr s t) \/ frames es = [] ->
  clog s' = clog s ++ es -> (es = [] \/ exists e, es = [e] /\ e <> EEnd) -> closed s' = closed s -> thr s' = upd (thr s) t p ->
  (held s' = held s /\ (outside p \/ In t (held s)) \/ held s' = t :: held s /\ closed s = false \/ held s' = remove N.eq_dec t (held s) /\ outside p) -> linv s'.
Proof.
  intros s t p s' es I O L E C T H. destruct I as [I1 I2 I3 I4].
  assert (NF : closed s = true -> frames es = []).
  { intro X. destruct O as [O|O]; [|exact O]. specialize (I2 X). destruct (I1 t) as [Y|Y]; [contradiction|]. rewrite I2 in Y. contradiction. }
  split; rewrite ?C, ?L, ?T.
  - intro u. destruct (N.eq_dec u t) as [->|N]; [rewrite upd_eq|rewrite upd_neq by assumption].
    + destruct H as [[-> [H|H]]|[[-> _]|[-> H]]]; auto. right. left. reflexivity.
    + destruct (I1 u) as [X|X]; [auto|right]. destruct H as [[-> _]|[[-> _]|[-> _]]]; [assumption|right; assumption|apply in_remove_other; assumption].
  - intro X. destruct H as [[-> _]|[[_ H]|[-> _]]]; [auto|congruence|]. rewrite (I2 X). reflexivity.
  - intro X. apply in_app_or in X. destruct X as [X|X]; [auto|]. destruct E as [->|(e & -> & E)]; [contradiction|]. destruct X as [X|[]]. contradiction.
  - intros l1 l2 X. destruct E as [->|(e & -> & E)]; [rewrite app_nil_r in X; eauto|]. apply snoc_case in X. destruct X as [(_ & X & _)|(l2' & -> & X)]; [congruence|].
    rewrite frames_app, (I4 _ _ X). apply NF. apply I3. rewrite X. apply in_elt.
Qed.

Lemma linv_step : forall s l s', linv s -> cstep s l = Some s' -> linv s'.
Proof.
  intros s l s' I H. pose proof (l_held _ I) as HH.
  assert (IN : forall t, ~ outside (thr s t) -> In t (held s)) by (intros t N; destruct (HH t); [contradiction|assumption]).
  destruct l; cbn [cstep] in H.
  - destruct (thr s t) eqn:P; try discriminate H. injection H as <-. eapply (linv_move s t (TLock m) _ [ESend t m] I); auto; cbn; eauto. right. eexists. split; [reflexivity|discriminate].
  - destruct (thr s t) eqn:P; try discriminate H. destruct (closed s) eqn:C; injection H as <-.
    + eapply (linv_move s t TIdle _ [ERet t m false] I); auto; cbn; eauto. right. eexists. split; [reflexivity|discriminate].
    + eapply (linv_move s t (TLook m) _ [] I); auto; cbn; rewrite ?app_nil_r; auto.
  - destruct (thr s t) eqn:P; try discriminate H. injection H as <-.
    eapply (linv_move s t (match sw s with None => TReq m | Some w => TStart m w end) _ [] I); auto; cbn; rewrite ?app_nil_r; eauto. left. split; [reflexivity|right]. apply IN. rewrite P. intros [].
  - destruct (thr s t) eqn:P; try discriminate H. assert (N : In t (held s)) by (apply IN; rewrite P; intros []). destruct ok; injection H as <-.
    + eapply (linv_move s t (TSet m (Some (nstr s + 1))) _ [_] I); cbn; eauto. left. rewrite P. intros []. right. eexists. split; [reflexivity|discriminate].
    + eapply (linv_move s t (TSet m None) _ [] I); auto; cbn; rewrite ?app_nil_r; eauto.
  - destruct (thr s t) eqn:P; try discriminate H. injection H as <-.
    eapply (linv_move s t TIdle _ [_] I); cbn; eauto; cbn; auto. right. eexists. split; [reflexivity|discriminate].
  - destruct (thr s t) eqn:P; try discriminate H. injection H as <-. assert (N : In t (held s)) by (apply IN; rewrite P; intros []).
    eapply (linv_move s t (TBytes m w) _ [] I); auto; cbn; rewrite ?app_nil_r; eauto.
  - destruct (thr s t) eqn:P; try discriminate H. injection H as <-. assert (N : In t (held s)) by (apply IN; rewrite P; intros []).
    eapply (linv_move s t (TLen m w) _ [] I); auto; cbn; rewrite ?app_nil_r; eauto.
  - destruct (thr s t) eqn:P; try discriminate H. injection H as <-. assert (N : In t (held s)) by (apply IN; rewrite P; intros []).
    eapply (linv_move s t (TQueue m w) _ [] I); auto; cbn; rewrite ?app_nil_r; eauto.
  - destruct (thr s t) eqn:P; try discriminate H. assert (N : In t (held s)) by (apply IN; rewrite P; intros []). injection H as <-. destruct ok.
    + eapply (linv_move s t (TCut m w true) _ [_] I); cbn; eauto. left. rewrite P. intros []. right. eexists. split; [reflexivity|discriminate].
    + eapply (linv_move s t (TCut m w false) _ [] I); auto; cbn; rewrite ?app_nil_r; eauto.
  - destruct (thr s t) eqn:P; try discriminate H. injection H as <-.
    eapply (linv_move s t TIdle _ [_] I); cbn; eauto; cbn; auto. right. eexists. split; [reflexivity|discriminate].
  - destruct (held s) eqn:E; [|discriminate H]. destruct (closed s) eqn:C; [discriminate H|]. injection H as <-. destruct I as [I1 I2 I3 I4]. split; cbn.
    + exact HH.
    + auto.
    + auto.
    + intros l1 l2 X. destruct (match sw s with Some _ => reset | None => false end); [|eauto].
      apply snoc_case in X. destruct X as [(_ & _ & ->)|(l2' & -> & X)]; [reflexivity|].
      assert (Y : false = true) by (rewrite <- C; apply I3; rewrite X; apply in_elt). discriminate Y.
Qed.

(** Proved part of C83: nothing is put on the wire after End's reset, however many goroutines are sending.  Missing: that the
    frames are the messages sent when Sends overlap ([C83_refuted], [C83_wrong_length], [C83_two_streams]). *)
Theorem C83_end_partial : forall ls s l1 l2, run cstep cinit ls = Some s -> clog s = l1 ++ EEnd :: l2 -> frames l2 = [].
Proof.
  intros ls s l1 l2 R. refine (l_after s (run_inv cstep linv _ ls cinit s _ R) l1 l2); [intros; eapply linv_step; eassumption|].
  split; cbn; try tauto. intros m1 m2 H. destruct m1; discriminate H.
Qed.
Print Assumptions C83_end_partial.

(** ** Sends that do not overlap *)
Lemma sends_app : forall a b, sends (a ++ b) = sends a ++ sends b.
Proof. intros. apply flat_map_app. Qed.
Lemma returns_app : forall a b, returns (a ++ b) = returns a ++ returns b.
Proof. intros. apply flat_map_app. Qed.
Lemma oks_app : forall a b, oks (a ++ b) = oks a ++ oks b.
Proof. intros. apply flat_map_app. Qed.

(** when Send is called, every Send called before has returned *)
Definition alone (l : list cev) : Prop := forall l1 t m l2, l = l1 ++ ESend t m :: l2 -> length (sends l1) = length (returns l1).

(** the message a goroutine is sending, and whether it is on the wire *)
Definition doing (p : tpc) : list msg :=
  match p with TIdle => [] | TLock m | TLook m | TReq m | TSet m _ | TStart m _ | TBytes m _ | TLen m _ | TQueue m _ | TCut m _ _ => [m] end.
Definition onWire (p : tpc) : list msg := match p with TSet m (Some _) => [m] | TCut m _ true => [m] | _ => [] end.
(** what the shared fields are then *)
Definition fields (s : cst) (p : tpc) : Prop :=
  match p with
  | TReq _ | TSet _ None => sw s = None /\ nstr s = 0
  | TSet _ (Some w) => w = 1 /\ sw s = None /\ nstr s = 1 /\ b_pay (buf s 1) = []
  | TStart _ w => w = 1 /\ sw s = Some 1 /\ b_pay (buf s 1) = []
  | TBytes m w => w = 1 /\ sw s = Some 1 /\ b_cmd (buf s 1) = m_cmd m mod 2 ^ 24 /\ b_pay (buf s 1) = []
  | TLen m w => w = 1 /\ sw s = Some 1 /\ b_cmd (buf s 1) = m_cmd m mod 2 ^ 24 /\ b_pay (buf s 1) = m_bytes m
  | TQueue m w => w = 1 /\ sw s = Some 1 /\ b_len (buf s 1) = lenOf (m_bytes m) /\ b_cmd (buf s 1) = m_cmd m mod 2 ^ 24 /\ b_pay (buf s 1) = m_bytes m
  | TCut _ w _ => w = 1 /\ sw s = Some 1
  | TIdle | TLock _ | TLook _ => sw s = None /\ nstr s = 0 \/ sw s = Some 1 /\ b_pay (buf s 1) = []
  end.

(** t is the only goroutine in Send *)
Definition one (s : cst) (t : N) : Prop :=
  (forall u, u <> t -> thr s u = TIdle) /\ fields s (thr s t) /\
  sends (clog s) = returns (clog s) ++ doing (thr s t) /\ frames (clog s) = map (frameOf 1) (oks (clog s) ++ onWire (thr s t)).

Lemma cmd24_mod : forall c, cmd24 c = c mod 2 ^ 24.
Proof. intro c. unfold cmd24. change 0xffffff with (N.ones 24). apply N.land_ones. Qed.

Lemma alone_app : forall a b, alone (a ++ b) -> alone a.
Proof. intros a b H l1 t m l2 E. apply (H l1 t m (l2 ++ b)). rewrite E, <- app_assoc. reflexivity. Qed.

Lemma log_grows : forall s l s', cstep s l = Some s' -> exists es, clog s' = clog s ++ es.
Proof.
  intros s l s' H. destruct l; cbn [cstep] in H;
  repeat match type of H with context[match ?x with _ => _ end] => destruct x eqn:?; try discriminate H end;
  injection H as <-; cbn; eauto; exists []; rewrite app_nil_r; reflexivity.
Qed.

Lemma one_step : forall s t l s', one s t -> cstep s l = Some s' -> alone (clog s') -> exists t', one s' t'.
Proof.
  intros s t l s' O H A. destruct O as (O1 & O2 & O3 & O4).
  assert (ME : forall u p, thr s u = p -> p <> TIdle -> u = t).
  { intros u p E N. destruct (N.eq_dec u t) as [|D]; [assumption|]. rewrite (O1 u D) in E. congruence. }
  assert (OTH : forall p u, u <> t -> upd (thr s) t p u = TIdle) by (intros p u D; rewrite upd_neq by assumption; auto).
  destruct l as [u m|u|u|u ok|u|u|u|u|u ok|u|reset]; cbn [cstep] in H.
  - (* LCall *) destruct (thr s u) eqn:P; try discriminate H. injection H as <-. cbn in A.
    assert (L : length (sends (clog s)) = length (returns (clog s))) by (eapply (A (clog s) u m []); reflexivity).
    assert (D : doing (thr s t) = []). { rewrite O3, app_length in L. destruct (doing (thr s t)); [reflexivity|cbn in L; lia]. }
    assert (TI : thr s t = TIdle) by (destruct (thr s t); try discriminate D; reflexivity). rewrite TI in *.
    exists u. unfold one. cbn. rewrite upd_eq. cbn. repeat split.
    + intros v D'. rewrite upd_neq by assumption. destruct (N.eq_dec v t) as [->|]; auto.
    + exact O2.
    + rewrite sends_app, returns_app. cbn. cbn in O3. rewrite O3, !app_nil_r. reflexivity.
    + rewrite frames_app, oks_app, O4. cbn. rewrite !app_nil_r. reflexivity.
  - destruct (thr s u) as [|m| | | | | | | |] eqn:P; try discriminate H. pose proof (ME u _ P ltac:(discriminate)) as ->. rewrite P in *. exists t. cbn in O2, O3, O4.
    destruct (closed s); injection H as <-; unfold one; cbn; rewrite upd_eq; cbn; (split; [exact (OTH _)|]); (split; [exact O2|]).
    + rewrite sends_app, returns_app, frames_app, oks_app. cbn. rewrite O3, O4, !app_nil_r. split; reflexivity.
    + split; assumption.
  - destruct (thr s u) as [| |m| | | | | | |] eqn:P; try discriminate H. pose proof (ME u _ P ltac:(discriminate)) as ->. rewrite P in *. exists t. cbn in O2, O3, O4. injection H as <-.
    unfold one; cbn; rewrite upd_eq; (split; [exact (OTH _)|]). destruct O2 as [[O2 O5]|[O2 O5]]; rewrite O2; cbn; auto.
  - destruct (thr s u) as [| | |m| | | | | |] eqn:P; try discriminate H. pose proof (ME u _ P ltac:(discriminate)) as ->. rewrite P in *. exists t. cbn in O2, O3, O4.
    destruct ok; injection H as <-; unfold one; cbn; rewrite upd_eq; (split; [exact (OTH _)|]); cbn; destruct O2 as [O2 O5]; rewrite O2, O5; cbn.
    + rewrite ?upd_eq. cbn. split; [auto|]. rewrite sends_app, returns_app, frames_app, oks_app, O3, O4, cmd24_mod. cbn. rewrite !app_nil_r, map_app. split; reflexivity.
    + auto.
  - destruct (thr s u) as [| | | |m w| | | | |] eqn:P; try discriminate H. pose proof (ME u _ P ltac:(discriminate)) as ->. rewrite P in *. exists t. cbn in O2, O3, O4.
    injection H as <-. unfold one; cbn; rewrite upd_eq; (split; [exact (OTH _)|]); cbn. rewrite sends_app, returns_app, frames_app, oks_app, O3, O4.
    destruct w as [w|]; cbn; rewrite ?app_nil_r; [destruct O2 as (-> & _ & _ & O5)|destruct O2 as [_ O2]]; auto.
  - destruct (thr s u) as [| | | | |m w| | | |] eqn:P; try discriminate H. pose proof (ME u _ P ltac:(discriminate)) as ->. rewrite P in *. exists t. cbn in O2, O3, O4.
    injection H as <-. unfold one; cbn; rewrite upd_eq; (split; [exact (OTH _)|]); cbn. destruct O2 as (-> & O5 & O6). rewrite ?upd_eq. cbn. rewrite cmd24_mod. auto 8.
  - destruct (thr s u) as [| | | | | |m w| | |] eqn:P; try discriminate H. pose proof (ME u _ P ltac:(discriminate)) as ->. rewrite P in *. exists t. cbn in O2, O3, O4.
    injection H as <-. unfold one; cbn; rewrite upd_eq; (split; [exact (OTH _)|]); cbn. destruct O2 as (-> & O5 & O6 & O7). rewrite ?upd_eq. cbn. rewrite O7. auto 8.
  - destruct (thr s u) as [| | | | | | |m w| |] eqn:P; try discriminate H. pose proof (ME u _ P ltac:(discriminate)) as ->. rewrite P in *. exists t. cbn in O2, O3, O4.
    injection H as <-. unfold one; cbn; rewrite upd_eq; (split; [exact (OTH _)|]); cbn. destruct O2 as (-> & O5 & O6 & O7). rewrite ?upd_eq. cbn. rewrite O7. auto 8.
  - destruct (thr s u) as [| | | | | | | |m w|] eqn:P; try discriminate H. pose proof (ME u _ P ltac:(discriminate)) as ->. rewrite P in *. exists t. cbn in O2, O3, O4.
    destruct O2 as (-> & O5 & O6 & O7 & O8). injection H as <-. destruct ok; unfold one; cbn; rewrite upd_eq; (split; [exact (OTH _)|]); cbn; [|auto].
    split; [auto|]. rewrite sends_app, returns_app, frames_app, oks_app, O3, O4, O6, O7, O8. cbn. rewrite !app_nil_r, map_app. split; reflexivity.
  - destruct (thr s u) as [| | | | | | | | |m w ok] eqn:P; try discriminate H. pose proof (ME u _ P ltac:(discriminate)) as ->. rewrite P in *. exists t. cbn in O2, O3, O4.
    destruct O2 as (-> & O5). injection H as <-. unfold one; cbn; rewrite upd_eq; (split; [exact (OTH _)|]); cbn. rewrite ?upd_eq. cbn.
    rewrite sends_app, returns_app, frames_app, oks_app, O3, O4. destruct ok; cbn; rewrite !app_nil_r; auto.
  - destruct (held s); [|discriminate H]. destruct (closed s); [discriminate H|]. injection H as <-. exists t. unfold one. cbn. split; [assumption|]. split; [destruct (thr s t); exact O2|].
    destruct (match sw s with Some _ => reset | None => false end); [|auto]. rewrite sends_app, returns_app, frames_app, oks_app, O3, O4. cbn. rewrite !app_nil_r. auto.
Qed.

(** Proved part of C83: when no Send is called before the one before has returned, in whichever goroutines, and with End called at any
    moment in another goroutine, the frames on the wire are, in order, whole and on one stream, the messages of the Sends that
    returned nil, and possibly the one of the Send that is running. *)
Theorem C83_in_turn_partial : forall ls s, run cstep cinit ls = Some s ->
  (forall l1 t m l2, clog s = l1 ++ ESend t m :: l2 -> length (sends l1) = length (returns l1)) ->
  exists cur now, frames (clog s) = map (frameOf 1) (oks (clog s) ++ now) /\ sends (clog s) = returns (clog s) ++ cur /\ (length cur <= 1)%nat /\ (now = [] \/ now = cur).
Proof.
  intros ls s R A.
  assert (X : exists t, one s t).
  { revert s R A. induction ls as [|l ls IH] using rev_ind; intros s R A.
    - injection R as <-. exists 0. unfold one. cbn. auto.
    - rewrite run_app in R. destruct (run cstep cinit ls) as [s1|] eqn:R1; [|discriminate R]. cbn [run] in R. destruct (cstep s1 l) as [s2|] eqn:Q; [|discriminate R]. injection R as <-.
      destruct (log_grows _ _ _ Q) as (es & E). destruct (IH s1 eq_refl) as (t & O). { apply (alone_app _ es). rewrite <- E. exact A. }
      eapply one_step; eassumption. }
  destruct X as (t & O1 & O2 & O3 & O4). exists (doing (thr s t)), (onWire (thr s t)). repeat split; try assumption.
  - destruct (thr s t); cbn; lia.
  - destruct (thr s t) as [| | | |m [w|]| | | | |m w [|]]; cbn; auto.
Qed.
Print Assumptions C83_in_turn_partial.

(** three Sends in turn from two goroutines, one refused, End, and a Send after it *)
Example C83_case :
  option_map clog (run cstep cinit
    (let a := mkMsg 1 [97] in let b := mkMsg 0x1000002 [98; 98] in
     [LCall 0 a; LLock 0; LLook 0; LReq 0 true; LSet 0; LCall 1 b; LLock 1; LLook 1; LStart 1; LBytes 1; LLen 1; LPut 1 true; LCut 1;
      LCall 0 a; LLock 0; LLook 0; LStart 0; LBytes 0; LLen 0; LPut 0 false; LCut 0; LCall 1 a; LEnd true; LLock 1])) =
  Some (let a := mkMsg 1 [97] in let b := mkMsg 0x1000002 [98; 98] in
    [ESend 0 a; EPut 1 13 1 [97]; ERet 0 a true; ESend 1 b; EPut 1 14 2 [98; 98]; ERet 1 b true; ESend 0 a; ERet 0 a false; ESend 1 a; EEnd; ERet 1 a false]).
Proof. vm_compute. reflexivity. Qed.
