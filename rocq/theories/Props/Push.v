(** C73: what the server pushes reaches the subscriber. *)
From Coq Require Import ZifyBool ZifyNat ZifyN.
From Verif Require Import Model.GoBase Model.Machine Model.Qrpc Model.Reader Model.FrameReader Model.Stream Model.Pair Model.Call Model.Push
  Proofs.StreamP Proofs.StreamI Proofs.PairP Proofs.CallP Proofs.CallQ Proofs.CallR Proofs.CallS Proofs.PushP Proofs.PushQ Props.Stream Props.Pair.
From Verif Require Model.Response Props.Response.
Open Scope N_scope.

(** the messages among the frames of a connection: push flag set, no reset *)
Definition messages (l : list Frame) : list Frame := filter (fun f => IsPush (fFlags f) && negb (IsRst (fFlags f))) l.
(** every message is one frame, not a stream *)
Definition single (l : list Frame) : Prop := Forall (fun f => IsPush (fFlags f) = true -> IsRst (fFlags f) = false -> IsDone (fFlags f) = true) l.
(** the client has read all bytes the server sent and works on none of them *)
Definition allRead (j : cst) : Prop :=
  flight (pp j) false = [] /\ pend (rx (pp j) true) = [] /\ rpc (ep (pp j) true) = RIdle /\ ret j = None.

(** SubFunc is called with the messages in the order the server sent them, each once, none left out; when the client has read
    all bytes it was called with all of them. *)
Definition C73_statement : Prop :=
  forall lim ls u, sane lim -> run (ustep lim true) uinit ls = Some u -> single (sent (pp (uj u)) false) ->
  exists rest, messages (sent (pp (uj u)) false) = subs u ++ rest /\ (allRead (uj u) -> rest = []).

(** the writes of the client; it does not write a frame that is both a push and a reset *)
Definition client_fl (l : clabel) : option FrameFlag :=
  match l with
  | JCall stream _ fl _ => Some (if stream then ToStream fl else ToNonStream fl)
  | JOther _ _ fl _ _ => Some fl
  | _ => None
  end.
Definition no_push_reset (ls : list clabel) : Prop := forall l fl, In l ls -> client_fl l = Some fl -> ~ (IsPush fl = true /\ IsRst fl = true).

Lemma npr_okl : forall ls, no_push_reset ls -> Forall (fun l => okl l = true) ls.
Proof.
  intros ls H. apply Forall_forall. intros l HL. specialize (H l). unfold okl, prf. destruct l; try reflexivity; cbn [client_fl] in H;
    apply negb_true_iff, not_true_is_false; intro X; apply andb_true_iff in X; destruct X; eapply H; eauto.
Qed.
Lemma single_in : forall lim u, sane lim -> U lim u -> single (sent (pp (uj u)) false) -> Forall onePush (inlog (ep (pp (uj u)) true)).
Proof.
  intros lim u HS HU H. pose proof (rpair lim (sane_ok lim HS) _ (uu_r _ _ HU)) as PI. destruct (q_wire _ _ PI false) as (rest & W & _). cbn [negb] in W.
  unfold single in H. rewrite W in H. apply Forall_app in H. destruct H as [H _]. eapply Forall_impl; [|exact H]. intros f X. exact X.
Qed.

(** Missing for the full statement: it fails when the client writes a frame with both PushFlag and StreamRstFlag (C73_refuted). *)
Theorem C73_subscriber_partial :
  forall lim ls u, sane lim -> run (ustep lim true) uinit ls = Some u -> no_push_reset ls -> single (sent (pp (uj u)) false) ->
  exists rest, messages (sent (pp (uj u)) false) = subs u ++ rest /\ (allRead (uj u) -> rest = []).
Proof.
  intros lim ls u HS R NP SG. pose proof (u_run lim (sane_ok lim HS) ls u R (npr_okl ls NP)) as HU. pose proof (single_in lim u HS HU SG) as F.
  destruct (u_fl _ _ _ (uu_i _ _ HU) F) as (_ & FL & _). pose proof (rpair lim (sane_ok lim HS) _ (uu_r _ _ HU)) as PI.
  destruct (q_wire _ _ PI false) as (rest & W & B). cbn [negb] in *.
  exists (retp (ret (uj u)) ++ inflight (ep (pp (uj u)) true) ++ messages rest). split.
  - rewrite W. unfold messages at 1. rewrite filter_app. fold (messages rest). change (filter _ (inlog (ep (pp (uj u)) true))) with (filter pmsg (inlog (ep (pp (uj u)) true))).
    rewrite FL, <- !app_assoc. reflexivity.
  - intros (Q1 & Q2 & Q3 & Q4). rewrite Q4. unfold inflight. rewrite Q3. cbn. rewrite Q1, Q2 in B. destruct rest as [|f rest]; [reflexivity|exfalso].
    unfold wires in B. cbn [map concat app] in B. pose proof (wlen_pos f) as L. unfold wlen in L. symmetry in B. apply app_eq_nil in B. destruct B as [B _]. rewrite B in L. cbn in L. lia.
Qed.
Print Assumptions C73_subscriber_partial.

(** A message that was read does not keep the reader: by its own steps alone, whatever the writer and the other goroutines do
    or do not do, SubFunc is called with every message read so far and the reader is free for the next frame. *)
Theorem C73_not_blocked_partial :
  forall lim ls u, sane lim -> run (ustep lim true) uinit ls = Some u -> no_push_reset ls -> single (sent (pp (uj u)) false) ->
  let st := ep (pp (uj u)) true in
  panicked st = false -> rpc st <> RExit -> Response.rdAlive (rr (uj u)) = true -> messages (inlog st) <> subs u ->
  exists ls' u', Forall (fun l => l = JPair (PLoc true LRStep) \/ l = JLook) ls' /\ run (ustep lim true) u ls' = Some u' /\
    rpc (ep (pp (uj u')) true) = RIdle /\ ret (uj u') = None /\ subs u' = messages (inlog st).
Proof.
  intros lim ls u HS R NP SG st EP NX RA NE. pose proof (u_run lim (sane_ok lim HS) ls u R (npr_okl ls NP)) as HU. pose proof (single_in lim u HS HU SG) as F.
  exact (finish lim (sane_ok lim HS) u HU F EP RA NX NE).
Qed.
Print Assumptions C73_not_blocked_partial.

(** No call gets a message as its answer, whatever the client writes. *)
Theorem C73_not_an_answer :
  forall lim j r f, sane lim -> reachable (cstep lim) cinit j -> In (Some f) (Response.gots (rr j) r) -> IsPush (fFlags f) = false.
Proof.
  intros lim j r f HS R HG. pose proof (reach_call lim (sane_ok lim HS) j R) as I. destruct (v_resp _ _ I) as (ls & A & B & C).
  destruct (Response.C23_own_frame true ls (rr j) r f A HG) as [F1 F2]. destruct (B f F2) as (P1 & P2 & G). assumption.
Qed.
Print Assumptions C73_not_an_answer.

(** Without a subscriber messages go nowhere: the record stays empty. *)
Theorem C73_no_subscriber : forall lim ls u, run (ustep lim false) uinit ls = Some u -> subs u = [].
Proof.
  intros lim ls u R. assert (H : reachable (ustep lim false) uinit u) by (exists ls; exact R). clear ls R. revert u H.
  apply (reachable_inv (ustep lim false) (fun u => subs u = [])); [reflexivity|]. intros u l u' H E. unfold ustep in E. destruct (cstep lim (uj u) l); [|discriminate].
  assert (G : given false (uj u) l = []) by (unfold given; destruct l; try reflexivity; destruct (ret (uj u)); [rewrite andb_false_r|]; reflexivity).
  destruct l; injection E as <-; cbn [given] in G; cbn [subs]; rewrite ?H, ?G; reflexivity.
Qed.
Print Assumptions C73_no_subscriber.

(** The numbers GetPushID gives out, fewer than 2^64 of them, are pairwise different and not 0. *)
Theorem C73_push_ids : forall n, N.of_nat n < 2 ^ 64 -> NoDup (pushIDs n 0) /\ ~ In 0 (pushIDs n 0) /\ length (pushIDs n 0) = n.
Proof.
  assert (G : forall n c, c + N.of_nat n < 2 ^ 64 -> NoDup (pushIDs n c) /\ (forall x, In x (pushIDs n c) -> c < x) /\ length (pushIDs n c) = n).
  { induction n as [|n IH]; intros c H; cbn [pushIDs getPushID].
    - split; [constructor|]. split; [contradiction|reflexivity].
    - assert (E : u64 (c + 1) = c + 1) by (apply N.mod_small; lia). rewrite E. destruct (IH (c + 1)) as (A & B & C); [lia|]. split; [|split].
      + constructor; [|assumption]. intro X. apply B in X. lia.
      + intros x [<-|X]; [lia|]. apply B in X. lia.
      + cbn. rewrite C. reflexivity. }
  intros n H. destruct (G n 0) as (A & B & C); [lia|]. split; [assumption|]. split; [|assumption]. intro X. apply B in X. lia.
Qed.
Print Assumptions C73_push_ids.

(** ** cases *)
Definition rstep_ (n : nat) : list clabel := repeat (JPair (PLoc true LRStep)) n.
Definition push (id : N) (pay : bytes) : list clabel := [JServer id 5 PushFlag false pay; JPair (PLoc false LWStep)].
(** two messages under one id with an answer of a call in between *)
Definition mixed : list clabel :=
  [JCall false 7 0 [1]; JTake 0] ++ repeat (JPair (PLoc true LWStep)) 4 ++ map JResp [Response.PRegister; Response.PWrite; Response.PAnswer; Response.PAnswer] ++
  push 3 [1] ++ [JPair (PArrive false 17); JPair (PRead false)] ++ repeat (JPair (PLoc false LRStep)) 6 ++
  [JAnswer 0 8 0 [9]] ++ repeat (JPair (PLoc false LWStep)) 8 ++ push 3 [2] ++
  [JPair (PArrive true 100); JPair (PRead true)] ++ rstep_ 10 ++ [JLook; JPair (PRead true)] ++ rstep_ 10 ++ [JLook] ++ map JResp [Response.PHand; Response.PGet 0] ++
  [JPair (PRead true)] ++ rstep_ 10 ++ [JLook].
Example C73_case : match run (ustep (fun _ => 0%Z) true) uinit mixed with Some u =>
    subs u = [mkFrame 3 PushFlag 5 [1]; mkFrame 3 PushFlag 5 [2]] /\ length (sent (pp (uj u)) false) = 3%nat /\
    Response.gots (rr (uj u)) 0 = [Some (mkFrame 3 0 8 [9])] /\ allRead (uj u) /\ panicked (ep (pp (uj u)) true) = false
  | None => False end /\ no_push_reset mixed.
Proof.
  split; [vm_compute; repeat split|]. intros l fl HI HC [A B]. revert HI HC. unfold mixed. rewrite !in_app_iff. cbn.
  intros H HC. repeat (destruct H as [H|H]; [subst l; try discriminate HC; injection HC as <-; vm_compute in A; discriminate|]).
  repeat match goal with H : _ \/ _ |- _ => destruct H as [H|H] end; try contradiction; subst l; try discriminate HC; injection HC as <-; vm_compute in A; discriminate.
Qed.
(** a message just read, the reader in the middle of it *)
Example C73_not_blocked_case : match run (ustep (fun _ => 0%Z) true) uinit (push 3 [1] ++ [JPair (PArrive true 100); JPair (PRead true)] ++ rstep_ 3) with Some u =>
    panicked (ep (pp (uj u)) true) = false /\ rpc (ep (pp (uj u)) true) = RCl2 0 KRet /\ Response.rdAlive (rr (uj u)) = true /\
    messages (inlog (ep (pp (uj u)) true)) = [mkFrame 3 PushFlag 5 [1]] /\ subs u = []
  | None => False end.
Proof. vm_compute. repeat split. Qed.
Example C73_ids_case : pushIDs 3 0 = [1; 2; 3].
Proof. reflexivity. Qed.

(** The client writes a push reset under the id of a message while its reader is at it: the writer closes the reader's stream,
    which stays in the table for a moment; the next message with this id is taken for a frame of it and dropped. *)
Definition dropped : list clabel :=
  push 3 [1] ++ push 3 [2] ++ [JPair (PArrive true 100); JPair (PRead true)] ++ rstep_ 4 ++
  [JOther 3 0 (PushFlag + StreamRstFlag) false []] ++ repeat (JPair (PLoc true LWStep)) 4 ++ rstep_ 3 ++ [JLook; JPair (PRead true)] ++ rstep_ 3 ++
  repeat (JPair (PLoc true LWStep)) 3 ++ rstep_ 1.
Theorem C73_refuted : ~ C73_statement.
Proof.
  intro H. destruct (run (ustep (fun _ => 0%Z) true) uinit dropped) as [u|] eqn:E; [|vm_compute in E; discriminate].
  specialize (H (fun _ => 0%Z) dropped u ltac:(intro; cbn; lia) E).
  assert (X : match run (ustep (fun _ => 0%Z) true) uinit dropped with Some u =>
    sent (pp (uj u)) false = [mkFrame 3 PushFlag 5 [1]; mkFrame 3 PushFlag 5 [2]] /\ subs u = [mkFrame 3 PushFlag 5 [1]] /\ allRead (uj u)
    | None => False end) by (vm_compute; repeat split).
  rewrite E in X. destruct X as (X1 & X2 & X3). rewrite X1, X2 in H. destruct H as (rest & A & B).
  - repeat constructor.
  - rewrite (B X3) in A. vm_compute in A. discriminate.
Qed.
Print Assumptions C73_refuted.
