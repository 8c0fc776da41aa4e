(** C60: a frame that waits to be written stays as it was built. *)
From Verif Require Import Model.GoBase Model.Machine Model.BufReuse Proofs.BufReuseP.
Open Scope N_scope.

(** [b], written on connection [c] for EndWrite call [k], is what was built on [c] when [k] was called. *)
Definition asBuilt (s : bst) (c k : N) (b : bytes) : Prop :=
  exists x, calls s k = Some x /\ cconn x = c /\ b = built x.

(** the full claim: everything written is as it was built, on every connection of the process *)
Definition C60_statement : Prop :=
  forall recon s, reachable (bstep recon) binit s ->
  forall c k b, In (k, b) (wire s c) -> asBuilt s c k b.

(** Connection 1 takes a frame [65 65] into a batch.  Its context is cancelled (Serve has returned, the link is still open), so
    EndWrite gives up and the handler's writer goes back to the pool.  A handler of connection 2 gets it and builds a
    frame [66 66].  Now the batch of connection 1 is written. *)
Definition leakSchedule : list blabel :=
  [BGet 0 1; BBuild 0 [65; 65] None; BCall 0 0; BQueue 0; BTake 1; BDone 1; BGiveUp 0; BPut 0;
   BGet 0 2; BBuild 0 [66; 66] None; BWrite 1].

Theorem C60_other_connection_leaks : exists s,
  run (bstep (fun _ => false)) binit leakSchedule = Some s /\
  wire s 1 = [(0, [66; 66])] /\
  (forall k x, calls s k = Some x -> cconn x = 1 -> built x = [65; 65]) /\
  owner s 0 = Some 2 /\ show s (slice s 0) = [66; 66].
Proof.
  eexists. split; [vm_compute; reflexivity|]. split; [reflexivity|]. split; [|split; reflexivity].
  intros k x H _. cbn in H. destruct k; inversion H; reflexivity.
Qed.
Print Assumptions C60_other_connection_leaks.

Theorem C60_refuted : ~ C60_statement.
Proof.
  intro H. destruct C60_other_connection_leaks as (s & HR & HW & HB & _).
  destruct (H (fun _ => false) s (ex_intro _ leakSchedule HR) 1 0 [66; 66]) as (x & Hx & Hc & E).
  - rewrite HW. left. reflexivity.
  - rewrite (HB 0 x Hx Hc) in E. discriminate.
Qed.
Print Assumptions C60_refuted.

(** Partial: frames whose EndWrite did not give up.  Missing: frames whose EndWrite returned the error of the
    context while they were queued or being written, for which it is false. *)
Theorem C60_unchanged_partial : forall recon s c k b, reachable (bstep recon) binit s ->
  In (k, b) (wire s c) -> (forall x, calls s k = Some x -> gaveUp x = false) -> asBuilt s c k b.
Proof.
  intros recon s c k b HR Hin HG. destruct (i_wire recon s (reach_inv recon s HR) c k b Hin) as (x & Hx & Hc & [P|(_ & G & _)]).
  - exists x. auto.
  - rewrite (HG x Hx) in G. discriminate.
Qed.
Print Assumptions C60_unchanged_partial.

(** So nothing is wrong on a connection whose context is not done, whatever happens on others that share the pool; *)
Theorem C60_open_partial : forall recon s c k b, reachable (bstep recon) binit s ->
  done s c = false -> In (k, b) (wire s c) -> asBuilt s c k b.
Proof.
  intros recon s c k b HR HD Hin. pose proof (reach_inv recon s HR) as I.
  destruct (i_wire recon s I c k b Hin) as (x & Hx & Hc & [P|(_ & G & _)]); [exists x; auto|].
  destruct (i_gave recon s I k x Hx G) as [D _]. subst c. congruence.
Qed.
Print Assumptions C60_open_partial.

(** nor, at any time, on a client connection made with reconnecting. *)
Theorem C60_reconnecting_partial : forall recon s c k b, reachable (bstep recon) binit s ->
  recon c = true -> In (k, b) (wire s c) -> asBuilt s c k b.
Proof.
  intros recon s c k b HR HC Hin. destruct (i_wire recon s (reach_inv recon s HR) c k b Hin) as (x & Hx & Hc & [P|(_ & _ & G)]).
  - exists x. auto.
  - congruence.
Qed.
Print Assumptions C60_reconnecting_partial.

(** An EndWrite that returned nil had its own frame written, as built, on its own connection. *)
Theorem C60_nil_own_frame : forall recon s k x, reachable (bstep recon) binit s ->
  calls s k = Some x -> ph x = Returned -> gaveUp x = false -> res x = Some true -> In (k, built x) (wire s (cconn x)).
Proof. intros recon s k x HR Hx _ HG HRs. exact (i_nil recon s (reach_inv recon s HR) k x Hx HRs HG). Qed.
Print Assumptions C60_nil_own_frame.

(** A call that gave up did so because its connection's context was done. *)
Theorem C60_gives_up_only_when_done : forall recon s k x, reachable (bstep recon) binit s ->
  calls s k = Some x -> gaveUp x = true -> done s (cconn x) = true.
Proof. intros recon s k x HR Hx HG. exact (proj1 (i_gave recon s (reach_inv recon s HR) k x Hx HG)). Qed.
Print Assumptions C60_gives_up_only_when_done.

(** Two connections share a writer through the pool, its buffer grows, another writer's call gives up; all that is written on the
    connection that stays open is right, and both its calls return nil. *)
Example C60_example : exists s,
  run (bstep (fun _ => false)) binit
    [BGet 0 1; BBuild 0 [65; 65; 65] None; BCall 0 0; BQueue 0; BTake 1; BWrite 1; BReturn 0; BPut 0;
     BGet 0 2; BBuild 0 [66; 66; 67; 68] (Some 2%nat); BCall 1 0; BQueue 1;
     BGet 5 1; BBuild 5 [70] None; BCall 2 5; BQueue 2; BDone 1; BGiveUp 2; BPut 5;
     BTake 2; BWrite 2; BReturn 1] = Some s /\
  wire s 1 = [(0, [65; 65; 65])] /\ wire s 2 = [(1, [66; 66; 67; 68])] /\ done s 2 = false /\
  exists x, calls s 1 = Some x /\ ph x = Returned /\ gaveUp x = false /\ res x = Some true.
Proof. eexists. split; [vm_compute; reflexivity|]. repeat (split; [reflexivity|]). eexists. split; [reflexivity|]. repeat split. Qed.
