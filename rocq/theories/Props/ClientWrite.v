(** C52, C53: concurrent EndWrite on a client connection; a lost link is dialed again. *)
From Verif Require Import Model.GoBase Model.Machine Model.ClientWrite Spec.OrderSpec Proofs.ClientWriteP Proofs.ClientWriteQ.
Open Scope N_scope.

(** *** What can be observed *)

(** call w has been made *)
Definition called (s : cst) (w : N) : Prop := pc s w <> QIdle.
(** it has returned; [None]: without a result, with the context's error or ErrConnAlreadyClosed *)
Definition returned (s : cst) (w : N) (r : option cres) : Prop := pc s w = QDone r.
(** the frames on the wire, over all incarnations of the connection *)
Definition sent (s : cst) : list N := map snd (wire s).
(** no step of a call or of the writer is possible *)
Definition quiet (reconnect : bool) (cap : nat) (s : cst) : Prop := forall l t, inner l = true -> cstep reconnect cap s l <> Some t.

Lemma done_returned : forall s w, called s w -> ~ alive (pc s w) -> exists r, returned s w r.
Proof. unfold called, returned. intros s w A B. destruct (pc s w); cbn in B; try contradiction; try (contradiction B; exact I). eauto. Qed.

(** ** C52 *)

(** Frames reach the wire in the order they were queued, each at most once, also across reconnections. *)
Theorem C52_wire_order : forall reconnect cap up s, reachable (cstep reconnect cap) (cinit up) s -> subseq (sent s) (enq s) /\ NoDup (sent s).
Proof.
  intros rc cap up s HR. destruct (cinv_reachable rc cap up s HR) as [I _].
  assert (A : subseq (sent s) (enq s)). { eapply subseq_trans; [apply (i_ord rc s I)|]. unfold sent. rewrite <- (app_nil_r (map snd (wire s))) at 1. apply subseq_app; [apply subseq_refl|constructor]. }
  split; [assumption|]. eapply subseq_nodup; [eassumption|apply (i_enq rc s I)].
Qed.
Print Assumptions C52_wire_order.

(** A call that returns a result was queued, and the result says whether the frame was written. *)
Theorem C52_result_true : forall reconnect cap up s w r, reachable (cstep reconnect cap) (cinit up) s -> returned s w (Some r) ->
  (r = ROk <-> In w (sent s)) /\ In w (enq s).
Proof.
  intros rc cap up s w r HR H. destruct (cinv_reachable rc cap up s HR) as [I _].
  split; [apply (i_ans rc s I)|apply (i_ansq rc s I w r)]; right; left; exact H.
Qed.
Print Assumptions C52_result_true.

(** There is one result. *)
Theorem C52_one_result : forall reconnect cap s w r ls t, returned s w r -> run (cstep reconnect cap) s ls = Some t -> returned t w r.
Proof. intros rc cap s w r ls t H R. exact (done_stays rc cap w r ls s t H R). Qed.
Print Assumptions C52_one_result.

(** The full claim: from every state every call can still return. *)
Definition C52_statement : Prop := forall reconnect cap up s w, reachable (cstep reconnect cap) (cinit up) s -> called s w ->
  exists ls t r, run (cstep reconnect cap) s ls = Some t /\ returned t w r.

(** It is false of connections that reconnect.  A handler of an incoming frame (or a SubFunc) replies just after the link was
    lost: the select finds both the queue and the context ready and may take the queue; the writer has quit, loop waits for the
    handler before it dials, and the handler waits for the writer. *)
Definition handlerHang : list clabel :=
  [CLoop; CHandler 7; CRdQuit; CW YCtx; CLoop; CLoop; CHCall 7 0; CCall 0 XLoad; CCall 0 XSend].
(** The same in OnConnect, run by loop itself, and in OnDisconnect, where the context is always done. *)
Definition onConnectHang : list clabel := [CLCall 0; CRdQuit; CW YCtx; CCall 0 XLoad; CCall 0 XSend].
Definition onDisconnectHang : list clabel := [CLoop; CRdQuit; CW YCtx; CLoop; CLCall 0; CCall 0 XLoad; CCall 0 XSend].
(** And in any goroutine after Close, once a dial has failed. *)
Definition closeHang : list clabel := [CLoop; CClose; CRdQuit; CW YCtx; CLoop; CLoop; CLoop; CDial false; CStart 0; CCall 0 XLoad; CCall 0 XSend].

Lemma hang_facts : forall cap ls, (1 <= cap)%nat -> In ls [handlerHang; onConnectHang; onDisconnectHang; closeHang] ->
  exists s, run (cstep true cap) (cinit true) ls = Some s /\ wedged 0 s /\ gen s = 1%nat.
Proof.
  intros [|cap] ls HC HI; [lia|]. destruct (run (cstep true (S cap)) (cinit true) ls) as [s|] eqn:E.
  - exists s. split; [reflexivity|]. destruct HI as [<-|[<-|[<-|[<-|[]]]]]; vm_compute in E; inversion E; subst s; clear E;
      (split; [|vm_compute; reflexivity]); (split; [vm_compute; reflexivity|]; split; [exists 1%nat; vm_compute; reflexivity|]; split; [vm_compute; reflexivity|]).
    + left. split; [vm_compute; reflexivity|]. exists 7. split; [vm_compute; left; reflexivity|vm_compute; reflexivity].
    + right. left. split; [left|]; vm_compute; reflexivity.
    + right. left. split; [right|]; vm_compute; reflexivity.
    + right. right. vm_compute. reflexivity.
  - exfalso. destruct HI as [<-|[<-|[<-|[<-|[]]]]]; vm_compute in E; discriminate.
Qed.

Theorem C52_hangs : forall cap ls, (1 <= cap)%nat -> In ls [handlerHang; onConnectHang; onDisconnectHang; closeHang] ->
  exists s, run (cstep true cap) (cinit true) ls = Some s /\ called s 0 /\ forall ls' t r, run (cstep true cap) s ls' = Some t -> ~ returned t 0 r.
Proof.
  intros cap ls HC HI. destruct (hang_facts cap ls HC HI) as (s & R & W & _). exists s. split; [assumption|]. split.
  - destruct W as (_ & [g P] & _). unfold called. congruence.
  - intros ls' t r R' D. destruct (wedged_run cap 0 ls' s t W R') as [(_ & [g P] & _) _]. unfold returned in D. congruence.
Qed.
Print Assumptions C52_hangs.

Theorem C52_refuted : ~ C52_statement.
Proof.
  intros ST. destruct (C52_hangs 1 handlerHang) as (s & R & C & N); [lia|left; reflexivity|].
  destruct (ST true 1%nat true s 0 (ex_intro _ handlerHang R) C) as (ls & t & r & R' & D). exact (N ls t r R' D).
Qed.
Print Assumptions C52_refuted.

(** Without reconnecting, or with WriteFrameChSize 0, it holds in the strong sense: however the steps of calls and writer are
    interleaved there are only so many of them, and when none is left every call has returned — no matter how the link, the
    handlers and Close behave.  Missing: reconnecting connections with a buffered queue (next theorem and C52_hangs). *)
Theorem C52_every_schedule_finishes_partial : forall reconnect cap up s ls t, reconnect = false \/ cap = 0%nat ->
  reachable (cstep reconnect cap) (cinit up) s -> forallb inner ls = true -> run (cstep reconnect cap) s ls = Some t ->
  (length ls <= mu s)%nat /\ (quiet reconnect cap t -> forall w, called t w -> exists r, returned t w r).
Proof.
  intros rc cap up s ls t HC HR HI H. pose proof (cinv_reachable rc cap up s HR) as I. split.
  - pose proof (inner_bound rc cap ls s t I HI H). lia.
  - intros Q w CA. apply done_returned; [assumption|]. intros AL. destruct (progress rc cap t w (cinv_run rc cap ls s t I H) AL) as [(l & u & A & B)|(A & B & _)].
    + exact (Q l u A B).
    + destruct HC; [congruence|lia].
Qed.
Print Assumptions C52_every_schedule_finishes_partial.

(** So every call returns in the end. *)
Theorem C52_completes_partial : forall reconnect cap up s, reconnect = false \/ cap = 0%nat -> reachable (cstep reconnect cap) (cinit up) s ->
  exists ls t, forallb inner ls = true /\ run (cstep reconnect cap) s ls = Some t /\ forall w, called t w -> exists r, returned t w r.
Proof.
  intros rc cap up s HC HR. destruct (completes rc cap HC (mu s) s (le_n _) (cinv_reachable rc cap up s HR)) as (ls & t & A & B & C).
  exists ls, t. repeat split; auto. intros w CA. apply done_returned; auto.
Qed.
Print Assumptions C52_completes_partial.

(** When reconnecting, if Close has not been called and no handler and no callback is running, the library can bring all calls
    to an end by itself, given one successful dial. *)
Theorem C52_reconnect_completes_partial : forall cap up s, reachable (cstep true cap) (cinit up) s -> ctx s = false -> hrun s = [] -> lcall s = None ->
  exists ls t, forallb libStep ls = true /\ run (cstep true cap) s ls = Some t /\ forall w, called t w -> exists r, returned t w r.
Proof.
  intros cap up s HR HC HH HL. pose proof (cinv_reachable true cap up s HR) as I.
  destruct (to_healthy cap s I HC HH HL) as (l1 & s1 & F1 & R1 & H1 & _). pose proof (cinv_run true cap l1 s s1 I R1) as I1.
  destruct (healthy_completes true cap (mu s1) s1 (le_n _) I1 H1) as (l2 & t & F2 & R2 & _ & N).
  exists (l1 ++ l2), t. rewrite forallb_app, F1, (inner_lib l2 F2). split; [reflexivity|]. rewrite run_app, R1. split; [assumption|]. intros w CA. apply done_returned; auto.
Qed.
Print Assumptions C52_reconnect_completes_partial.

(** On a link that works, no dial is needed and every schedule without failures does: only so many steps, and then all have returned. *)
Theorem C52_link_up_completes : forall reconnect cap up s, reachable (cstep reconnect cap) (cinit up) s -> healthy s ->
  exists ls t, forallb inner ls = true /\ run (cstep reconnect cap) s ls = Some t /\ healthy t /\ forall w, called t w -> exists r, returned t w r.
Proof.
  intros rc cap up s HR HH. destruct (healthy_completes rc cap (mu s) s (le_n _) (cinv_reachable rc cap up s HR) HH) as (ls & t & A & B & C & D).
  exists ls, t. repeat split; auto; try apply C. intros w CA. apply done_returned; auto.
Qed.
Print Assumptions C52_link_up_completes.

(** Three calls, two in one batch of which one write fails; the third is queued after the writer has quit and is written after
    the reconnection. *)
Example C52_example : exists s, run (cstep true 2) (cinit true)
  [CLoop; CStart 1; CStart 2; CStart 3; CCall 1 XLoad; CCall 2 XLoad; CCall 3 XLoad; CCall 1 XSend; CCall 2 XSend;
   CW YTake; CW YKeep; CW YTake; CW YKeep; CCall 3 XSend; CW (YErr 1); CW YGo; CW YGo; CW YGo; CCall 1 XResult; CCall 2 XResult;
   CRdQuit; CLoop; CLoop; CLoop; CDial true; CW YTake; CW YKeep; CW YDefault; CW YOk; CW YGo; CW YGo; CCall 3 XResult] = Some s /\
  sent s = [1; 3] /\ enq s = [1; 2; 3] /\ returned s 1 (Some ROk) /\ returned s 2 (Some RErr) /\ returned s 3 (Some ROk) /\ wire s = [(1%nat, 1); (2%nat, 3)].
Proof. eexists. repeat (split; [vm_compute; reflexivity|]). vm_compute. reflexivity. Qed.

(** The hypotheses of the partial theorems are met: a call waiting on a lost link of a connection that does not reconnect; one
    waiting in the queue of a connection that does. *)
Example C52_partial_case : exists s t, run (cstep false 1) (cinit true) [CStart 0; CCall 0 XLoad; CCall 0 XSend; CRdQuit] = Some s /\
  run (cstep false 1) s [CW YCtx; CCall 0 XCtx] = Some t /\ ~ quiet false 1 s /\ quiet false 1 t /\ returned t 0 None /\ sent t = [].
Proof.
  destruct (run (cstep false 1) (cinit true) [CStart 0; CCall 0 XLoad; CCall 0 XSend; CRdQuit]) as [s|] eqn:R; [|vm_compute in R; discriminate].
  destruct (run (cstep false 1) s [CW YCtx; CCall 0 XCtx]) as [t|] eqn:R2; [|vm_compute in R; inversion R; subst; vm_compute in R2; discriminate].
  exists s, t. split; [reflexivity|]. split; [assumption|].
  vm_compute in R. inversion R; subst s; clear R. vm_compute in R2. inversion R2; subst t; clear R2. split.
  - intros Q. eapply (Q (CW YTake)); [reflexivity|]. vm_compute. reflexivity.
  - split; [|split; vm_compute; reflexivity]. intros [] u HI; try discriminate HI; cbn [cstep].
    + unfold callStep. destruct w; destruct c; discriminate.
    + destruct c; discriminate.
Qed.
Example C52_reconnect_case : exists s, run (cstep true 1) (cinit true) [CRdQuit; CW YCtx; CStart 0; CCall 0 XLoad; CCall 0 XSend] = Some s /\
  ctx s = false /\ hrun s = [] /\ lcall s = None /\ wp s = WQuit /\ pc s 0 = QWaitR 1 /\ wq s = [0].
Proof. eexists. repeat (split; [vm_compute; reflexivity|]). vm_compute. reflexivity. Qed.

(** ** C53 *)

(** The link is lost: its context is done. *)
Definition lost (s : cst) : Prop := lctx s = true.
(** the number of successful dials *)
Definition dials (s : cst) : nat := gen s.

(** The full claim: a lost link of a reconnecting connection that is not closed can still be replaced, whatever handlers and callbacks do. *)
Definition C53_statement : Prop := forall cap up s, reachable (cstep true cap) (cinit up) s -> lost s -> ctx s = false ->
  exists ls t, run (cstep true cap) s ls = Some t /\ (dials s < dials t)%nat.

Theorem C53_never_reconnects : forall cap ls, (1 <= cap)%nat -> In ls [handlerHang; onConnectHang; onDisconnectHang] ->
  exists s, run (cstep true cap) (cinit true) ls = Some s /\ lost s /\ ctx s = false /\ forall ls' t, run (cstep true cap) s ls' = Some t -> dials t = dials s.
Proof.
  intros cap ls HC HI. destruct (hang_facts cap ls HC) as (s & R & W & _); [cbn in *; tauto|]. exists s. split; [assumption|].
  assert (F : lost s /\ ctx s = false). { destruct cap; [lia|]. destruct HI as [<-|[<-|[<-|[]]]]; vm_compute in R; inversion R; subst; split; vm_compute; reflexivity. }
  destruct F as [F1 F2]. repeat split; auto. intros ls' t R'. exact (proj2 (wedged_run cap 0 ls' s t W R')).
Qed.
Print Assumptions C53_never_reconnects.

Theorem C53_refuted : ~ C53_statement.
Proof.
  intros ST. destruct (C53_never_reconnects 1 handlerHang) as (s & R & L & C & N); [lia|left; reflexivity|].
  destruct (ST 1%nat true s (ex_intro _ handlerHang R) L C) as (ls & t & R' & D). rewrite (N ls t R') in D. lia.
Qed.
Print Assumptions C53_refuted.

(** With no handler and no callback running the library needs only a successful dial.  Missing: handlers and callbacks that are
    running, which may be waiting for the writer (C53_never_reconnects). *)
Theorem C53_reconnects_partial : forall cap up s, reachable (cstep true cap) (cinit up) s -> ctx s = false -> hrun s = [] -> lcall s = None ->
  exists ls t, forallb libStep ls = true /\ run (cstep true cap) s ls = Some t /\ dials t = S (dials s) /\ ~ lost t.
Proof.
  intros cap up s HR HC HH HL. destruct (to_healthy cap s (cinv_reachable true cap up s HR) HC HH HL) as (ls & t & A & B & (C & _) & D).
  exists ls, t. repeat split; auto. unfold lost. congruence.
Qed.
Print Assumptions C53_reconnects_partial.

(** No second link while the first is being served: it is dialed only after the reader, the writer and all handlers have returned. *)
Theorem C53_dial_after_all : forall reconnect cap up s ok t, reachable (cstep reconnect cap) (cinit up) s -> cstep reconnect cap s (CDial ok) = Some t ->
  wp s = WQuit /\ rd s = false /\ hrun s = [] /\ lost s.
Proof.
  intros rc cap up s ok t HR H. destruct (cinv_reachable rc cap up s HR) as [_ J]. cbn in H. destruct (lp s) eqn:E; try discriminate.
  pose proof (i_lp cap s J) as A. rewrite E in A. destruct A as (A & B & C). repeat split; auto. apply (i_h0 cap s J). auto.
Qed.
Print Assumptions C53_dial_after_all.

Example C53_case : exists s, run (cstep true 1) (cinit true) [CLoop; CHandler 7; CRdQuit; CW YCtx; CLoop; CLoop; CHEnd 7; CLoop] = Some s /\
  ctx s = false /\ hrun s = [] /\ lcall s = None /\ lost s /\ dials s = 1%nat.
Proof. eexists. repeat (split; [vm_compute; reflexivity|]). vm_compute. reflexivity. Qed.
