(** C43, C44: the channel package's Sender and Receiver. *)
From Verif Require Import Model.GoBase Model.Qrpc Model.Channel.
Open Scope N_scope.

(** ** C43 *)
(** a call on the qrpc layer that marks the end of this side of the stream (doc/frame.md: StreamEndFlag,
    or EndWrite(true)), and a reset, which ends it too *)
Definition marksEnd (w : wireCall) : bool :=
  match w with
  | WOpen _ f _ | WFrame _ _ f _ => N.testbit f 1
  | WNext _ _ fin => fin
  | WReset => true
  end.

(** What the interface promises about a history of one Sender. *)
Definition honoursEnd (h : list entry) : Prop :=
  forall cmd b conn ws r, In (Send cmd (Some b) true conn, ws, r) h -> r = SOk -> exists w, In w ws /\ marksEnd w = true.
Definition noEndByItself (h : list entry) : Prop :=
  forall cmd b conn ws r, In (Send cmd b false conn, ws, r) h -> forall w, In w ws -> marksEnd w = false.
Definition closedAfterEnd (h : list entry) : Prop :=
  forall pre conn ws r post, h = pre ++ (End conn, ws, r) :: post ->
    forall o ws' r', In (o, ws', r') post ->
      ws' = [] /\ match o with
                  | Send _ None _ _ => r' = SMarshalErr
                  | Send _ (Some _) _ _ => r' = ErrSenderClosed
                  | End _ => r' = ErrSenderCloseTwice
                  end.

Definition C43_statement : Prop :=
  (forall os, honoursEnd (csRun newClientSender os) /\ closedAfterEnd (csRun newClientSender os)) /\
  (forall requestID os, honoursEnd (ssRun requestID os) /\ closedAfterEnd (ssRun requestID os)).

(** client: the second message's end=true is dropped *)
Theorem C43_client_end_dropped_refuted : ~ (forall os, honoursEnd (csRun newClientSender os)).
Proof.
  intro H. specialize (H [Send 1 (Some [5]) false None; Send 2 (Some [6]) true None] 2 [6] None [WNext 2 [6] false] SOk).
  destruct H as (w & [<-|[]] & HM); [right; left; reflexivity|reflexivity|discriminate].
Qed.
Print Assumptions C43_client_end_dropped_refuted.

(** server: End twice is not refused by the Sender, and Send after End is passed on *)
Theorem C43_server_after_end_refuted : ~ (forall requestID os, closedAfterEnd (ssRun requestID os)).
Proof.
  intro H. specialize (H 3 [End None; End None] [] None [WReset] SOk [(End None, [WReset], SOk)] eq_refl (End None) [WReset] SOk).
  destruct H as [E _]; [left; reflexivity|discriminate].
Qed.
Print Assumptions C43_server_after_end_refuted.

Theorem C43_refuted : ~ C43_statement.
Proof. intros [H _]. apply C43_client_end_dropped_refuted. intro os. apply H. Qed.
Print Assumptions C43_refuted.

Lemma csRun_closed : forall os s, sclosed s = true -> forall o ws r, In (o, ws, r) (csRun s os) ->
  ws = [] /\ match o with
             | Send _ None _ _ => r = SMarshalErr
             | Send _ (Some _) _ _ => r = ErrSenderClosed
             | End _ => r = ErrSenderCloseTwice
             end.
Proof.
  induction os as [|o os IH]; intros s Hs o' ws r; [intros []|]. cbn [csRun].
  destruct o as [cmd [b|] fin conn|conn]; cbn [csStep]; rewrite ?Hs; cbn [In]; intros [E|Hin].
  all: try (eapply IH; eassumption).
  all: inversion E; subst; split; reflexivity.
Qed.

Lemma csRun_app : forall os s pre e post, csRun s os = pre ++ e :: post ->
  exists s1 os', csRun s1 os' = e :: post.
Proof.
  induction os as [|o os IH]; intros s pre e post H.
  - destruct pre; discriminate.
  - destruct pre as [|p pre].
    + cbn in H. exists s, (o :: os). exact H.
    + cbn [csRun] in H. destruct (csStep s o) as [[s' w] r] eqn:E. cbn in H. inversion H; subst. eapply IH. eassumption.
Qed.

(** Partial, client side: after End nothing is sent, Send returns ErrSenderClosed and a second End
    ErrSenderCloseTwice. *)
Theorem C43_client_closed_after_end_partial : forall os, closedAfterEnd (csRun newClientSender os).
Proof.
  intros os pre conn ws r post H o ws' r' Hin.
  destruct (csRun_app _ _ _ _ _ H) as (s1 & os' & H1).
  destruct os' as [|o1 os']; [discriminate|]. cbn [csRun] in H1. destruct (csStep s1 o1) as [[s2 w2] r2] eqn:E.
  inversion H1; subst. eapply csRun_closed; [|eassumption].
  cbn in E. destruct (sclosed s1) eqn:E1; [inversion E; subst; assumption|].
  destruct (negb (streamWriter s1)); inversion E; reflexivity.
Qed.
Print Assumptions C43_client_closed_after_end_partial.

(** Partial, client side: end is honoured for the message that opens the stream, that is as long as no
    earlier Send succeeded.  Missing: later messages, for which it is false. *)
Theorem C43_client_first_partial :
  forall pre cmd b conn ws r post os,
  csRun newClientSender os = pre ++ (Send cmd (Some b) true conn, ws, r) :: post ->
  (forall c b' fin conn' ws' , ~ In (Send c b' fin conn', ws', SOk) pre) -> r = SOk ->
  ws = [WOpen cmd (N.lor StreamFlag StreamEndFlag) b].
Proof.
  intros pre cmd b conn ws r post os H Hno HR.
  assert (G : forall os s pre, streamWriter s = false -> csRun s os = pre ++ (Send cmd (Some b) true conn, ws, r) :: post ->
    (forall c b' fin conn' ws', ~ In (Send c b' fin conn', ws', SOk) pre) ->
    ws = [WOpen cmd (N.lor StreamFlag StreamEndFlag) b]).
  { clear os pre H Hno. induction os as [|o os IH]; intros s pre Hs H Hno; [destruct pre; discriminate|].
    destruct pre as [|p pre].
    - cbn [csRun app] in H. destruct (csStep s o) as [[s' w] r0] eqn:E. inversion H; subst. cbn in E. rewrite Hs in E.
      destruct (sclosed s); inversion E; reflexivity.
    - cbn [csRun app] in H. destruct (csStep s o) as [[s' w] r0] eqn:E. inversion H; subst p.
      eapply (IH s'); [|eassumption|intros; intro Hin; eapply Hno; right; eassumption].
      destruct o as [c [b'|] fin [e|]|c]; cbn in E; rewrite ?Hs in E; cbn in E; destruct (sclosed s) eqn:Ec; inversion E; subst; cbn; try assumption; try reflexivity.
      exfalso. eapply Hno. left. reflexivity. }
  eapply (G os newClientSender pre); [reflexivity|eassumption|assumption].
Qed.
Print Assumptions C43_client_first_partial.

(** Partial, server side: end is honoured for every message, first or later, and a message without end
    never ends the stream (both sides). *)
Theorem C43_server_end_partial : forall requestID os, honoursEnd (ssRun requestID os).
Proof.
  intros requestID os cmd b conn ws r Hin HR. unfold ssRun in Hin. apply in_map_iff in Hin. destruct Hin as (o & E & _).
  inversion E; subst. eexists. split; [left; reflexivity|reflexivity].
Qed.
Print Assumptions C43_server_end_partial.

Theorem C43_no_spurious_end :
  (forall os, noEndByItself (csRun newClientSender os)) /\ (forall requestID os, noEndByItself (ssRun requestID os)).
Proof.
  split.
  - intro os. generalize newClientSender as s. induction os as [|o os IH]; intros s cmd b conn ws r Hin w Hw; [contradiction|].
    cbn [csRun] in Hin. destruct (csStep s o) as [[s' ws'] r'] eqn:E. destruct Hin as [E1|Hin]; [|eapply IH; eassumption].
    inversion E1; subst. clear E1. cbn in E. destruct b as [b|]; [|inversion E; subst; contradiction].
    destruct (sclosed s); [inversion E; subst; contradiction|].
    destruct (negb (streamWriter s)); inversion E; subst; destruct Hw as [<-|[]]; reflexivity.
  - intros requestID os cmd b conn ws r Hin w Hw. unfold ssRun in Hin. apply in_map_iff in Hin. destruct Hin as (o & E & _).
    inversion E; subst. destruct b; cbn in Hw; [destruct Hw as [<-|[]]; reflexivity|contradiction].
Qed.
Print Assumptions C43_no_spurious_end.

Example C43_example :
  csRun newClientSender [Send 1 (Some [5]) true (Some 9); Send 1 (Some [5]) true None; Send 2 (Some [6]) false None; End None; Send 3 (Some []) false None; End None]
  = [(Send 1 (Some [5]) true (Some 9), [WOpen 1 3 [5]], SConnErr 9);
     (Send 1 (Some [5]) true None, [WOpen 1 3 [5]], SOk);
     (Send 2 (Some [6]) false None, [WNext 2 [6] false], SOk);
     (End None, [WReset], SOk);
     (Send 3 (Some []) false None, [], ErrSenderClosed);
     (End None, [], ErrSenderCloseTwice)].
Proof. reflexivity. Qed.

(** ** C44 *)
Section C44.
Context {M : Type} (Unmarshal : bytes -> option M).

(** Spec: the calls that do not expire get the messages in order, decoded, with the cmd exactly when
    asked for, then ErrStreamFinished for ever. *)
Fixpoint delivers (msgs : list chFrame) (cs : list rcall) (rs : list (@rres M)) : Prop :=
  match cs, rs with
  | [], [] => True
  | c :: cs, r :: rs =>
    if expired c then r = RCtx /\ delivers msgs cs rs
    else match msgs with
         | [] => r = ErrStreamFinished /\ delivers [] cs rs
         | (cmd, p) :: msgs =>
           match Unmarshal p with
           | Some m => r = RMsg (if wantCmd c then Some cmd else None) (Some m)
           | None => r = RDecode (if wantCmd c then Some cmd else None)
           end /\ delivers msgs cs rs
         end
  | _, _ => False
  end.

Lemma crRun_delivers : forall cs msgs, delivers msgs cs (crRun Unmarshal (mkCR true true msgs) cs).
Proof.
  induction cs as [|c cs IH]; intro msgs; [exact I|]. cbn. unfold crStep. cbn.
  destruct (expired c); [cbn; split; [reflexivity|apply IH]|].
  destruct msgs as [|[cmd p] msgs]; cbn; [split; [reflexivity|apply IH]|].
  unfold decodeTo. cbn. destruct (Unmarshal p); (split; [reflexivity|apply IH]).
Qed.

(** Client side: every mix of calls, for a stream with at least one message. *)
Theorem C44_client : forall msgs cs, msgs <> [] ->
  delivers msgs cs (crRun Unmarshal (mkCR true false msgs) cs).
Proof.
  intros msgs cs Hne. destruct msgs as [|[cmd p] msgs]; [contradiction|]. clear Hne.
  induction cs as [|c cs IH]; [exact I|]. cbn. unfold crStep. cbn.
  destruct (expired c); [cbn; split; [reflexivity|apply IH]|].
  cbn. unfold decodeTo. cbn. destruct (Unmarshal p); (split; [reflexivity|apply crRun_delivers]).
Qed.

(** a stream without any message is closed by the peer or by the connection *)
Theorem C44_client_no_message : forall cs r,
  In r (crRun Unmarshal (mkCR true false []) cs) -> r = RStreamClosed \/ r = RCtx.
Proof.
  induction cs as [|c cs IH]; intros r Hin; [contradiction|]. cbn in Hin. unfold crStep in Hin. cbn in Hin.
  destruct (expired c); cbn in Hin; destruct Hin as [<-|Hin]; auto.
Qed.

Lemma srRun_delivers : forall cs f msgs, Forall (fun c => wantCmd c = true) cs ->
  delivers msgs cs (srRun Unmarshal (mkSR f true msgs) cs).
Proof.
  induction cs as [|c cs IH]; intros f msgs HF; [exact I|]. inversion HF; subst. cbn. unfold srStep. cbn.
  destruct (expired c) eqn:Ex; [cbn; rewrite ?Ex; split; [reflexivity|apply IH; assumption]|].
  destruct msgs as [|[cmd p] msgs]; cbn; [split; [reflexivity|apply IH; assumption]|].
  unfold srDeliver. rewrite H1. cbn. destruct (Unmarshal p); (split; [reflexivity|apply IH; assumption]).
Qed.

(** the request frame is delivered without looking at the context *)
Definition noneExpired (cs : list rcall) : Prop := match cs with c :: _ => expired c = false | [] => True end.

(** Partial, server side: callers that always ask for the cmd.  Missing: calls with cmd = nil, for which
    it is false. *)
Theorem C44_server_partial : forall f msgs cs, Forall (fun c => wantCmd c = true) cs -> noneExpired cs ->
  delivers (f :: msgs) cs (srRun Unmarshal (mkSR f false msgs) cs).
Proof.
  intros [cmd p] msgs [|c cs] HF HE; [exact I|]. inversion HF; subst. cbn in HE. cbn. rewrite HE.
  unfold srStep, srDeliver. cbn. rewrite H1. destruct (Unmarshal p); (split; [reflexivity|apply srRun_delivers; assumption]).
Qed.

(** Exact behaviour of the server receiver for cmd = nil: the message is consumed and msg left as is. *)
Theorem C44_server_nil_cmd : forall r c r' x, srStep Unmarshal r c = (r', x) -> wantCmd c = false ->
  match x with RMsg c' m => c' = None /\ m = None | RDecode _ => False | _ => True end.
Proof.
  intros [f h inc] c r' x H Hw. unfold srStep, srDeliver in H. cbn in H. rewrite Hw in H.
  destruct h; [destruct (expired c); [inversion H; exact I|]; destruct inc; inversion H; cbn; auto|inversion H; cbn; auto].
Qed.
End C44.
Print Assumptions C44_client.
Print Assumptions C44_client_no_message.
Print Assumptions C44_server_partial.
Print Assumptions C44_server_nil_cmd.

Definition C44_statement : Prop :=
  forall (M : Type) (Unmarshal : bytes -> option M) f msgs cs, noneExpired cs ->
  delivers Unmarshal (f :: msgs) cs (crRun Unmarshal (mkCR true false (f :: msgs)) cs) /\
  delivers Unmarshal (f :: msgs) cs (srRun Unmarshal (mkSR f false msgs) cs).

Theorem C44_refuted : ~ C44_statement.
Proof.
  intro H. destruct (H bytes (fun b => Some b) (1, [5]) [] [mkRC false false] eq_refl) as [_ D].
  cbn in D. destruct D as [D _]. discriminate.
Qed.
Print Assumptions C44_refuted.

Example C44_example :
  let U := fun b : bytes => match b with [] => None | x :: _ => Some x end in
  crRun U (mkCR true false [(1,[5]);(2,[]);(3,[7])]) [mkRC true true; mkRC true false; mkRC false false; mkRC false false; mkRC true false; mkRC true false]
  = [RCtx; RMsg (Some 1) (Some 5); RDecode None; RMsg None (Some 7); ErrStreamFinished; ErrStreamFinished] /\
  srRun U (mkSR (1,[5]) false [(2,[6])]) [mkRC true false; mkRC true false; mkRC true false]
  = [RMsg (Some 1) (Some 5); RMsg (Some 2) (Some 6); ErrStreamFinished].
Proof. split; reflexivity. Qed.
