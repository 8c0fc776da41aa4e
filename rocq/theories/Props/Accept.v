(** C49: the accept loop. *)
From Coq Require Import ZifyBool ZifyNat ZifyN.
From Verif Require Import Model.GoBase Model.Accept.
Open Scope N_scope.

(** number of temporary errors since the last accepted connection *)
Fixpoint tempsSince (os : list acceptOut) (k : N) : N :=
  match os with
  | [] => k
  | ATemp :: os => tempsSince os (k + 1)
  | AConn _ _ :: os => tempsSince os 0
  | _ :: os => tempsSince os k
  end.

(** Spec: min(5ms * 2^(k-1), 1s) *)
Definition backoff (k : N) : N := N.min (5 * 2 ^ (k - 1)) 1000.

Definition delayAfter (k : N) : N := if k =? 0 then 0 else backoff k.

Lemma backoff_step : forall k, let d := if delayAfter k =? 0 then 5 else delayAfter k * 2 in
  (if 1000 <? d then 1000 else d) = backoff (k + 1).
Proof.
  intros k. unfold delayAfter. destruct (N.eqb_spec k 0) as [->|Hk]; [reflexivity|].
  unfold backoff. replace (k + 1 - 1) with (N.succ (k - 1)) by lia. rewrite N.pow_succ_r'.
  pose proof (N.pow_nonzero 2 (k - 1) ltac:(lia)). set (p := 2 ^ (k - 1)) in *. cbv zeta.
  destruct (N.eqb_spec (N.min (5 * p) 1000) 0); [lia|].
  destruct (N.ltb_spec 1000 (N.min (5 * p) 1000 * 2)); lia.
Qed.

(** the loop has not returned *)
Definition running (os : list acceptOut) : Prop := ~ In ADone os.

Lemma acceptLoop_app : forall a b pre os k, running pre ->
  acceptLoop a b (delayAfter k) (pre ++ os) =
  acceptLoop a b (delayAfter k) pre ++ acceptLoop a b (delayAfter (tempsSince pre k)) os.
Proof.
  intros a b. induction pre as [|o pre IH]; intros os k HR; [reflexivity|].
  assert (HR' : running pre) by (intro; apply HR; right; assumption).
  destruct o; cbn [app acceptLoop acceptRound tempsSince].
  - exfalso. apply HR. left. reflexivity.
  - rewrite backoff_step. replace (backoff (k + 1)) with (delayAfter (k + 1)) by (unfold delayAfter; destruct (N.eqb_spec (k+1) 0); [lia|reflexivity]).
    cbn [app]. f_equal. apply IH. assumption.
  - cbn [app]. f_equal. apply IH. assumption.
  - destruct (a && refused); cbn [app]; f_equal; apply (IH os 0 HR').
Qed.

Lemma acceptLoop_length : forall a b os d, running os -> length (acceptLoop a b d os) = length os.
Proof.
  intros a b. induction os as [|o os IH]; intros d HR; [reflexivity|].
  assert (HR' : running os) by (intro; apply HR; right; assumption).
  destruct o; cbn [acceptLoop acceptRound length].
  - exfalso. apply HR. left. reflexivity.
  - rewrite IH by assumption. reflexivity.
  - rewrite IH by assumption. reflexivity.
  - destruct (a && refused); cbn; rewrite IH by assumption; reflexivity.
Qed.

(** After the k-th temporary error since the last accepted connection the server waits
    min(5ms*2^(k-1), 1s). *)
Theorem C49_backoff :
  forall a b pre post, running pre ->
  nth_error (Serve a b (pre ++ ATemp :: post)) (length pre) = Some [ASleep (backoff (tempsSince pre 0 + 1))].
Proof.
  intros a b pre post HR. unfold Serve. change (acceptLoop a b 0) with (acceptLoop a b (delayAfter 0)). rewrite acceptLoop_app by assumption.
  rewrite nth_error_app2 by (rewrite acceptLoop_length by assumption; lia).
  rewrite acceptLoop_length by assumption. rewrite Nat.sub_diag. cbn [acceptLoop acceptRound nth_error].
  rewrite backoff_step. reflexivity.
Qed.
Print Assumptions C49_backoff.

Lemma tempsSince_repeat : forall n k, tempsSince (repeat ATemp n) k = k + N.of_nat n.
Proof. induction n as [|n IH]; intro k; [cbn; lia|]. cbn [repeat tempsSince]. rewrite IH. lia. Qed.

Lemma tempsSince_app : forall a b k, tempsSince (a ++ b) k = tempsSince b (tempsSince a k).
Proof. induction a as [|[| | |] a IH]; intros b k; cbn; auto. Qed.

(** k consecutive temporary errors, at the start or right after an accepted connection. *)
Corollary C49_backoff_consecutive :
  forall a b pre (k : nat) post, running pre -> (pre = [] \/ exists pre' c r, pre = pre' ++ [AConn c r]) ->
  nth_error (Serve a b ((pre ++ repeat ATemp k) ++ ATemp :: post)) (length pre + k) =
  Some [ASleep (N.min (5 * 2 ^ N.of_nat k) 1000)].
Proof.
  intros a b pre k post HR HP. pose proof (C49_backoff a b (pre ++ repeat ATemp k) post) as H.
  rewrite app_length, repeat_length in H. rewrite H.
  - rewrite tempsSince_app. assert (E : tempsSince pre 0 = 0).
    { destruct HP as [->|(p & c & r & ->)]; [reflexivity|]. rewrite tempsSince_app. reflexivity. }
    rewrite E, tempsSince_repeat. unfold backoff. replace (0 + N.of_nat k + 1 - 1) with (N.of_nat k) by lia. reflexivity.
  - intro Hin. apply in_app_or in Hin. destruct Hin as [Hin|Hin]; [apply HR; assumption|].
    apply repeat_spec in Hin. discriminate.
Qed.
Print Assumptions C49_backoff_consecutive.

(** A connection refused by OnAccept is closed, reported to OnClose once and not served; any other
    connection is served and neither closed nor reported by the accept loop; nothing else happens to
    connections in that round or in any other round. *)
Theorem C49_refused_connections :
  forall a b pre c refused post, running pre ->
  nth_error (Serve a b (pre ++ AConn c refused :: post)) (length pre) =
  Some (if a && refused then ACloseConn c :: (if b then [AOnClose c] else []) else [AServe c]).
Proof.
  intros a b pre c refused post HR. unfold Serve. change (acceptLoop a b 0) with (acceptLoop a b (delayAfter 0)). rewrite acceptLoop_app by assumption.
  rewrite nth_error_app2 by (rewrite acceptLoop_length by assumption; lia).
  rewrite acceptLoop_length by assumption. rewrite Nat.sub_diag. cbn [acceptLoop acceptRound].
  destruct (a && refused); reflexivity.
Qed.
Print Assumptions C49_refused_connections.

Definition concerns (c : N) (x : acceptAct) : bool :=
  match x with ACloseConn d | AOnClose d | AServe d => d =? c | _ => false end.
Theorem C49_only_its_own_round :
  forall a b os i acts x c, nth_error (Serve a b os) i = Some acts -> In x acts -> concerns c x = true ->
  exists r, nth_error os i = Some (AConn c r).
Proof.
  intros a b os. unfold Serve. generalize 0 as d. induction os as [|o os IH]; intros d i acts x c H Hin Hc.
  - destruct i; discriminate.
  - cbn [acceptLoop] in H. destruct (acceptRound a b d o) as [[d' ac] go] eqn:E. destruct i as [|i].
    + cbn in H. inversion H; subst. cbn. destruct o; cbn in E.
      * inversion E; subst. destruct Hin as [<-|[]]. discriminate.
      * inversion E; subst. destruct Hin as [<-|[]]. discriminate.
      * inversion E; subst. destruct Hin as [<-|[]]. discriminate.
      * exists refused. assert (c0 = c); [|congruence].
        destruct (a && refused); inversion E; subst.
        -- destruct Hin as [<-|Hin]; [cbn in Hc; apply N.eqb_eq; assumption|].
           destruct b; [|contradiction]. destruct Hin as [<-|[]]. cbn in Hc. apply N.eqb_eq. assumption.
        -- destruct Hin as [<-|[]]. cbn in Hc. apply N.eqb_eq. assumption.
    + cbn in H. cbn [nth_error]. destruct go; [|destruct i; discriminate]. eapply IH; eassumption.
Qed.
Print Assumptions C49_only_its_own_round.

(** Once the server is done the next failing accept ends the loop. *)
Theorem C49_returns_when_done :
  forall a b pre post, running pre -> Serve a b (pre ++ ADone :: post) = Serve a b pre ++ [[AReturn]].
Proof.
  intros a b pre post HR. unfold Serve. change (acceptLoop a b 0) with (acceptLoop a b (delayAfter 0)). rewrite acceptLoop_app by assumption. reflexivity.
Qed.
Print Assumptions C49_returns_when_done.

Example C49_example :
  Serve true true [ATemp; ATemp; AFatal; ATemp; AConn 7 true; ATemp; AConn 8 false; ADone; ATemp] =
  [[ASleep 5]; [ASleep 10]; [ASleep 1000]; [ASleep 20]; [ACloseConn 7; AOnClose 7]; [ASleep 5]; [AServe 8]; [AReturn]] /\
  backoff 9 = 1000 /\ backoff 8 = 640.
Proof. repeat split. Qed.
