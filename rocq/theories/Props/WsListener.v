(** C58: the websocket listener. *)
From Coq Require Import Permutation.
From Verif Require Import Model.GoBase Model.Machine Model.WsListener.
Open Scope N_scope.
Local Arguments Nat.ltb : simpl never.

Definition reach (s : wsl) : Prop := reachable wslStep wslInit s.
(** Close has been called and has returned *)
Definition closed (s : wsl) : Prop := cancelled s = true /\ tcpClosed s = true.
(** the connections 0, 1, ... n-1 *)
Definition upTo (n : N) : list N := map N.of_nat (seq 0 (N.to_nat n)).

(** The full claim, two halves: once Close has returned, Accept returns no connection any more; and no upgraded connection is
    let go without having been returned by Accept (nothing in overlay.go closes one, so it stays open with nobody serving it). *)
Definition C58_statement : Prop :=
  (forall s l s', reach s -> closed s -> wslStep s l = Some s' -> returned s' = returned s) /\
  (forall s, reach s -> dropped s = []).

(** Both halves are false. *)
Definition lateRun : list wslLabel := [WUpgrade; WEnqueue 0; WCancel; WCloseTcp].
Theorem C58_accept_after_close : exists s s', run wslStep wslInit lateRun = Some s /\ closed s /\ wslStep s WAccept = Some s' /\ returned s' = [0] /\ returned s = [].
Proof. eexists. eexists. repeat split; try reflexivity. Qed.
Print Assumptions C58_accept_after_close.

(** Even for connections upgraded after Close has returned, any number of them. *)
Theorem C58_serves_upgrades_after_close : forall n, exists s s', reach s /\ closed s /\ upgrades s = 0 /\
  run wslStep s (flat_map (fun i => [WUpgrade; WEnqueue (N.of_nat i); WAccept]) (seq 0 n)) = Some s' /\ returned s' = upTo (N.of_nat n).
Proof.
  intros n. exists (mkWsl [] true true [] [] [] 0).
  assert (G : forall n, run wslStep (mkWsl [] true true [] [] [] 0) (flat_map (fun i => [WUpgrade; WEnqueue (N.of_nat i); WAccept]) (seq 0 n))
                        = Some (mkWsl [] true true [] (upTo (N.of_nat n)) [] (N.of_nat n))).
  { clear n. induction n as [|n IH]; [reflexivity|]. rewrite seq_S, flat_map_app, run_app, IH. cbn -[upTo N.add N.of_nat N.eqb].
    rewrite N.eqb_refl. cbn -[upTo N.add N.of_nat N.eqb]. rewrite ?N.eqb_refl. cbn -[upTo N.add N.of_nat N.eqb].
    replace (N.of_nat n + 1) with (N.of_nat (S n)) by lia. do 2 f_equal. unfold upTo. rewrite !Nnat.Nat2N.id, seq_S, map_app. reflexivity. }
  eexists. split; [exists [WCancel; WCloseTcp]; reflexivity|]. split; [split; reflexivity|]. split; [reflexivity|]. split; [apply G|reflexivity].
Qed.
Print Assumptions C58_serves_upgrades_after_close.

Theorem C58_connection_let_go : exists s, run wslStep wslInit [WUpgrade; WCancel; WDrop 0; WCloseTcp] = Some s /\ dropped s = [0] /\ returned s = [].
Proof. eexists. repeat split; reflexivity. Qed.
Print Assumptions C58_connection_let_go.

Theorem C58_refuted : ~ C58_statement.
Proof.
  intros [_ B]. destruct C58_connection_let_go as (s & R & D & _). rewrite (B s) in D; [discriminate|]. eexists. exact R.
Qed.
Print Assumptions C58_refuted.

(** ** What is true *)
Definition all (s : wsl) : list N := returned s ++ chq s ++ handlers s ++ dropped s.
Definition Inv (s : wsl) : Prop :=
  NoDup (all s) /\ (forall c, In c (all s) <-> c < upgrades s) /\ (length (chq s) <= backlog)%nat /\
  (cancelled s = false -> dropped s = []) /\ (tcpClosed s = true -> cancelled s = true).

Lemma leave_in : forall c x l, In x (leave c l) <-> In x l /\ x <> c.
Proof. intros c x l. unfold leave. rewrite filter_In. destruct (N.eqb_spec x c); cbn; intuition. Qed.
Lemma leave_perm : forall c l, NoDup l -> In c l -> Permutation l (c :: leave c l).
Proof.
  intros c l ND I. apply NoDup_Permutation; [assumption| |].
  - constructor; [rewrite leave_in; tauto|]. apply NoDup_filter. assumption.
  - intros x. cbn. rewrite leave_in. destruct (N.eq_dec x c); [subst; tauto|]. intuition congruence.
Qed.
Lemma ex_in : forall c l, existsb (N.eqb c) l = true -> In c l.
Proof. intros c l H. apply existsb_exists in H as (x & A & B). apply N.eqb_eq in B. subst. assumption. Qed.

Lemma Inv_perm : forall s s', Inv s -> Permutation (all s) (all s') -> upgrades s' = upgrades s -> (length (chq s') <= backlog)%nat ->
  (cancelled s' = false -> dropped s' = []) -> (tcpClosed s' = true -> cancelled s' = true) -> Inv s'.
Proof.
  intros s s' (A & B & _) P U L D T. split; [eapply Permutation_NoDup; eassumption|]. split; [|auto].
  intros c. rewrite U, <- B. split; apply Permutation_in; [symmetry|]; assumption.
Qed.

Lemma Inv_step : forall s l s', Inv s -> wslStep s l = Some s' -> Inv s'.
Proof.
  intros s l s' I H. pose proof I as (A & B & L & D & T).
  assert (ND : NoDup (handlers s)).
  { unfold all in A. apply (Permutation_NoDup (l' := handlers s ++ returned s ++ chq s ++ dropped s)) in A.
    - clear - A. induction (handlers s) as [|x h IH]; [constructor|]. inversion A; subst. constructor; [rewrite in_app_iff in *; tauto|auto].
    - rewrite !app_assoc. apply Permutation_app_tail. rewrite <- (app_assoc (handlers s)). apply Permutation_app_comm. }
  destruct l; cbn in H.
  - inversion H; subst; clear H.
    assert (P : Permutation (all (mkWsl (chq s) (cancelled s) (tcpClosed s) (handlers s ++ [upgrades s]) (returned s) (dropped s) (upgrades s + 1))) (upgrades s :: all s)).
    { unfold all. cbn. rewrite <- app_assoc. cbn. rewrite !app_assoc. symmetry. apply Permutation_middle. }
    split; [|split; [|cbn; auto]].
    + eapply Permutation_NoDup; [symmetry; exact P|]. constructor; [|assumption]. rewrite B. lia.
    + intros c. split; intros H.
      * apply (Permutation_in _ P) in H as [<-|H]; cbn; [lia|]. apply B in H. lia.
      * cbn in H. apply (Permutation_in _ (Permutation_sym P)). destruct (N.eq_dec (upgrades s) c); [left; assumption|right]. apply B. lia.
  - destruct (existsb _ _) eqn:E; [|discriminate]. cbn in H. destruct (Nat.ltb_spec (length (chq s)) backlog); [|discriminate]. inversion H; subst; clear H.
    apply (Inv_perm s); auto; cbn; [|rewrite app_length; cbn; lia]. unfold all; cbn. apply Permutation_app_head. rewrite <- app_assoc. apply Permutation_app_head.
    cbn. apply (Permutation_app_tail (dropped s) (leave_perm c (handlers s) ND (ex_in _ _ E))).
  - destruct (existsb _ _) eqn:E; [|discriminate]. cbn in H. destruct (cancelled s) eqn:C; [|discriminate]. inversion H; subst; clear H.
    apply (Inv_perm s); auto; cbn; [|discriminate]. unfold all; cbn. apply Permutation_app_head. apply Permutation_app_head.
    rewrite (Permutation_app_tail (dropped s) (leave_perm c (handlers s) ND (ex_in _ _ E))). cbn. rewrite app_assoc. apply Permutation_cons_append.
  - destruct (chq s) as [|c q] eqn:Q; [discriminate|]. inversion H; subst; clear H. apply (Inv_perm s); auto; cbn.
    + unfold all; cbn. rewrite Q, <- !app_assoc. reflexivity.
    + cbn in L. lia.
  - destruct (cancelled s); [|discriminate]. inversion H; subst. assumption.
  - inversion H; subst; clear H. apply (Inv_perm s); auto; cbn; try reflexivity; discriminate.
  - destruct (cancelled s) eqn:C; [|discriminate]. inversion H; subst; clear H. apply (Inv_perm s); auto; cbn; try reflexivity; congruence.
Qed.

Lemma Inv_reach : forall s, reach s -> Inv s.
Proof.
  intros s. apply (reachable_inv wslStep Inv wslInit); [|apply Inv_step].
  split; [constructor|]. split; [intros c; cbn; lia|]. cbn. split; [unfold backlog; lia|]. split; [reflexivity|discriminate].
Qed.

(** Each upgraded connection is in exactly one place: returned by Accept (once), queued (at most 128), in its handler or let go;
    none is let go before Close.  Missing: none is let go at all. *)
Theorem C58_nothing_lost_partial : forall s, reach s ->
  Permutation (returned s ++ chq s ++ handlers s ++ dropped s) (upTo (upgrades s)) /\ NoDup (returned s) /\
  (length (chq s) <= 128)%nat /\ (cancelled s = false -> dropped s = []).
Proof.
  intros s R. destruct (Inv_reach s R) as (A & B & L & D & _). repeat split; try assumption.
  - apply NoDup_Permutation; [exact A| |].
    + apply FinFun.Injective_map_NoDup; [intros x y; lia|apply seq_NoDup].
    + intros c. fold (all s). rewrite B. unfold upTo. rewrite in_map_iff. split.
      * intros H. exists (N.to_nat c). rewrite in_seq. lia.
      * intros (x & <- & H). apply in_seq in H. lia.
  - unfold all in A. clear - A. induction (returned s) as [|x l IH]; [constructor|]. inversion A; subst. constructor; [rewrite in_app_iff in *; tauto|auto].
Qed.
Print Assumptions C58_nothing_lost_partial.

(** Accept gives connections in the order in which the handlers queued them. *)
Definition queuedBy (l : wslLabel) : list N := match l with WEnqueue c => [c] | _ => [] end.
Theorem C58_fifo : forall ls s, run wslStep wslInit ls = Some s -> returned s ++ chq s = flat_map queuedBy ls.
Proof.
  assert (G : forall ls s s', run wslStep s ls = Some s' -> returned s' ++ chq s' = (returned s ++ chq s) ++ flat_map queuedBy ls).
  { induction ls as [|l ls IH]; intros s s' R; cbn in R; [inversion R; subst; cbn; rewrite app_nil_r; reflexivity|].
    destruct (wslStep s l) as [t|] eqn:E; [|discriminate]. rewrite (IH t s' R). cbn [flat_map]. rewrite app_assoc. f_equal. clear - E.
    destruct l; cbn in E |- *.
    - inversion E; subst. cbn. rewrite app_nil_r. reflexivity.
    - destruct (_ && _)%bool; [|discriminate]. inversion E; subst. cbn. rewrite app_assoc. reflexivity.
    - destruct (_ && _)%bool; [|discriminate]. inversion E; subst. cbn. rewrite app_nil_r. reflexivity.
    - destruct (chq s); [discriminate|]. inversion E; subst. cbn. rewrite app_nil_r, <- app_assoc. reflexivity.
    - destruct (cancelled s); [|discriminate]. inversion E; subst. rewrite app_nil_r. reflexivity.
    - inversion E; subst. cbn. rewrite app_nil_r. reflexivity.
    - destruct (cancelled s); [|discriminate]. inversion E; subst. cbn. rewrite app_nil_r. reflexivity. }
  intros ls s R. apply (G ls wslInit s R).
Qed.
Print Assumptions C58_fifo.

(** Accept fails only after Close was called; then it never blocks, nor does a handler. *)
Theorem C58_never_stuck_after_close : forall s, reach s ->
  (wslStep s WAcceptErr <> None <-> cancelled s = true) /\
  (cancelled s = true -> forall c, In c (handlers s) -> exists s', wslStep s (WDrop c) = Some s' /\ ~ In c (handlers s')) /\
  (wslStep s WAccept = None <-> chq s = []).
Proof.
  intros s R. split; [|split].
  - cbn. destruct (cancelled s); split; congruence.
  - intros C c I. cbn. rewrite C. assert (E : existsb (N.eqb c) (handlers s) = true) by (apply existsb_exists; exists c; split; [assumption|apply N.eqb_refl]).
    rewrite E. eexists. split; [reflexivity|]. cbn. rewrite leave_in. tauto.
  - cbn. destruct (chq s); split; congruence.
Qed.
Print Assumptions C58_never_stuck_after_close.

(** Cases: two connections, accepted in the order of queueing, not of upgrading; a third is let go at Close. *)
Example C58_example : exists s, run wslStep wslInit [WUpgrade; WUpgrade; WEnqueue 1; WEnqueue 0; WAccept; WAccept; WUpgrade; WCancel; WDrop 2; WAcceptErr; WCloseTcp] = Some s /\
  returned s = [1; 0] /\ dropped s = [2] /\ closed s.
Proof. exists (mkWsl [] true true [] [1; 0] [2] 3). repeat split; vm_compute; reflexivity. Qed.
