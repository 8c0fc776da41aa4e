(** C86: connections that share recycled read buffers. *)
From Verif Require Import Model.GoBase Model.Machine Model.Reader Proofs.ReaderP Model.ReadPool.
Open Scope N_scope.

(** what a socket delivers altogether *)
Definition bytesOf (c : net) : bytes := concat (chunks c).

(** reader p is connection k's *)
Definition owns (s : pst) (k p : N) : Prop := ppcs s k = PGot p \/ ppcs s k = PUse p \/ ppcs s k = PCleared p.

Record pinv (ins : N -> net) (s : pst) : Prop := {
  v_one : forall j k p, owns s j p -> owns s k p -> j = k;
  v_out : forall k p, owns s k p -> ~ In p (pool s) /\ p < made s;
  v_pool : NoDup (pool s) /\ forall p, In p (pool s) -> p < made s;
  v_new : forall k, (ppcs s k = PNew \/ exists p, ppcs s k = PGot p) -> given s k = [] /\ bytesOf (sock s k) = bytesOf (ins k);
  v_use : forall k p, ppcs s k = PUse p -> b_src (heap s p) = Some k /\ given s k ++ b_buf (heap s p) ++ bytesOf (sock s k) = bytesOf (ins k);
  v_all : forall k, exists rest, given s k ++ rest = bytesOf (ins k) }.

Lemma pinv_init : forall ins, pinv ins (pinit ins).
Proof.
  intro ins. split; cbn.
  - intros j k p [H|[H|H]]; discriminate H.
  - intros k p [H|[H|H]]; discriminate H.
  - split; [constructor|intros p []].
  - auto.
  - intros k p H. discriminate H.
  - intro k. exists (bytesOf (ins k)). reflexivity.
Qed.

Lemma remove_nodup : forall (l : list N) t, NoDup l -> NoDup (remove N.eq_dec t l).
Proof.
  induction l as [|a l IH]; intros t D; cbn; [constructor|]. inversion D as [|x y N D']; subst. destruct (N.eq_dec t a); [auto|].
  constructor; [intro X; apply in_remove in X; tauto|auto].
Qed.

(** connection k goes from one state to another in which it has the same reader or none *)
Lemma owns_upd : forall s s' k q j p, owns s' j p -> ppcs s' = upd (ppcs s) k q -> (j = k /\ (q = PGot p \/ q = PUse p \/ q = PCleared p)) \/ (j <> k /\ owns s j p).
Proof.
  intros s s' k q j p O H. unfold owns in O. rewrite H in O. destruct (N.eq_dec j k) as [->|N]; [left; rewrite upd_eq in O; auto|right; rewrite upd_neq in O by assumption; auto].
Qed.

Lemma pinv_step : forall ins s l s', pinv ins s -> pstep s l = Some s' -> pinv ins s'.
Proof.
  intros ins s l s' [V1 V2 [V3 V4] V5 V6 V7] H. destruct l; cbn [pstep] in H.
  - (* Get *) destruct (ppcs s k) eqn:P; try discriminate H. destruct o as [p|].
    + destruct (existsb (N.eqb p) (pool s)) eqn:E; [|discriminate H]. injection H as <-. apply existsb_exists in E. destruct E as (x & E & X). apply N.eqb_eq in X. subst x.
      assert (NO : forall j, ~ owns s j p) by (intros j O; destruct (V2 _ _ O); contradiction).
      split; cbn.
      * intros i j p0 A B. apply (owns_upd s _ k (PGot p)) in A; [|reflexivity]. apply (owns_upd s _ k (PGot p)) in B; [|reflexivity].
        destruct A as [[-> [A|[A|A]]]|[NA A]]; try discriminate A; destruct B as [[-> [B|[B|B]]]|[NB B]]; try discriminate B; auto; try (injection A as <-); try (injection B as <-).
        -- destruct (NO _ B).
        -- destruct (NO _ A).
        -- apply (V1 _ _ _ A B).
      * intros j p0 A. apply (owns_upd s _ k (PGot p)) in A; [|reflexivity]. destruct A as [[-> [A|[A|A]]]|[NA A]]; try discriminate A.
        -- injection A as <-. split; [apply remove_In|auto].
        -- destruct (V2 _ _ A) as [Q R]. split; [intro X; apply in_remove in X; tauto|exact R].
      * split; [apply remove_nodup; exact V3|]. intros q X. apply in_remove in X. apply V4, X.
      * intros j A. apply V5. destruct (N.eq_dec j k) as [->|N]; [left; exact P|]. rewrite upd_neq in A by assumption. exact A.
      * intros j q A. destruct (N.eq_dec j k) as [->|N]; [rewrite upd_eq in A; discriminate A|]. rewrite upd_neq in A by assumption. apply V6, A.
      * exact V7.
    + injection H as <-.
      assert (NO : forall j p, owns s j p -> p <> made s) by (intros j p O; destruct (V2 _ _ O); lia).
      split; cbn.
      * intros i j p0 A B. apply (owns_upd s _ k (PGot (made s))) in A; [|reflexivity]. apply (owns_upd s _ k (PGot (made s))) in B; [|reflexivity].
        destruct A as [[-> [A|[A|A]]]|[NA A]]; try discriminate A; destruct B as [[-> [B|[B|B]]]|[NB B]]; try discriminate B; auto; try (injection A as <-); try (injection B as <-).
        -- destruct (NO _ _ B eq_refl).
        -- destruct (NO _ _ A eq_refl).
        -- apply (V1 _ _ _ A B).
      * intros j p0 A. apply (owns_upd s _ k (PGot (made s))) in A; [|reflexivity]. destruct A as [[-> [A|[A|A]]]|[NA A]]; try discriminate A.
        -- injection A as <-. split; [intro X; apply V4 in X; lia|lia].
        -- destruct (V2 _ _ A) as [Q R]. split; [exact Q|lia].
      * split; [exact V3|]. intros q X. apply V4 in X. lia.
      * intros j A. apply V5. destruct (N.eq_dec j k) as [->|N]; [left; exact P|]. rewrite upd_neq in A by assumption. exact A.
      * intros j q A. destruct (N.eq_dec j k) as [->|N]; [rewrite upd_eq in A; discriminate A|]. rewrite upd_neq in A by assumption.
        rewrite upd_neq by (apply (NO j); right; left; exact A). apply V6, A.
      * exact V7.
  - (* Reset *) destruct (ppcs s k) as [|p|p|p|] eqn:P; try discriminate H. injection H as <-. assert (O : owns s k p) by (left; exact P). split; cbn.
    + intros i j p0 A B. apply (owns_upd s _ k (PUse p)) in A; [|reflexivity]. apply (owns_upd s _ k (PUse p)) in B; [|reflexivity].
      assert (T : forall i, i = k /\ (PUse p = PGot p0 \/ PUse p = PUse p0 \/ PUse p = PCleared p0) \/ i <> k /\ owns s i p0 -> owns s i p0).
      { intros x [[-> [X|[X|X]]]|[_ X]]; [discriminate X|injection X as <-; exact O|discriminate X|exact X]. }
      apply (V1 _ _ _ (T _ A) (T _ B)).
    + intros j p0 A. apply (owns_upd s _ k (PUse p)) in A; [|reflexivity]. destruct A as [[-> [A|[A|A]]]|[NA A]]; try discriminate A; [injection A as <-; apply (V2 _ _ O)|apply (V2 _ _ A)].
    + auto.
    + intros j A. destruct (N.eq_dec j k) as [->|N]; [rewrite upd_eq in A; destruct A as [A|[q A]]; discriminate A|]. rewrite upd_neq in A by assumption. apply V5, A.
    + intros j q A. destruct (N.eq_dec j k) as [->|N].
      * rewrite upd_eq in A. injection A as <-. rewrite upd_eq. cbn. split; [reflexivity|]. destruct (V5 k) as [G E]; [right; eauto|]. rewrite G, E. reflexivity.
      * rewrite upd_neq in A by assumption. rewrite upd_neq; [apply V6, A|]. intros ->. apply N. apply (V1 _ _ p); [right; left; exact A|exact O].
    + exact V7.
  - (* Read *) destruct (ppcs s k) as [|p|p|p|] eqn:P; try discriminate H. destruct (n =? 0)%nat eqn:Z; [discriminate H|]. apply Nat.eqb_neq in Z.
    destruct (V6 k p P) as [SR E]. rewrite SR in H.
    pose proof (bufioRead_spec (mkRdr (b_buf (heap s p)) (sock s k) 0%Z) n ltac:(lia)) as B.
    destruct (bufioRead (mkRdr (b_buf (heap s p)) (sock s k) 0%Z) n) as [r x] eqn:BR. injection H as <-.
    assert (NEW : (given s k ++ match x with inl bs => bs | inr _ => [] end) ++ rbuf r ++ bytesOf (conn r) = bytesOf (ins k)).
    { rewrite <- E. destruct x as [bs|e].
      - destruct B as [B _]. unfold pend in B. cbn [rbuf conn] in B. unfold bytesOf. rewrite B. rewrite !app_assoc. reflexivity.
      - destruct B as [-> _]. cbn [rbuf conn]. rewrite app_nil_r. reflexivity. }
    split; cbn.
    + exact V1.
    + exact V2.
    + auto.
    + intros j A. destruct (N.eq_dec j k) as [->|N]; [rewrite P in A; destruct A as [A|[q A]]; discriminate A|]. rewrite !upd_neq by assumption. apply V5, A.
    + intros j q A. destruct (N.eq_dec j k) as [->|N].
      * rewrite P in A. injection A as <-. rewrite !upd_eq. cbn. split; [reflexivity|exact NEW].
      * rewrite (upd_neq _ (sock s)), (upd_neq _ (given s)) by assumption. rewrite (upd_neq _ (heap s)); [apply V6, A|]. intros ->. apply N. apply (V1 _ _ p); right; left; assumption.
    + intro j. destruct (N.eq_dec j k) as [->|N]; [rewrite upd_eq; eauto|rewrite upd_neq by assumption; apply V7].
  - (* Clear *) destruct (ppcs s k) as [|p|p|p|] eqn:P; try discriminate H. injection H as <-. assert (O : owns s k p) by (right; left; exact P). split; cbn.
    + intros i j p0 A B. apply (owns_upd s _ k (PCleared p)) in A; [|reflexivity]. apply (owns_upd s _ k (PCleared p)) in B; [|reflexivity].
      assert (T : forall i, i = k /\ (PCleared p = PGot p0 \/ PCleared p = PUse p0 \/ PCleared p = PCleared p0) \/ i <> k /\ owns s i p0 -> owns s i p0).
      { intros x [[-> [X|[X|X]]]|[_ X]]; [discriminate X|discriminate X|injection X as <-; exact O|exact X]. }
      apply (V1 _ _ _ (T _ A) (T _ B)).
    + intros j p0 A. apply (owns_upd s _ k (PCleared p)) in A; [|reflexivity]. destruct A as [[-> [A|[A|A]]]|[NA A]]; try discriminate A; [injection A as <-; apply (V2 _ _ O)|apply (V2 _ _ A)].
    + auto.
    + intros j A. destruct (N.eq_dec j k) as [->|N]; [rewrite upd_eq in A; destruct A as [A|[q A]]; discriminate A|]. rewrite upd_neq in A by assumption. apply V5, A.
    + intros j q A. destruct (N.eq_dec j k) as [->|N]; [rewrite upd_eq in A; discriminate A|].
      rewrite upd_neq in A by assumption. rewrite upd_neq; [apply V6, A|]. intros ->. apply N. apply (V1 _ _ p); [right; left; exact A|exact O].
    + exact V7.
  - (* Put *) destruct (ppcs s k) as [|p|p|p|] eqn:P; try discriminate H. injection H as <-. assert (O : owns s k p) by (right; right; exact P). split; cbn.
    + intros i j p0 A B. apply (owns_upd s _ k PEnd) in A; [|reflexivity]. apply (owns_upd s _ k PEnd) in B; [|reflexivity].
      destruct A as [[-> [A|[A|A]]]|[NA A]]; try discriminate A; destruct B as [[-> [B|[B|B]]]|[NB B]]; try discriminate B. apply (V1 _ _ _ A B).
    + intros j p0 A. apply (owns_upd s _ k PEnd) in A; [|reflexivity]. destruct A as [[-> [A|[A|A]]]|[NA A]]; try discriminate A.
      destruct (V2 _ _ A) as [Q R]. split; [|exact R]. intros [->|X]; [|contradiction]. apply NA. apply (V1 _ _ p0); assumption.
    + destruct (V2 _ _ O) as [Q R]. split; [constructor; assumption|]. intros q [<-|X]; [exact R|apply V4, X].
    + intros j A. destruct (N.eq_dec j k) as [->|N]; [rewrite upd_eq in A; destruct A as [A|[q A]]; discriminate A|]. rewrite upd_neq in A by assumption. apply V5, A.
    + intros j q A. destruct (N.eq_dec j k) as [->|N]; [rewrite upd_eq in A; discriminate A|]. rewrite upd_neq in A by assumption. apply V6, A.
    + exact V7.
  - (* Leave *) destruct (ppcs s k) as [|p|p|p|] eqn:P; try discriminate H. injection H as <-. split; cbn.
    + intros i j p0 A B. apply (owns_upd s _ k PEnd) in A; [|reflexivity]. apply (owns_upd s _ k PEnd) in B; [|reflexivity].
      destruct A as [[-> [A|[A|A]]]|[NA A]]; try discriminate A; destruct B as [[-> [B|[B|B]]]|[NB B]]; try discriminate B. apply (V1 _ _ _ A B).
    + intros j p0 A. apply (owns_upd s _ k PEnd) in A; [|reflexivity]. destruct A as [[-> [A|[A|A]]]|[NA A]]; try discriminate A. apply (V2 _ _ A).
    + auto.
    + intros j A. destruct (N.eq_dec j k) as [->|N]; [rewrite upd_eq in A; destruct A as [A|[q A]]; discriminate A|]. rewrite upd_neq in A by assumption. apply V5, A.
    + intros j q A. destruct (N.eq_dec j k) as [->|N]; [rewrite upd_eq in A; discriminate A|]. rewrite upd_neq in A by assumption. apply V6, A.
    + exact V7.
  - (* Drop *) injection H as <-. split; cbn; auto.
    + intros k q A. destruct (V2 _ _ A) as [Q R]. split; [intro X; apply in_remove in X; tauto|exact R].
    + split; [apply remove_nodup; exact V3|]. intros q X. apply in_remove in X. apply V4, X.
Qed.

Lemma pinv_run : forall ins ls s, run pstep (pinit ins) ls = Some s -> pinv ins s.
Proof. intros ins ls s R. eapply run_inv; [apply pinv_step|apply pinv_init|exact R]. Qed.

(** What a connection is given is what its own socket delivered, in order and without a gap *)
Theorem C86_own_bytes : forall ins ls s k, run pstep (pinit ins) ls = Some s -> exists rest, bytesOf (ins k) = given s k ++ rest.
Proof. intros ins ls s k R. destruct (v_all _ _ (pinv_run _ _ _ R) k) as [rest H]. eauto. Qed.
Print Assumptions C86_own_bytes.

(** ... and while the connection is in use nothing of it is lost: by reads of its own it is given all the rest, whatever the other connections did and have *)
Definition ownRead (k : N) (l : plabel) : Prop := match l with PRead j _ => j = k | _ => False end.

Lemma read_on : forall ins n s k p, pinv ins s -> ppcs s k = PUse p -> (meas (mkRdr (b_buf (heap s p)) (sock s k) 0%Z) < n)%nat ->
  exists ls s', Forall (ownRead k) ls /\ run pstep s ls = Some s' /\ given s' k = bytesOf (ins k).
Proof.
  induction n as [|n IH]; intros s k p V P M; [lia|]. destruct (v_use _ _ V k p P) as [SR E].
  pose proof (bufioRead_spec (mkRdr (b_buf (heap s p)) (sock s k) 0%Z) 1 ltac:(lia)) as B.
  assert (ST : pstep s (PRead k 1) = let '(r, x) := bufioRead (mkRdr (b_buf (heap s p)) (sock s k) 0%Z) 1 in
        Some (mkP (upd (heap s) p (mkB (rbuf r) (Some k))) (upd (sock s) k (conn r)) (pool s) (made s) (ppcs s)
                  (upd (given s) k (given s k ++ match x with inl bs => bs | inr _ => [] end)))).
  { cbn [pstep]. rewrite P, SR. reflexivity. }
  destruct (bufioRead (mkRdr (b_buf (heap s p)) (sock s k) 0%Z) 1) as [r [bs|e]] eqn:BR.
  - pose proof (pinv_step _ _ _ _ V ST) as V'. destruct B as (_ & _ & B & _ & _).
    destruct (IH _ k p V' P) as (ls & s' & F & R & G).
    + cbn [heap sock]. rewrite !upd_eq. cbn [b_buf]. unfold meas in *. cbn [rbuf conn] in *. lia.
    + exists (PRead k 1 :: ls), s'. split; [constructor; [reflexivity|exact F]|split; [|exact G]]. cbn [run]. rewrite ST. exact R.
  - exists [], s. split; [constructor|split; [reflexivity|]]. destruct B as (_ & B & _). unfold pend in B. cbn [rbuf conn] in B. unfold bytesOf in *. rewrite B, app_nil_r in E. exact E.
Qed.

Theorem C86_none_lost : forall ins ls s k p, run pstep (pinit ins) ls = Some s -> ppcs s k = PUse p ->
  exists ls' s', Forall (ownRead k) ls' /\ run pstep s ls' = Some s' /\ given s' k = bytesOf (ins k).
Proof. intros ins ls s k p R P. eapply read_on; [apply (pinv_run _ _ _ R)|exact P|apply Nat.lt_succ_diag_r]. Qed.
Print Assumptions C86_none_lost.

(** The hypotheses are met: connection 0 ends with bytes in its buffer, and connection 1 gets its reader from the pool *)
Example C86_case :
  let ins := fun k => mkNet (if k =? 0 then [[1; 2; 3]] else [[7]; [8; 9]]) REOF in
  option_map (fun s => (given s 0, given s 1, ppcs s 1)) (run pstep (pinit ins)
    [PGet 0 None; PReset 0; PRead 0 1; PClear 0; PPut 0; PGet 1 (Some 0); PReset 1; PRead 1 4; PRead 1 1]) = Some ([1], [7; 8], PUse 0).
Proof. vm_compute. reflexivity. Qed.
