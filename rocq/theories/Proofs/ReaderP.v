(** Lemmas about buffered reads over an adversarial connection. *)
From Coq Require Import ZifyBool ZifyNat ZifyN.
From Verif Require Import Model.GoBase Model.Reader.
Open Scope nat_scope.

Definition meas (r : rdr) : nat :=
  length (rbuf r) + length (concat (chunks (conn r))) + length (chunks (conn r)).

Lemma bufioRead_spec : forall r n, 0 < n ->
  match bufioRead r n with
  | (r', inl bs) => pend r = bs ++ pend r' /\ length bs <= n /\ meas r' < meas r /\
                    fin r' = fin r /\ timeout r' = timeout r
  | (r', inr e) => r' = r /\ pend r = [] /\ e = fin r
  end.
Proof.
  intros [rb [ch f] t] n Hn. unfold bufioRead, pend, meas, fin. cbn [rbuf conn timeout chunks final].
  destruct rb as [|b rb].
  - unfold connRead. cbn [chunks final].
    destruct (Nat.leb ReadBufSize n) eqn:Hb.
    + destruct ch as [|c ch]; cbn [chunks final rbuf conn timeout].
      * repeat split; reflexivity.
      * destruct (Nat.leb (length c) n) eqn:Hc; cbn [chunks final rbuf conn timeout].
        -- apply Nat.leb_le in Hc. cbn [concat app length]. rewrite app_length.
           repeat split; try lia.
        -- apply Nat.leb_gt in Hc. cbn [concat app length]. rewrite !app_length, skipn_length.
           rewrite firstn_length. rewrite app_assoc, firstn_skipn. repeat split; try lia.
    + apply Nat.leb_gt in Hb.
      assert (HB : 0 < ReadBufSize) by (unfold ReadBufSize; lia).
      destruct ch as [|c ch]; cbn [chunks final rbuf conn timeout].
      * repeat split; reflexivity.
      * destruct (Nat.leb (length c) ReadBufSize) eqn:Hc; cbn [chunks final rbuf conn timeout].
        -- cbn [concat app length]. rewrite app_length, skipn_length, firstn_length.
           rewrite app_assoc, firstn_skipn. repeat split; lia.
        -- apply Nat.leb_gt in Hc. cbn [concat app length].
           rewrite !app_length, !skipn_length, !firstn_length.
           split; [|repeat split; lia].
           rewrite app_assoc, firstn_skipn. rewrite app_assoc, firstn_skipn. reflexivity.
  - cbn [rbuf conn timeout chunks final].
    rewrite app_assoc, firstn_skipn, firstn_length, skipn_length. cbn [length].
    repeat split; lia.
Qed.

Definition short_err (acc : bytes) (r : rdr) : rerr :=
  match fin r with
  | REOF => match acc ++ pend r with [] => REOF | _ => RUnexpectedEOF end
  | e => e
  end.

Lemma readFull_spec : forall fuel r n acc, meas r < fuel ->
  if Nat.leb n (length (pend r)) then
    exists r', readFull fuel r n acc = (r', acc ++ firstn n (pend r), None) /\
               pend r' = skipn n (pend r) /\ fin r' = fin r /\ timeout r' = timeout r
  else
    exists r', readFull fuel r n acc = (r', acc ++ pend r, Some (short_err acc r)) /\
               pend r' = [] /\ fin r' = fin r.
Proof.
  induction fuel as [|fuel IH]; intros r n acc Hm; [lia|].
  destruct n as [|n].
  - cbn. exists r. rewrite app_nil_r. repeat split; reflexivity.
  - cbn [readFull].
    pose proof (bufioRead_spec r (S n) ltac:(lia)) as HB.
    destruct (bufioRead r (S n)) as [r' [bs|e]].
    + destruct HB as (HP & HL & HM & HF & HT).
      specialize (IH r' (S n - length bs) (acc ++ bs) ltac:(lia)).
      rewrite HP, app_length.
      destruct (Nat.leb (S n - length bs) (length (pend r'))) eqn:E.
      * apply Nat.leb_le in E.
        replace (Nat.leb (S n) (length bs + length (pend r'))) with true
          by (symmetry; apply Nat.leb_le; lia).
        destruct IH as (r2 & -> & P2 & F2 & T2).
        exists r2. rewrite <- app_assoc. rewrite firstn_app, skipn_app.
        rewrite (firstn_all2 bs) by lia. rewrite (skipn_all2 bs) by lia. cbn [app].
        repeat split; congruence.
      * apply Nat.leb_gt in E.
        replace (Nat.leb (S n) (length bs + length (pend r'))) with false
          by (symmetry; apply Nat.leb_gt; lia).
        destruct IH as (r2 & -> & P2 & F2).
        exists r2. rewrite <- app_assoc. repeat split; [|assumption|congruence].
        f_equal. f_equal. unfold short_err. rewrite HF, HP, <- app_assoc. reflexivity.
    + destruct HB as (-> & HP & ->). rewrite HP. cbn [length Nat.leb].
      unfold short_err. rewrite HP, app_nil_r.
      destruct (fin r) eqn:EF; eexists; repeat split; try assumption; reflexivity.
Qed.

Lemma ReadBytes_spec : forall r size cd,
  if Nat.leb size (length (pend r)) then
    exists r', ReadBytes r size cd = (r', inl (firstn size (pend r))) /\
               pend r' = skipn size (pend r) /\ fin r' = fin r /\ timeout r' = timeout r
  else
    exists r', ReadBytes r size cd = (r', inr (short_err [] r)) /\ pend r' = [].
Proof.
  intros r size cd. unfold ReadBytes. cbn [readLoop]. rewrite Nat.sub_0_r.
  pose proof (readFull_spec (rfuel r) r size [] ltac:(unfold rfuel, meas; lia)) as H.
  destruct (Nat.leb size (length (pend r))) eqn:E.
  - destruct H as (r' & -> & P & F & T). cbn [app]. apply Nat.leb_le in E.
    rewrite firstn_length_le by assumption. cbn [Nat.add].
    rewrite Nat.leb_refl. exists r'. repeat split; assumption.
  - destruct H as (r' & -> & P & F). exists r'. repeat split; assumption.
Qed.

Lemma ReadBytes_ok : forall r size cd a b, pend r = a ++ b -> length a = size ->
  exists r', ReadBytes r size cd = (r', inl a) /\ pend r' = b /\ fin r' = fin r /\ timeout r' = timeout r.
Proof.
  intros r size cd a b HP HL. pose proof (ReadBytes_spec r size cd) as H.
  rewrite HP, app_length in H.
  replace (Nat.leb size (length a + length b)) with true in H by (symmetry; apply Nat.leb_le; lia).
  destruct H as (r' & E & P & F & T). exists r'.
  rewrite firstn_app, firstn_all2 in E by lia. rewrite skipn_app, skipn_all2 in P by lia.
  replace (size - length a) with 0 in * by lia. cbn [firstn skipn app] in *. rewrite app_nil_r in E.
  repeat split; assumption.
Qed.
