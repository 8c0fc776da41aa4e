(** Byte and bit lemmas. *)
From Coq Require Import ZifyBool ZifyNat ZifyN.
From Verif Require Import Model.GoBase Spec.FrameSpec.
Ltac Zify.zify_post_hook ::= Z.div_mod_to_equations.
Open Scope N_scope.

Lemma testbit_small : forall a k i, a < 2 ^ k -> k <= i -> N.testbit a i = false.
Proof.
  intros a k i Ha Hi.
  rewrite <- (N.mod_small a (2 ^ k)) by assumption.
  apply N.mod_pow2_bits_high. assumption.
Qed.

Lemma lor_shiftl_add : forall a b k, a < 2 ^ k -> N.lor a (N.shiftl b k) = a + b * 2 ^ k.
Proof.
  intros a b k Ha.
  rewrite <- N.shiftl_mul_pow2.
  rewrite N.add_nocarry_lxor.
  - symmetry. apply N.lxor_lor.
    apply N.bits_inj. intro i. rewrite N.land_spec, N.bits_0.
    destruct (N.lt_ge_cases i k) as [Hlt|Hge].
    + rewrite N.shiftl_spec_low by assumption. apply andb_false_r.
    + rewrite (testbit_small a k i) by assumption. reflexivity.
  - apply N.bits_inj. intro i. rewrite N.land_spec, N.bits_0.
    destruct (N.lt_ge_cases i k) as [Hlt|Hge].
    + rewrite N.shiftl_spec_low by assumption. apply andb_false_r.
    + rewrite (testbit_small a k i) by assumption. reflexivity.
Qed.

Lemma u8_lt : forall x, u8 x < 256.
Proof. intro x. unfold u8. apply N.mod_lt. discriminate. Qed.

Lemma u8_small : forall x, x < 256 -> u8 x = x.
Proof. intros. unfold u8. apply N.mod_small. assumption. Qed.

Lemma be_enc_length : forall k v, length (be_enc k v) = k.
Proof. induction k; intro v; cbn; [reflexivity|]. rewrite app_length, IHk. cbn. lia. Qed.

Lemma be_enc_byte : forall k v, Forall (fun b => b < 256) (be_enc k v).
Proof.
  induction k; intro v; cbn; [constructor|].
  apply Forall_app. split; [apply IHk|]. constructor; [|constructor].
  apply N.mod_lt. discriminate.
Qed.

Lemma be_val_snoc : forall l b, be_val (l ++ [b]) = be_val l * 256 + b.
Proof. intros. unfold be_val. rewrite fold_left_app. reflexivity. Qed.

Lemma be_val_enc : forall k v, be_val (be_enc k v) = v mod 256 ^ N.of_nat k.
Proof.
  induction k; intro v; cbn [be_enc].
  - cbn. rewrite N.mod_1_r. reflexivity.
  - rewrite be_val_snoc, IHk. rewrite Nat2N.inj_succ, N.pow_succ_r'.
    assert (H : 256 ^ N.of_nat k <> 0) by (apply N.pow_nonzero; discriminate).
    rewrite N.mod_mul_r by (assumption || discriminate). lia.
Qed.

Lemma be_enc_mod : forall k v, be_enc k (v mod 256 ^ N.of_nat k) = be_enc k v.
Proof.
  induction k; intro v; cbn [be_enc]; [reflexivity|].
  assert (H : 256 ^ N.of_nat k <> 0) by (apply N.pow_nonzero; discriminate).
  rewrite Nat2N.inj_succ, N.pow_succ_r'.
  rewrite N.mod_mul_r by (assumption || discriminate).
  f_equal.
  - rewrite (N.mul_comm 256), N.div_add by discriminate.
    rewrite (N.div_small (v mod 256)) by (apply N.mod_lt; discriminate).
    rewrite N.add_0_l. apply IHk.
  - f_equal. rewrite (N.mul_comm 256), N.mod_add by discriminate.
    apply N.mod_mod. discriminate.
Qed.

Lemma be32_enc : forall v, be32 v = be_enc 4 v.
Proof.
  intro v. unfold be32, u8. cbn [be_enc app].
  rewrite !N.shiftr_div_pow2. change (2 ^ 24) with (256 * (256 * 256)).
  change (2^16) with (256 * 256). change (2^8) with 256.
  rewrite !N.div_div by discriminate. reflexivity.
Qed.

Lemma be64_enc : forall v, be64 v = be_enc 8 v.
Proof.
  intro v. unfold be64, u8. cbn [be_enc app].
  rewrite !N.shiftr_div_pow2.
  change (2 ^ 56) with (256 * (256 * (256 * (256 * (256 * (256 * 256)))))).
  change (2 ^ 48) with (256 * (256 * (256 * (256 * (256 * 256))))).
  change (2 ^ 40) with (256 * (256 * (256 * (256 * 256)))).
  change (2 ^ 32) with (256 * (256 * (256 * 256))).
  change (2 ^ 24) with (256 * (256 * 256)).
  change (2^16) with (256 * 256). change (2^8) with 256.
  rewrite !N.div_div by discriminate. reflexivity.
Qed.

Lemma lor4_val : forall a b c d,
  a < 256 -> b < 256 -> c < 256 -> d < 256 ->
  N.lor (N.lor (N.lor d (N.shiftl c 8)) (N.shiftl b 16)) (N.shiftl a 24)
  = be_val [a; b; c; d].
Proof.
  intros a b c d Ha Hb Hc Hd.
  rewrite (lor_shiftl_add d c 8) by (change (2^8) with 256; lia).
  rewrite (lor_shiftl_add _ b 16) by (change (2^16) with 65536; change (2^8) with 256; lia).
  rewrite (lor_shiftl_add _ a 24)
    by (change (2^24) with 16777216; change (2^16) with 65536; change (2^8) with 256; lia).
  change (2^24) with 16777216; change (2^16) with 65536; change (2^8) with 256.
  unfold be_val. cbn [fold_left]. lia.
Qed.

Lemma getb_app_r : forall l1 l2 i, getb (l1 ++ l2) (length l1 + i) = getb l2 i.
Proof. intros. unfold getb. rewrite app_nth2_plus. reflexivity. Qed.

(** reading a big-endian field written by [be_enc] *)
Lemma getb_byte : forall l i, Forall (fun b => b < 256) l -> getb l i < 256.
Proof.
  intros l i H. unfold getb.
  destruct (Nat.lt_ge_cases i (length l)) as [Hlt|Hge].
  - rewrite Forall_forall in H. apply H. apply nth_In. assumption.
  - rewrite nth_overflow by assumption. lia.
Qed.

Lemma rd32_val : forall l off, Forall (fun b => b < 256) l ->
  rd32 l off = be_val [getb l off; getb l (off+1); getb l (off+2); getb l (off+3)].
Proof. intros l off H. unfold rd32. apply lor4_val; apply getb_byte; assumption. Qed.

Lemma be_val_4_lt : forall a b c d, a < 256 -> b < 256 -> c < 256 -> d < 256 ->
  be_val [a; b; c; d] < 4294967296.
Proof. intros. unfold be_val. cbn [fold_left]. lia. Qed.

Lemma be_val_app4 : forall l a b c d,
  be_val (l ++ [a;b;c;d]) = be_val l * 4294967296 + be_val [a;b;c;d].
Proof. intros. unfold be_val. rewrite fold_left_app. cbn [fold_left]. lia. Qed.

Lemma rd64_val : forall l off, Forall (fun b => b < 256) l ->
  rd64 l off = be_val [getb l off; getb l (off+1); getb l (off+2); getb l (off+3);
                       getb l (off+4); getb l (off+5); getb l (off+6); getb l (off+7)].
Proof.
  intros l off H. unfold rd64. rewrite N.lor_comm.
  rewrite !rd32_val by assumption.
  replace (off + 4 + 1)%nat with (off + 5)%nat by lia.
  replace (off + 4 + 2)%nat with (off + 6)%nat by lia.
  replace (off + 4 + 3)%nat with (off + 7)%nat by lia.
  rewrite lor_shiftl_add
    by (change (2^32) with 4294967296; apply be_val_4_lt; apply getb_byte; assumption).
  change (2^32) with 4294967296.
  change [getb l off; getb l (off + 1); getb l (off + 2); getb l (off + 3);
          getb l (off + 4); getb l (off + 5); getb l (off + 6); getb l (off + 7)]
    with ([getb l off; getb l (off + 1); getb l (off + 2); getb l (off + 3)] ++
          [getb l (off + 4); getb l (off + 5); getb l (off + 6); getb l (off + 7)]).
  rewrite be_val_app4. lia.
Qed.

Lemma land_ffff : forall c, N.land c 0xffff = c mod 65536.
Proof. intro c. change 0xffff with (N.ones 16). rewrite N.land_ones. reflexivity. Qed.
Lemma land_ffffff : forall c, N.land c 0xffffff = c mod 16777216.
Proof. intro c. change 0xffffff with (N.ones 24). rewrite N.land_ones. reflexivity. Qed.
