(** Lemmas about codegen/pb/rpc.pb.go. *)
From Coq Require Import ZifyBool ZifyNat ZifyN.
From Verif Require Import Model.GoBase Model.Pb Spec.PbSpec Proofs.Bits.
Open Scope N_scope.

Lemma land_127 : forall v, N.land v 127 = v mod 128.
Proof. intro v. change 127 with (N.ones 7). rewrite N.land_ones. reflexivity. Qed.
Lemma land_7 : forall v, N.land v 7 = v mod 8.
Proof. intro v. change 7 with (N.ones 3). rewrite N.land_ones. reflexivity. Qed.
Lemma shiftr_7 : forall v, N.shiftr v 7 = v / 128.
Proof. intro v. rewrite N.shiftr_div_pow2. reflexivity. Qed.

Lemma lor_mod128 : forall v, u8 (N.lor (N.land v 127) 128) = v mod 128 + 128.
Proof.
  intro v. rewrite land_127.
  change 128 with (N.shiftl 1 7) at 2. rewrite lor_shiftl_add by (apply N.mod_lt; discriminate).
  change (1 * 2 ^ 7) with 128. apply u8_small. pose proof (N.mod_lt v 128). lia.
Qed.

Lemma base128_length_pos : forall n v, (0 < n)%nat -> (0 < length (base128 n v))%nat.
Proof. intros [|n] v H; [lia|]. cbn. destruct (v <? 128); cbn; lia. Qed.

Lemma store_app : forall pre x r b, store (pre ++ x :: r) (length pre) b = Some (pre ++ b :: r).
Proof.
  intros. unfold store, put_at. rewrite app_length. cbn [length].
  destruct (Nat.ltb_spec (length pre) (length pre + S (length r))); [|lia].
  rewrite firstn_app, firstn_all, Nat.sub_diag. cbn [firstn]. rewrite app_nil_r.
  rewrite skipn_app, skipn_all2 by lia.
  replace (length pre + 1 - length pre)%nat with 1%nat by lia. reflexivity.
Qed.

Lemma pow2_7S : forall f, 2 ^ (7 * N.of_nat (S f)) = 128 * 2 ^ (7 * N.of_nat f).
Proof.
  intro f. replace (7 * N.of_nat (S f)) with (7 + 7 * N.of_nat f) by lia. rewrite N.pow_add_r. reflexivity.
Qed.

Lemma div128_lt : forall v f, v < 2 ^ (7 * N.of_nat (S f)) -> v / 128 < 2 ^ (7 * N.of_nat f).
Proof. intros v f H. rewrite pow2_7S in H. apply N.div_lt_upper_bound; [discriminate|assumption]. Qed.

Lemma encodeVarint_spec : forall f v pre rest, (0 < f)%nat -> v < 2 ^ (7 * N.of_nat f) ->
  (length (base128 f v) <= length rest)%nat ->
  encodeVarint f (pre ++ rest) (length pre) v =
  Some (pre ++ base128 f v ++ skipn (length (base128 f v)) rest, (length pre + length (base128 f v))%nat).
Proof.
  induction f as [|f IH]; intros v pre rest Hf Hv Hl.
  - lia.
  - cbn [encodeVarint base128] in *. destruct (N.ltb_spec v 128) as [Hs|Hs].
    + destruct (N.leb_spec 128 v); [lia|]. destruct rest as [|x r]; [cbn in Hl; lia|].
      rewrite store_app. rewrite u8_small by lia. cbn [length skipn app]. f_equal. f_equal. lia.
    + destruct (N.leb_spec 128 v); [|lia]. destruct rest as [|x r]; [cbn in Hl; lia|].
      rewrite store_app, lor_mod128, shiftr_7.
      replace (pre ++ (v mod 128 + 128) :: r) with ((pre ++ [v mod 128 + 128]) ++ r) by (rewrite <- app_assoc; reflexivity).
      replace (S (length pre)) with (length (pre ++ [v mod 128 + 128])) by (rewrite app_length; cbn; lia).
      rewrite IH; [| |apply div128_lt; assumption|cbn in Hl; lia].
      2: { destruct f; [|lia]. exfalso. rewrite pow2_7S in Hv. cbn in Hv. lia. }
      rewrite <- app_assoc. cbn [app length skipn]. f_equal. f_equal.
      rewrite app_length. cbn [length]. lia.
Qed.

Lemma sov_spec : forall f v, v < 2 ^ (7 * N.of_nat f) -> (0 < f)%nat -> sov f v = length (base128 f v).
Proof.
  induction f as [|f IH]; intros v Hv Hf; [lia|].
  cbn [sov base128]. rewrite shiftr_7. destruct (N.ltb_spec v 128).
  - rewrite N.div_small by assumption. reflexivity.
  - destruct (N.eqb_spec (v / 128) 0) as [E|E].
    + apply N.div_small_iff in E; [lia|discriminate].
    + cbn [length]. f_equal. apply IH; [apply div128_lt; assumption|].
      destruct f; [|lia]. exfalso. rewrite pow2_7S in Hv. cbn in Hv. lia.
Qed.

Lemma copyAt_app : forall pre rest s, (length s <= length rest)%nat ->
  copyAt (pre ++ rest) (length pre) s = Some (pre ++ s ++ skipn (length s) rest, length s).
Proof.
  intros pre rest s H. unfold copyAt. rewrite app_length.
  destruct (Nat.leb_spec (length pre) (length pre + length rest)); [|lia].
  rewrite firstn_all2 by lia. f_equal. f_equal. unfold put_at.
  rewrite firstn_app, firstn_all, Nat.sub_diag. cbn [firstn]. rewrite app_nil_r.
  rewrite skipn_app, skipn_all2 by lia.
  replace (length pre + length s - length pre)%nat with (length s) by lia. reflexivity.
Qed.

Lemma u64_small : forall v, v < 2 ^ 64 -> u64 v = v.
Proof. intros. unfold u64. apply N.mod_small. assumption. Qed.

Lemma pow64_70 : forall v, v < 2 ^ 64 -> v < 2 ^ (7 * N.of_nat 10).
Proof. intros v H. change (7 * N.of_nat 10) with 70. eapply N.lt_trans; [exact H|reflexivity]. Qed.

Lemma marshalField_spec : forall k tag f pre rest, blen f < 2 ^ 64 -> pb_varint (8 * k + 2) = [tag] ->
  (length (pb_field k f) <= length rest)%nat ->
  marshalField tag f (pre ++ rest, length pre) =
  Some (pre ++ pb_field k f ++ skipn (length (pb_field k f)) rest, (length pre + length (pb_field k f))%nat).
Proof.
  intros k tag f pre rest Hf Ht Hl. unfold marshalField, pb_field in *. destruct f as [|b f].
  - cbn. rewrite Nat.add_0_r. reflexivity.
  - rewrite Ht in *. set (f0 := b :: f) in *. cbn [app] in Hl. cbn [length] in Hl. rewrite app_length in Hl.
    destruct rest as [|x r]; [cbn in Hl; lia|]. cbn [length] in Hl.
    rewrite store_app. rewrite u64_small by assumption.
    replace (pre ++ tag :: r) with ((pre ++ [tag]) ++ r) by (rewrite <- app_assoc; reflexivity).
    replace (S (length pre)) with (length (pre ++ [tag])) by (rewrite app_length; cbn; lia).
    rewrite encodeVarint_spec; [|lia|apply pow64_70; assumption|unfold pb_varint in *; lia].
    fold (pb_varint (blen f0)).
    rewrite app_assoc, <- (app_length (pre ++ [tag])).
    rewrite copyAt_app by (rewrite skipn_length; lia).
    f_equal. f_equal.
    + rewrite <- !app_assoc. cbn [app length skipn].
      apply f_equal2; [reflexivity|]. apply f_equal2; [reflexivity|].
      apply f_equal2; [reflexivity|]. apply f_equal2; [reflexivity|]. rewrite ?app_length.
      clear. revert r. generalize (length f0) (length (pb_varint (blen f0))). intros a b' r. revert r.
      induction b' as [|b' IH]; intro r; [reflexivity|]. destruct r; [rewrite !skipn_nil; reflexivity|apply IH].
    + rewrite !app_length. cbn [length]. lia.
Qed.

Lemma Size_spec : forall m, blen (NS m) < 2 ^ 64 -> blen (Method m) < 2 ^ 64 -> blen (Params m) < 2 ^ 64 ->
  Size m = length (pb_message (NS m) (Method m) (Params m) ++ Unrecognized m).
Proof.
  intros [a b c u] Ha Hb Hc. cbn [NS Method Params] in *. unfold Size. cbn [NS Method Params Unrecognized].
  unfold pb_message. rewrite !app_length.
  assert (G : forall k f tag, pb_varint (8 * k + 2) = [tag] -> blen f < 2 ^ 64 ->
     match f with [] => 0%nat | _ => (1 + length f + sov 10 (u64 (blen f)))%nat end = length (pb_field k f)).
  { intros k f tag Ht Hf. unfold pb_field. destruct f as [|x f]; [reflexivity|].
    rewrite Ht, u64_small by assumption. rewrite sov_spec by (try apply pow64_70; try assumption; lia).
    rewrite !app_length. fold (pb_varint (blen (x :: f))). cbn [length]. lia. }
  rewrite (G 1 a 0xa eq_refl Ha), (G 2 b 0x12 eq_refl Hb), (G 3 c 0x1a eq_refl Hc). lia.
Qed.

Lemma Marshal_spec : forall m, blen (NS m) < 2 ^ 64 -> blen (Method m) < 2 ^ 64 -> blen (Params m) < 2 ^ 64 ->
  Marshal m = Some (pb_message (NS m) (Method m) (Params m) ++ Unrecognized m).
Proof.
  intros m Ha Hb Hc. unfold Marshal. rewrite (Size_spec m Ha Hb Hc). unfold pb_message.
  set (fa := pb_field 1 (NS m)). set (fb := pb_field 2 (Method m)). set (fc := pb_field 3 (Params m)).
  set (z := repeat 0 _).
  assert (Hz : length z = (length fa + (length fb + length fc) + length (Unrecognized m))%nat).
  { unfold z. rewrite repeat_length, !app_length. lia. }
  unfold MarshalTo.
  change (marshalField 0xa (NS m) (z, 0%nat)) with (marshalField 0xa (NS m) ([] ++ z, length (@nil N))).
  rewrite (marshalField_spec 1 0xa (NS m) [] z Ha eq_refl) by (fold fa; lia). fold fa.
  cbn [app length Nat.add].
  rewrite (marshalField_spec 2 0x12 (Method m) fa _ Hb eq_refl) by (fold fb; rewrite skipn_length; lia). fold fb.
  rewrite app_assoc, <- app_length.
  rewrite (marshalField_spec 3 0x1a (Params m) (fa ++ fb) _ Hc eq_refl)
    by (fold fc; rewrite !skipn_length; lia). fold fc.
  rewrite app_assoc, <- app_length.
  rewrite copyAt_app by (rewrite !skipn_length; lia).
  rewrite app_assoc, <- app_length, firstn_app, firstn_all, Nat.sub_diag. cbn [firstn].
  rewrite app_nil_r, <- !app_assoc. reflexivity.
Qed.

(** ---- decoding ---- *)
Lemma zlen_app : forall a b, zlen (a ++ b) = (zlen a + zlen b)%Z.
Proof. intros. unfold zlen. rewrite app_length. lia. Qed.

Lemma fetch_app : forall pre b r, fetch (pre ++ b :: r) (zlen pre) = Some b.
Proof.
  intros. unfold fetch. rewrite zlen_app. unfold zlen. cbn [length].
  destruct (Z.leb_spec 0 (Z.of_nat (length pre))); [|lia].
  destruct (Z.ltb_spec (Z.of_nat (length pre)) (Z.of_nat (length pre) + Z.of_nat (S (length r)))); [|lia].
  cbn [andb]. unfold getb. rewrite Nat2Z.id, app_nth2, Nat.sub_diag by lia. reflexivity.
Qed.

Lemma lor_acc : forall acc b shift, acc < 2 ^ shift -> b mod 128 * 2 ^ shift < 2 ^ 64 ->
  N.lor acc (u64 (N.shiftl (N.land b 127) shift)) = acc + b mod 128 * 2 ^ shift.
Proof.
  intros acc b shift Ha Hb. rewrite land_127. rewrite u64_small.
  - apply lor_shiftl_add. assumption.
  - rewrite N.shiftl_mul_pow2. assumption.
Qed.

Lemma varint_spec : forall f n v pre post shift acc, (0 < f)%nat ->
  v < 2 ^ (7 * N.of_nat f) -> v * 2 ^ shift < 2 ^ 64 -> acc < 2 ^ shift ->
  shift + 7 * N.of_nat n = 70 -> (0 < n)%nat ->
  varint n (pre ++ base128 f v ++ post) (zlen pre) shift acc =
  Ok (acc + v * 2 ^ shift, (zlen pre + zlen (base128 f v))%Z).
Proof.
  induction f as [|f IH]; intros n v pre post shift acc Hf Hv Hs Ha Hn Hp.
  - lia.
  - destruct n as [|n]; [lia|]. cbn [varint].
    assert (Hl : (zlen (pre ++ base128 (S f) v ++ post) <=? zlen pre)%Z = false).
    { rewrite !zlen_app. pose proof (base128_length_pos (S f) v ltac:(lia)).
      unfold zlen. apply Z.leb_gt. lia. }
    rewrite Hl. cbn [base128]. destruct (N.ltb_spec v 128) as [Hlt|Hge].
    + cbn [app]. rewrite fetch_app. rewrite lor_acc by (try assumption; rewrite N.mod_small; assumption).
      destruct (N.ltb_spec v 128); [|lia]. rewrite N.mod_small by assumption. reflexivity.
    + cbn [app]. rewrite fetch_app.
      assert (Hm : (v mod 128 + 128) mod 128 = v mod 128).
      { rewrite <- (N.mul_1_l 128) at 2. rewrite N.mod_add by discriminate. apply N.mod_mod. discriminate. }
      assert (Hv7 : v / 128 * 2 ^ (shift + 7) <= v * 2 ^ shift).
      { rewrite N.pow_add_r. change (2 ^ 7) with 128.
        pose proof (N.mul_div_le v 128 ltac:(discriminate)). nia. }
      assert (Hmm : v mod 128 * 2 ^ shift <= v * 2 ^ shift).
      { apply N.mul_le_mono_r. apply N.mod_le. discriminate. }
      rewrite lor_acc by (try assumption; rewrite Hm; lia).
      destruct (N.ltb_spec (v mod 128 + 128) 128); [lia|]. rewrite Hm.
      replace (pre ++ (v mod 128 + 128) :: base128 f (v / 128) ++ post)
        with ((pre ++ [v mod 128 + 128]) ++ base128 f (v / 128) ++ post) by (rewrite <- app_assoc; reflexivity).
      replace (zlen pre + 1)%Z with (zlen (pre ++ [v mod 128 + 128])) by (rewrite zlen_app; reflexivity).
      assert (Hsh : shift + 7 < 64).
      { assert (Hx : 1 * 2 ^ (shift + 7) < 2 ^ 64).
        { eapply N.le_lt_trans; [|exact Hs]. eapply N.le_trans; [|exact Hv7].
          apply N.mul_le_mono_r. apply N.div_le_lower_bound; lia. }
        rewrite N.mul_1_l in Hx. apply N.pow_lt_mono_r_iff in Hx; lia. }
      rewrite IH.
      * f_equal. f_equal.
        -- rewrite N.pow_add_r. change (2 ^ 7) with 128.
           rewrite (N.div_mod v 128) at 3 by discriminate. lia.
        -- rewrite zlen_app. unfold zlen. cbn [length]. lia.
      * destruct f; [|lia]. exfalso. rewrite pow2_7S in Hv. cbn in Hv. lia.
      * apply div128_lt. assumption.
      * lia.
      * rewrite N.pow_add_r. change (2 ^ 7) with 128. pose proof (N.mod_lt v 128 ltac:(discriminate)). nia.
      * lia.
      * lia.
Qed.

Lemma varint_pb : forall v pre post, v < 2 ^ 64 ->
  varint 10 (pre ++ pb_varint v ++ post) (zlen pre) 0 0 = Ok (v, (zlen pre + zlen (pb_varint v))%Z).
Proof.
  intros v pre post Hv. unfold pb_varint. rewrite varint_spec.
  - rewrite N.pow_0_r, N.mul_1_r. reflexivity.
  - lia.
  - apply pow64_70. assumption.
  - rewrite N.pow_0_r. lia.
  - reflexivity.
  - reflexivity.
  - lia.
Qed.

Lemma i64_small : forall z, (- 2 ^ 63 <= z < 2 ^ 63)%Z -> i64 z = z.
Proof. intros z H. unfold i64. rewrite Z.mod_small by lia. lia. Qed.

Lemma slice_app : forall pre f post, slice (pre ++ f ++ post) (zlen pre) (zlen pre + zlen f) = Some f.
Proof.
  intros. unfold slice. rewrite !zlen_app. unfold zlen.
  destruct (Z.leb_spec 0 (Z.of_nat (length pre))); [|lia].
  destruct (Z.leb_spec (Z.of_nat (length pre)) (Z.of_nat (length pre) + Z.of_nat (length f))); [|lia].
  destruct (Z.leb_spec (Z.of_nat (length pre) + Z.of_nat (length f))
      (Z.of_nat (length pre) + (Z.of_nat (length f) + Z.of_nat (length post)))); [|lia].
  cbn [andb]. f_equal.
  replace (Z.to_nat (Z.of_nat (length pre) + Z.of_nat (length f) - Z.of_nat (length pre))) with (length f) by lia.
  rewrite Nat2Z.id, skipn_app, skipn_all, Nat.sub_diag. cbn [skipn app].
  rewrite firstn_app, firstn_all, Nat.sub_diag. cbn. apply app_nil_r.
Qed.

Definition setField (k : N) (f : bytes) (m : RpcRequest) : RpcRequest :=
  match f with
  | [] => m
  | _ => if (k =? 1) then mkReq f (Method m) (Params m) (Unrecognized m)
         else if (k =? 2) then mkReq (NS m) f (Params m) (Unrecognized m)
         else mkReq (NS m) (Method m) f (Unrecognized m)
  end.

Lemma unmarshal_field : forall k f pre post fuel m, (k = 1 \/ k = 2 \/ k = 3) ->
  (zlen (pre ++ pb_field k f ++ post) < 2 ^ 63)%Z ->
  (length (pb_field k f ++ post) < fuel)%nat ->
  exists fuel', (length post < fuel')%nat /\
  unmarshalLoop fuel (pre ++ pb_field k f ++ post) (zlen pre) m =
  unmarshalLoop fuel' (pre ++ pb_field k f ++ post) (zlen (pre ++ pb_field k f)) (setField k f m).
Proof.
  intros k f pre post fuel m Hk Hlen Hfuel. destruct f as [|b f].
  - exists fuel. split; [assumption|]. cbn [pb_field setField]. rewrite app_nil_r. reflexivity.
  - destruct fuel as [|fuel]; [lia|]. exists fuel.
    assert (Hf2 : blen (b :: f) < 2 ^ 63).
    { unfold pb_field in Hlen. rewrite !zlen_app in Hlen. unfold zlen in Hlen. unfold blen. lia. }
    set (f0 := b :: f) in *. assert (Hf : pb_field k f0 = pb_varint (8 * k + 2) ++ pb_varint (blen f0) ++ f0) by reflexivity.
    assert (Hset : setField k f0 m = if (k =? 1) then mkReq f0 (Method m) (Params m) (Unrecognized m)
         else if (k =? 2) then mkReq (NS m) f0 (Params m) (Unrecognized m)
         else mkReq (NS m) (Method m) f0 (Unrecognized m)) by reflexivity.
    clearbody f0. rewrite Hset, Hf in *. clear Hset Hf.
    set (d := pre ++ (pb_varint (8 * k + 2) ++ pb_varint (blen f0) ++ f0) ++ post) in *.
    set (p1 := pre ++ pb_varint (8 * k + 2)). set (p2 := p1 ++ pb_varint (blen f0)).
    assert (D0 : d = pre ++ pb_varint (8 * k + 2) ++ (pb_varint (blen f0) ++ f0 ++ post)).
    { unfold d. rewrite <- !app_assoc. reflexivity. }
    assert (D1 : d = p1 ++ pb_varint (blen f0) ++ (f0 ++ post)).
    { unfold d, p1. rewrite <- !app_assoc. reflexivity. }
    assert (D2 : d = p2 ++ f0 ++ post).
    { unfold d, p2, p1. rewrite <- !app_assoc. reflexivity. }
    assert (Pos : (0 < length (pb_varint (8 * k + 2)))%nat) by (apply base128_length_pos; lia).
    split.
    + rewrite !app_length in Hfuel. lia.
    + cbn [unmarshalLoop].
      assert (Hl : (zlen d <=? zlen pre)%Z = false).
      { rewrite D0, !zlen_app. unfold zlen. apply Z.leb_gt. lia. }
      rewrite Hl. rewrite D0 at 1. rewrite varint_pb by (destruct Hk as [-> | [-> | ->]]; reflexivity).
      rewrite <- zlen_app. fold p1.
      assert (W : N.land (8 * k + 2) 7 = 2) by (destruct Hk as [-> | [-> | ->]]; reflexivity).
      assert (FN : fieldNum (8 * k + 2) = Z.of_N k) by (destruct Hk as [-> | [-> | ->]]; reflexivity).
      rewrite W, FN.
      assert (LF : lenField d (zlen p1) = Ok (f0, zlen (p2 ++ f0))).
      { unfold lenField. rewrite D1 at 1. rewrite varint_pb by (eapply N.lt_trans; [exact Hf2|reflexivity]).
        rewrite <- zlen_app. fold p2.
        assert (I : int_of (blen f0) = zlen f0).
        { unfold int_of, blen, zlen. rewrite nat_N_Z. apply i64_small. unfold blen in Hf2. lia. }
        rewrite I. destruct (Z.ltb_spec (zlen f0) 0); [unfold zlen in *; lia|].
        rewrite <- zlen_app.
        assert (Hpost : (zlen (p2 ++ f0) <= zlen d)%Z).
        { rewrite D2, !zlen_app. unfold zlen. lia. }
        rewrite i64_small by (split; [unfold zlen; lia|lia]).
        destruct (Z.ltb_spec (zlen d) (zlen (p2 ++ f0))); [lia|].
        rewrite zlen_app at 1. rewrite D2, slice_app. reflexivity. }
      assert (PP : pre ++ pb_varint (8 * k + 2) ++ pb_varint (blen f0) ++ f0 = p2 ++ f0).
      { unfold p2, p1. rewrite <- !app_assoc. reflexivity. }
      rewrite LF, PP. destruct Hk as [-> | [-> | ->]]; reflexivity.
Qed.

Lemma unmarshal_end : forall d fuel m, (0 < fuel)%nat -> unmarshalLoop fuel d (zlen d) m = Ok m.
Proof.
  intros d [|fuel] m H; [lia|]. cbn [unmarshalLoop].
  destruct (Z.leb_spec (zlen d) (zlen d)); [|lia]. destruct (Z.ltb_spec (zlen d) (zlen d)); [lia|reflexivity].
Qed.

Lemma roundtrip : forall ns method params,
  (zlen (pb_message ns method params) < 2 ^ 63)%Z ->
  Unmarshal (pb_message ns method params) = Ok (mkReq ns method params []).
Proof.
  intros ns me pa Hlen. unfold Unmarshal.
  set (d := pb_message ns me pa) in *. set (a := pb_field 1 ns). set (b := pb_field 2 me). set (c := pb_field 3 pa).
  assert (D1 : d = [] ++ pb_field 1 ns ++ (b ++ c)) by reflexivity.
  assert (D2 : d = a ++ pb_field 2 me ++ c) by reflexivity.
  assert (D3 : d = (a ++ b) ++ pb_field 3 pa ++ []) by (rewrite app_nil_r, <- app_assoc; reflexivity).
  destruct (unmarshal_field 1 ns [] (b ++ c) (S (length d)) emptyReq) as (f1 & H1 & E1);
    [lia|exact Hlen|rewrite D1; cbn; lia|].
  rewrite <- D1 in E1. cbn [app] in E1. change 0%Z with (zlen []). rewrite E1. fold a.
  destruct (unmarshal_field 2 me a c f1 (setField 1 ns emptyReq)) as (f2 & H2 & E2);
    [lia|exact Hlen|exact H1|].
  rewrite <- D2 in E2. rewrite E2. fold b.
  destruct (unmarshal_field 3 pa (a ++ b) [] f2 (setField 2 me (setField 1 ns emptyReq))) as (f3 & H3 & E3);
    [lia|rewrite <- D3; exact Hlen|rewrite app_nil_r; exact H2|].
  rewrite <- D3 in E3. rewrite E3. fold c.
  replace ((a ++ b) ++ c) with d by (rewrite D3, app_nil_r; reflexivity).
  rewrite unmarshal_end by lia.
  destruct ns, me, pa; reflexivity.
Qed.

(** ---- no panic ---- *)

(** every 8 consecutive positions contain a byte below 0x80 (positions past the end count) *)
Definition short_runs (d : bytes) : Prop :=
  forall k : nat, exists j : nat, (k <= j < k + 8)%nat /\ nth j d 0 < 128.

Lemma fetch_some : forall d i, (0 <= i < zlen d)%Z -> fetch d i = Some (nth (Z.to_nat i) d 0).
Proof.
  intros d i H. unfold fetch. destruct (Z.leb_spec 0 i); [|lia]. destruct (Z.ltb_spec i (zlen d)); [|lia]. reflexivity.
Qed.

(** the value stays below 2^(bits read); all bytes read but the last are continuation bytes *)
Lemma varint_range : forall n d i shift acc, (0 <= i)%Z -> acc < 2 ^ shift ->
  match varint n d i shift acc with
  | Ok (v, i') => (i < i' <= zlen d)%Z /\ (i' <= i + Z.of_nat n)%Z /\ v < 2 ^ (shift + 7 * Z.to_N (i' - i)) /\
                  (forall j, (i <= j < i' - 1)%Z -> 128 <= nth (Z.to_nat j) d 0)
  | Err _ => True
  | Panic | NoFuel => False
  end.
Proof.
  induction n as [|n IH]; intros d i shift acc Hi Ha; cbn [varint]; [exact I|].
  destruct (Z.leb_spec (zlen d) i) as [|Hlt]; [exact I|].
  rewrite fetch_some by lia. set (b := nth (Z.to_nat i) d 0).
  assert (Hacc : N.lor acc (u64 (N.shiftl (N.land b 127) shift)) < 2 ^ (shift + 7)).
  { assert (Hx : u64 (N.shiftl (N.land b 127) shift) < 2 ^ (shift + 7)).
    { eapply N.le_lt_trans; [apply N.mod_le; discriminate|]. rewrite N.shiftl_mul_pow2, land_127, N.pow_add_r.
      pose proof (N.mod_lt b 128 ltac:(discriminate)). pose proof (N.pow_nonzero 2 shift ltac:(discriminate)).
      change (2 ^ 7) with 128. nia. }
    assert (Ha' : acc < 2 ^ (shift + 7)).
    { eapply N.lt_le_trans; [exact Ha|]. apply N.pow_le_mono_r; lia. }
    clear - Hx Ha'. generalize dependent (u64 (N.shiftl (N.land b 127) shift)). intros x Hx.
    destruct (N.eq_dec (N.lor acc x) 0) as [E|E]; [rewrite E; lia|].
    apply N.log2_lt_pow2; [lia|]. rewrite N.log2_lor. apply N.max_lub_lt.
    - destruct (N.eq_dec acc 0) as [->|]; [|apply N.log2_lt_pow2; lia]. cbn.
      destruct (N.eq_dec x 0) as [->|]; [cbn in E; lia|]. lia.
    - destruct (N.eq_dec x 0) as [->|]; [|apply N.log2_lt_pow2; lia]. cbn. lia. }
  destruct (N.ltb_spec b 128) as [Hb|Hb].
  - split; [lia|]. split; [lia|]. split; [replace (Z.to_N (i + 1 - i)) with 1 by lia; exact Hacc|]. intros; lia.
  - specialize (IH d (i + 1)%Z (shift + 7) _ ltac:(lia) Hacc).
    destruct (varint n d (i + 1) (shift + 7) _) as [[v i']| | |]; try exact IH.
    destruct IH as (A & B & C & D). split; [lia|]. split; [lia|]. split.
    + replace (shift + 7 * Z.to_N (i' - i)) with (shift + 7 + 7 * Z.to_N (i' - (i + 1))) by lia. exact C.
    + intros j Hj. destruct (Z.eq_dec j i) as [->|]; [exact Hb|apply D; lia].
Qed.

(** with short runs a varint is below 2^56 *)
Lemma varint_short : forall d i v i', short_runs d -> (0 <= i)%Z ->
  varint 10 d i 0 0 = Ok (v, i') -> v < 2 ^ 56 /\ (i < i' <= zlen d)%Z.
Proof.
  intros d i v i' HS Hi HV. pose proof (varint_range 10 d i 0 0 Hi eq_refl) as HR. rewrite HV in HR.
  destruct HR as (A & B & C & D). split; [|exact A].
  assert (Hr : (i' - i <= 8)%Z).
  { destruct (Z_le_gt_dec (i' - i) 8) as [|Hg]; [assumption|exfalso].
    destruct (HS (Z.to_nat i)) as (j & Hj & Hb).
    specialize (D (Z.of_nat j) ltac:(lia)). rewrite Nat2Z.id in D. lia. }
  eapply N.lt_le_trans; [exact C|]. apply N.pow_le_mono_r; lia.
Qed.

Lemma int_of_small : forall v, v < 2 ^ 63 -> int_of v = Z.of_N v.
Proof. intros v H. unfold int_of. apply i64_small. lia. Qed.

Lemma short_runs_skipn : forall k d, short_runs d -> short_runs (skipn k d).
Proof.
  intros k d H i. destruct (H (k + i)%nat) as (j & Hj & Hb). exists (j - k)%nat. split; [lia|].
  assert (E : nth (j - k) (skipn k d) 0 = nth j d 0).
  { clear H Hb. assert (G : forall n, nth n (skipn k d) 0 = nth (k + n) d 0).
    { clear. revert d. induction k as [|k IH]; intros d n; [reflexivity|].
      destruct d; [destruct n; reflexivity|apply IH]. }
    rewrite G. f_equal. lia. }
  rewrite E. exact Hb.
Qed.

Lemma slice_tail : forall d i, (0 <= i <= zlen d)%Z -> slice d i (zlen d) = Some (skipn (Z.to_nat i) d).
Proof.
  intros d i H. unfold slice. destruct (Z.leb_spec 0 i); [|lia]. destruct (Z.leb_spec i (zlen d)); [|lia].
  rewrite Z.leb_refl. cbn [andb]. f_equal. apply firstn_all2. rewrite skipn_length. unfold zlen in *. lia.
Qed.

Lemma zlen_skipn : forall d i, (0 <= i <= zlen d)%Z -> zlen (skipn (Z.to_nat i) d) = (zlen d - i)%Z.
Proof. intros d i H. unfold zlen in *. rewrite skipn_length. lia. Qed.

(** skipRpc with short runs: no panic, progress, bounded result *)
Lemma skipRpc_short : forall fuel d, short_runs d -> d <> [] -> (zlen d < 2 ^ 62)%Z -> (length d < fuel)%nat ->
  match skipRpc fuel d with
  | Ok n => (1 <= n < 2 ^ 56 + zlen d + 8)%Z
  | Err _ => True
  | Panic | NoFuel => False
  end.
Proof.
  induction fuel as [|fuel IH]; intros d HS Hne Hlen Hfuel; [lia|].
  cbn [skipRpc]. destruct d as [|b0 d0]; [congruence|]. set (d := b0 :: d0) in *.
  pose proof (varint_range 10 d 0 0 0 ltac:(lia) eq_refl) as HR.
  destruct (varint 10 d 0 0 0) as [[wire i]| | |] eqn:EW; try exact HR.
  destruct (varint_short d 0 wire i HS ltac:(lia) EW) as [_ Hi]. clear HR.
  assert (HV : forall i0, (0 <= i0)%Z -> match varint 10 d i0 0 0 with
            | Ok (v, i') => v < 2 ^ 56 /\ (i0 < i' <= zlen d)%Z | Err _ => True | _ => False end).
  { intros i0 Hi0. pose proof (varint_range 10 d i0 0 0 Hi0 eq_refl) as HR.
    destruct (varint 10 d i0 0 0) as [[v i']| | |] eqn:EV; try exact HR. eapply varint_short; eassumption. }
  assert (HG : forall k i0, (0 <= i0)%Z -> (Z.to_nat (zlen d - i0) < k)%nat ->
     match (fix group (k : nat) (i : Z) : res Z :=
             match k with
             | O => NoFuel
             | S k =>
               match varint 10 d i 0 0 with
               | Ok (inner, i') =>
                 if N.land inner 7 =? 4 then Ok i'
                 else match slice d i (zlen d) with
                      | None => Panic
                      | Some d' =>
                        match skipRpc fuel d' with
                        | Ok next => group k (i64 (i + next))
                        | Err e => Err e | Panic => Panic | NoFuel => NoFuel
                        end
                      end
               | Err e => Err e | Panic => Panic | NoFuel => NoFuel
               end
             end) k i0 with
     | Ok n => (i0 < n <= zlen d)%Z | Err _ => True | _ => False end \/ (i0 < 1)%Z).
  { induction k as [|k IHk]; intros i0 Hi0 Hk; [left; lia|].
    destruct (Z_lt_ge_dec i0 1) as [|Hge]; [right; assumption|left].
    pose proof (HV i0 Hi0) as HV0. destruct (varint 10 d i0 0 0) as [[inner i']| | |] eqn:EV; try exact HV0.
    destruct HV0 as [_ Hi']. destruct (N.land inner 7 =? 4); [exact Hi'|].
    rewrite slice_tail by lia.
    assert (Hl : zlen (skipn (Z.to_nat i0) d) = (zlen d - i0)%Z) by (apply zlen_skipn; lia).
    assert (Hd' : skipn (Z.to_nat i0) d <> []).
    { intro E. rewrite E in Hl. change (zlen []) with 0%Z in Hl. lia. }
    pose proof (IH (skipn (Z.to_nat i0) d) (short_runs_skipn _ _ HS) Hd' ltac:(lia)
       ltac:(rewrite skipn_length; unfold zlen in *; lia)) as IHd.
    destruct (skipRpc fuel (skipn (Z.to_nat i0) d)) as [next| | |]; try exact IHd.
    rewrite i64_small by lia.
    destruct (IHk (i0 + next)%Z ltac:(lia) ltac:(lia)) as [X|X]; [|lia].
    match goal with |- match ?t with _ => _ end => destruct t end; try exact X. lia. }
  destruct (N.land wire 7) as [|p] eqn:EL.
  - unfold skipVarint. pose proof (HV i ltac:(lia)) as X. destruct (varint 10 d i 0 0) as [[v i']| | |]; try exact X. lia.
  - assert (Hp : N.pos p < 8) by (rewrite <- EL, land_7; apply N.mod_lt; discriminate).
    assert (Hcases : p = 1%positive \/ p = 2%positive \/ p = 3%positive \/ p = 4%positive \/ p = 5%positive \/ p = 6%positive \/ p = 7%positive) by lia.
    destruct Hcases as [->|[->|[->|[->|[->|[->| ->]]]]]]; try exact I; try lia.
    + pose proof (HV i ltac:(lia)) as X. destruct (varint 10 d i 0 0) as [[v i']| | |]; try exact X.
      destruct X as [Xv Xi]. rewrite int_of_small by (eapply N.lt_trans; [exact Xv|reflexivity]).
      destruct (Z.ltb_spec (Z.of_N v) 0); [exact I|]. rewrite i64_small by lia. lia.
    + destruct (HG (S (length d)) i ltac:(lia) ltac:(unfold zlen; lia)) as [X|X]; [|lia].
      match goal with |- match ?t with _ => _ end => destruct t end; try exact X. lia.
Qed.

Lemma slice_ok : forall d i j, (0 <= i <= j)%Z -> (j <= zlen d)%Z -> slice d i j <> None.
Proof.
  intros d i j H1 H2. unfold slice. destruct (Z.leb_spec 0 i); [|lia]. destruct (Z.leb_spec i j); [|lia].
  destruct (Z.leb_spec j (zlen d)); [|lia]. discriminate.
Qed.

Lemma unmarshal_short : forall fuel d i m, short_runs d -> (zlen d < 2 ^ 62)%Z -> (0 <= i)%Z ->
  (Z.to_nat (zlen d - i) < fuel)%nat ->
  match unmarshalLoop fuel d i m with Ok _ | Err _ => True | _ => False end.
Proof.
  induction fuel as [|fuel IH]; intros d i m HS Hlen Hi Hfuel; [lia|].
  cbn [unmarshalLoop]. destruct (Z.leb_spec (zlen d) i) as [|Hlt].
  - destruct (zlen d <? i)%Z; exact I.
  - pose proof (varint_range 10 d i 0 0 Hi eq_refl) as HR.
    destruct (varint 10 d i 0 0) as [[wire i']| | |] eqn:EW; try exact HR.
    destruct (varint_short d i wire i' HS Hi EW) as [_ Hi']. clear HR.
    destruct (N.land wire 7 =? 4); [exact I|]. destruct (fieldNum wire <=? 0)%Z; [exact I|].
    destruct (((fieldNum wire =? 1) || (fieldNum wire =? 2) || (fieldNum wire =? 3))%Z)%bool.
    + destruct (negb (N.land wire 7 =? 2)); [exact I|]. unfold lenField.
      pose proof (varint_range 10 d i' 0 0 ltac:(lia) eq_refl) as HR.
      destruct (varint 10 d i' 0 0) as [[len i2]| | |] eqn:EL; try exact HR.
      destruct (varint_short d i' len i2 HS ltac:(lia) EL) as [Hv Hi2]. clear HR.
      rewrite int_of_small by (eapply N.lt_trans; [exact Hv|reflexivity]).
      destruct (Z.ltb_spec (Z.of_N len) 0); [exact I|]. rewrite i64_small by lia.
      destruct (Z.ltb_spec (zlen d) (i2 + Z.of_N len)); [exact I|].
      pose proof (slice_ok d i2 (i2 + Z.of_N len) ltac:(lia) ltac:(lia)) as HSl.
      destruct (slice d i2 (i2 + Z.of_N len)); [|congruence]. apply IH; [assumption|assumption|lia|lia].
    + rewrite slice_tail by lia.
      assert (Hl : zlen (skipn (Z.to_nat i) d) = (zlen d - i)%Z) by (apply zlen_skipn; lia).
      assert (Hd' : skipn (Z.to_nat i) d <> []).
      { intro E. rewrite E in Hl. change (zlen []) with 0%Z in Hl. lia. }
      pose proof (skipRpc_short (S (length (skipn (Z.to_nat i) d))) (skipn (Z.to_nat i) d)
        (short_runs_skipn _ _ HS) Hd' ltac:(lia) ltac:(lia)) as X.
      destruct (skipRpc _ _) as [sk| | |]; try exact X.
      destruct (Z.ltb_spec sk 0); [exact I|]. rewrite i64_small by lia.
      destruct (Z.ltb_spec (zlen d) (i + sk)); [exact I|].
      pose proof (slice_ok d i (i + sk) ltac:(lia) ltac:(lia)) as HSl.
      destruct (slice d i (i + sk)); [|congruence]. apply IH; [assumption|assumption|lia|lia].
Qed.

(** ---- termination for every input ---- *)
Lemma varint_any : forall n d i, (- 2 ^ 63 <= i)%Z ->
  match varint n d i 0 0 with
  | Ok (v, i') => (0 <= i < i')%Z /\ (i' <= zlen d)%Z
  | NoFuel => False
  | _ => True
  end.
Proof.
  intros n d i Hi. destruct (Z_lt_ge_dec i 0) as [Hn|Hp].
  - destruct n; cbn [varint]; [exact I|]. destruct (Z.leb_spec (zlen d) i); [exact I|].
    unfold fetch. destruct (Z.leb_spec 0 i); [lia|]. exact I.
  - pose proof (varint_range n d i 0 0 ltac:(lia) eq_refl) as H.
    destruct (varint n d i 0 0) as [[v i']| | |]; try exact I; try exact H. lia.
Qed.

Lemma int_of_range : forall v, (- 2 ^ 63 <= int_of v < 2 ^ 63)%Z.
Proof. intro v. unfold int_of, i64. pose proof (Z.mod_pos_bound (Z.of_N v + 2 ^ 63) (2 ^ 64) ltac:(lia)). lia. Qed.

Lemma i64_add : forall a b, (0 <= a < 2 ^ 62)%Z -> (0 <= b < 2 ^ 63)%Z ->
  i64 (a + b) = (a + b)%Z \/ (- 2 ^ 63 <= i64 (a + b) < - 2 ^ 62)%Z.
Proof.
  intros a b Ha Hb. destruct (Z_lt_ge_dec (a + b) (2 ^ 63)) as [|Hg]; [left; apply i64_small; lia|right].
  unfold i64. replace (a + b + 2 ^ 63)%Z with ((a + b - 2 ^ 63) + 1 * 2 ^ 64)%Z by lia.
  rewrite Z.mod_add by lia. rewrite Z.mod_small by lia. lia.
Qed.

Lemma skipRpc_any : forall fuel d, (zlen d < 2 ^ 62)%Z -> (length d < fuel)%nat ->
  match skipRpc fuel d with
  | Ok n => (1 <= n < 2 ^ 63)%Z \/ (- 2 ^ 63 <= n < - 2 ^ 62)%Z
  | NoFuel => False
  | _ => True
  end.
Proof.
  induction fuel as [|fuel IH]; intros d Hlen Hfuel; [lia|].
  cbn [skipRpc]. destruct d as [|b0 d0]; [exact I|]. set (d := b0 :: d0) in *.
  pose proof (varint_any 10 d 0 ltac:(lia)) as HR.
  destruct (varint 10 d 0 0 0) as [[wire i]| | |] eqn:EW; try exact I; try exact HR.
  assert (HG : forall k i0, (1 <= i0)%Z \/ (- 2 ^ 63 <= i0 < 0)%Z ->
     ((1 <= i0)%Z -> (Z.to_nat (zlen d - i0) + 1 < k)%nat) -> (0 < k)%nat ->
     match (fix group (k : nat) (i : Z) : res Z :=
             match k with
             | O => NoFuel
             | S k =>
               match varint 10 d i 0 0 with
               | Ok (inner, i') =>
                 if N.land inner 7 =? 4 then Ok i'
                 else match slice d i (zlen d) with
                      | None => Panic
                      | Some d' =>
                        match skipRpc fuel d' with
                        | Ok next => group k (i64 (i + next))
                        | Err e => Err e | Panic => Panic | NoFuel => NoFuel
                        end
                      end
               | Err e => Err e | Panic => Panic | NoFuel => NoFuel
               end
             end) k i0 with
     | Ok n => (1 <= n <= zlen d)%Z | NoFuel => False | _ => True end).
  { induction k as [|k IHk]; intros i0 Hi0 Hk Hk0; [lia|].
    pose proof (varint_any 10 d i0 ltac:(lia)) as HV0.
    destruct (varint 10 d i0 0 0) as [[inner i']| | |] eqn:EV; try exact I; try exact HV0.
    destruct (N.land inner 7 =? 4); [lia|].
    rewrite slice_tail by lia.
    assert (Hl : zlen (skipn (Z.to_nat i0) d) = (zlen d - i0)%Z) by (apply zlen_skipn; lia).
    pose proof (IH (skipn (Z.to_nat i0) d) ltac:(lia) ltac:(rewrite skipn_length; unfold zlen in *; lia)) as IHd.
    destruct (skipRpc fuel (skipn (Z.to_nat i0) d)) as [next| | |]; try exact I; try exact IHd.
    destruct IHd as [Hn|Hn].
    - destruct (i64_add i0 next ltac:(lia) ltac:(lia)) as [E|E].
      + rewrite E. apply IHk; [left; lia|intro; lia|lia].
      + apply IHk; [right; lia|intro; lia|lia].
    - rewrite i64_small by lia. apply IHk; [right; lia|intro; lia|lia]. }
  destruct (N.land wire 7) as [|p] eqn:EL.
  - unfold skipVarint. pose proof (varint_any 10 d i ltac:(lia)) as X.
    destruct (varint 10 d i 0 0) as [[v i']| | |]; try exact I; try exact X. lia.
  - assert (Hp : N.pos p < 8) by (rewrite <- EL, land_7; apply N.mod_lt; discriminate).
    assert (Hcases : p = 1%positive \/ p = 2%positive \/ p = 3%positive \/ p = 4%positive \/ p = 5%positive \/ p = 6%positive \/ p = 7%positive) by lia.
    destruct Hcases as [->|[->|[->|[->|[->|[->| ->]]]]]]; try exact I; try lia.
    + pose proof (varint_any 10 d i ltac:(lia)) as X. destruct (varint 10 d i 0 0) as [[v i']| | |]; try exact I; try exact X.
      destruct (Z.ltb_spec (int_of v) 0); [exact I|]. pose proof (int_of_range v).
      destruct (i64_add i' (int_of v) ltac:(lia) ltac:(lia)) as [E|E].
      * left. pose proof (i64_small (i' + int_of v)) as Y. unfold i64 in *.
        pose proof (Z.mod_pos_bound (i' + int_of v + 2 ^ 63) (2 ^ 64) ltac:(lia)). lia.
      * right. exact E.
    + pose proof (HG (S (length d)) i ltac:(lia) ltac:(intros; unfold zlen in *; lia) ltac:(lia)) as X.
      match goal with |- match ?t with _ => _ end => destruct t end; try exact I; try exact X. lia.
Qed.

Lemma unmarshal_any : forall fuel d i m, (zlen d < 2 ^ 62)%Z -> (0 <= i)%Z ->
  (Z.to_nat (zlen d - i) < fuel)%nat ->
  unmarshalLoop fuel d i m <> NoFuel.
Proof.
  induction fuel as [|fuel IH]; intros d i m Hlen Hi Hfuel; [lia|].
  cbn [unmarshalLoop]. destruct (Z.leb_spec (zlen d) i) as [|Hlt].
  - destruct (zlen d <? i)%Z; discriminate.
  - pose proof (varint_any 10 d i ltac:(lia)) as HR.
    destruct (varint 10 d i 0 0) as [[wire i']| | |] eqn:EW; try discriminate; try (elim HR; fail).
    destruct (N.land wire 7 =? 4); [discriminate|]. destruct (fieldNum wire <=? 0)%Z; [discriminate|].
    destruct (((fieldNum wire =? 1) || (fieldNum wire =? 2) || (fieldNum wire =? 3))%Z)%bool.
    + destruct (negb (N.land wire 7 =? 2)); [discriminate|]. unfold lenField.
      pose proof (varint_any 10 d i' ltac:(lia)) as HR2.
      destruct (varint 10 d i' 0 0) as [[len i2]| | |] eqn:EL; try discriminate; try (elim HR2; fail).
      destruct (Z.ltb_spec (int_of len) 0); [discriminate|]. pose proof (int_of_range len).
      destruct (i64_add i2 (int_of len) ltac:(lia) ltac:(lia)) as [E|E].
      * rewrite E. destruct (Z.ltb_spec (zlen d) (i2 + int_of len)); [discriminate|].
        destruct (slice d i2 (i2 + int_of len)); [|discriminate]. apply IH; lia.
      * destruct (Z.ltb_spec (zlen d) (i64 (i2 + int_of len))); [discriminate|].
        unfold slice. destruct (Z.leb_spec 0 i2); [|lia]. destruct (Z.leb_spec i2 (i64 (i2 + int_of len))); [lia|].
        discriminate.
    + rewrite slice_tail by lia.
      assert (Hl : zlen (skipn (Z.to_nat i) d) = (zlen d - i)%Z) by (apply zlen_skipn; lia).
      pose proof (skipRpc_any (S (length (skipn (Z.to_nat i) d))) (skipn (Z.to_nat i) d) ltac:(lia) ltac:(lia)) as X.
      destruct (skipRpc _ _) as [sk| | |]; try discriminate; try (elim X; fail).
      destruct (Z.ltb_spec sk 0); [discriminate|]. destruct X as [X|X]; [|lia].
      destruct (i64_add i sk ltac:(lia) ltac:(lia)) as [E|E].
      * rewrite E. destruct (Z.ltb_spec (zlen d) (i + sk)); [discriminate|].
        destruct (slice d i (i + sk)); [|discriminate]. apply IH; lia.
      * destruct (Z.ltb_spec (zlen d) (i64 (i + sk))); [discriminate|].
        unfold slice. destruct (Z.leb_spec 0 i); [|lia]. destruct (Z.leb_spec i (i64 (i + sk))); [lia|].
        discriminate.
Qed.
