(** C63: RpcRequest decodes any order of fields, keeps unknown ones. *)
From Coq Require Import ZifyBool ZifyNat ZifyN.
From Verif Require Import Model.GoBase Model.Pb Spec.PbSpec Spec.PbFields Proofs.PbP.
Open Scope N_scope.

Lemma wfield_ind' : forall P : wfield -> Prop,
  (forall k v, P (WVar k v)) -> (forall k b, P (W64 k b)) -> (forall k b, P (WBytes k b)) ->
  (forall k fs, Forall P fs -> P (WGroup k fs)) -> (forall k b, P (W32 k b)) -> forall f, P f.
Proof.
  intros P H1 H2 H3 H4 H5. fix IH 1. intros [k v|k b|k b|k fs|k b]; [apply H1|apply H2|apply H3| |apply H5].
  apply H4. induction fs as [|f fs IHfs]; constructor; [apply IH|exact IHfs].
Qed.

Definition wt (f : wfield) : N := match f with WVar _ _ => 0 | W64 _ _ => 1 | WBytes _ _ => 2 | WGroup _ _ => 3 | W32 _ _ => 5 end.
Definition body (f : wfield) : bytes :=
  match f with
  | WVar _ v => pb_varint v | W64 _ b => b | WBytes _ b => pb_varint (blen b) ++ b
  | WGroup k fs => flat_map enc fs ++ tag k 4 | W32 _ b => b
  end.
Lemma enc_tag : forall f, enc f = tag (number f) (wt f) ++ body f.
Proof. destruct f; reflexivity. Qed.
Lemma wf_number : forall f, wellFormed f -> 1 <= number f < 2 ^ 29.
Proof. destruct f; cbn; tauto. Qed.
Lemma wt_small : forall f, wt f < 8.
Proof. destruct f; cbn; lia. Qed.
Lemma wt_not4 : forall f, wt f <> 4.
Proof. destruct f; cbn; lia. Qed.
Lemma tag_val : forall k w, k < 2 ^ 29 -> w < 8 -> 8 * k + w < 2 ^ 64.
Proof. intros. change (2 ^ 29) with 536870912 in *. change (2 ^ 64) with 18446744073709551616. lia. Qed.
Lemma tag_land : forall k w, w < 8 -> N.land (8 * k + w) 7 = w.
Proof. intros. rewrite land_7. rewrite N.add_comm, N.mul_comm, N.mod_add by discriminate. apply N.mod_small. assumption. Qed.
Lemma tag_pos : forall k w, (0 < length (tag k w))%nat.
Proof. intros. apply base128_length_pos. lia. Qed.
Lemma tag_num : forall k w, 1 <= k < 2 ^ 29 -> w < 8 -> fieldNum (8 * k + w) = Z.of_N k.
Proof.
  intros k w H W. unfold fieldNum. rewrite N.shiftr_div_pow2. change (2 ^ 3) with 8.
  replace ((8 * k + w) / 8) with k by (rewrite N.add_comm, N.mul_comm, N.div_add by discriminate; rewrite N.div_small by assumption; lia).
  unfold u32. change (2 ^ 29) with 536870912 in H. rewrite N.mod_small by (change (2 ^ 32) with 4294967296; lia).
  rewrite Z.mod_small by lia. lia.
Qed.
Lemma varint_tag : forall k w pre post, k < 2 ^ 29 -> w < 8 ->
  varint 10 (pre ++ tag k w ++ post) (zlen pre) 0 0 = Ok (8 * k + w, (zlen pre + zlen (tag k w))%Z).
Proof. intros. apply varint_pb. apply tag_val; assumption. Qed.
Lemma varint_tag0 : forall k w post, k < 2 ^ 29 -> w < 8 ->
  varint 10 (tag k w ++ post) 0 0 0 = Ok (8 * k + w, zlen (tag k w)).
Proof. intros. apply (varint_tag k w [] post); assumption. Qed.

Lemma zlen_pos : forall d, (0 <= zlen d)%Z.
Proof. intro. unfold zlen. lia. Qed.
Lemma zlen_nat : forall b : bytes, Z.of_N (blen b) = zlen b.
Proof. intro. unfold blen, zlen. lia. Qed.

Lemma tag_ne : forall k w post, tag k w ++ post <> [].
Proof. intros k w post E. pose proof (tag_pos k w). destruct (tag k w); [cbn in H; lia|discriminate]. Qed.

(** skipRpc finds the end of a well-formed field. *)
Lemma skip_spec : forall f, wellFormed f -> forall fuel rest, (zlen (enc f ++ rest) < 2 ^ 62)%Z -> (length (enc f ++ rest) < fuel)%nat ->
  skipRpc fuel (enc f ++ rest) = Ok (zlen (enc f)).
Proof.
  induction f as [k v|k b|k b|k fs IH|k b] using wfield_ind'; intros W fuel rest L F;
    (destruct fuel as [|fuel]; [lia|]); pose proof (wf_number _ W) as K; cbn [number] in K;
    cbn [skipRpc]; rewrite enc_tag; cbn [number wt body]; rewrite <- !app_assoc;
    (match goal with |- context [match ?d with [] => Panic | _ :: _ => _ end] =>
       let NE := fresh in assert (NE : d <> []) by apply tag_ne; destruct d as [|x xs] eqn:E; [congruence|]; clear NE end);
    rewrite <- E; clear E x xs;
    rewrite varint_tag0 by (try apply K; reflexivity); rewrite tag_land by reflexivity.
  - cbn in W. destruct W as [_ W]. unfold skipVarint. rewrite varint_pb by assumption. rewrite zlen_app. reflexivity.
  - cbn in W. destruct W as [_ W]. rewrite zlen_app. unfold zlen at 3. rewrite W. reflexivity.
  - assert (B : blen b < 2 ^ 63).
    { rewrite enc_tag in L. cbn [body] in L. rewrite !zlen_app in L. pose proof (zlen_nat b). pose proof (zlen_pos (pb_varint (blen b))). pose proof (zlen_pos rest).
      pose proof (zlen_pos (tag (number (WBytes k b)) (wt (WBytes k b)))). change (2 ^ 63) with 9223372036854775808. lia. }
    rewrite varint_pb by (change (2 ^ 63) with 9223372036854775808 in B; change (2 ^ 64) with 18446744073709551616; lia).
    rewrite int_of_small by assumption. destruct (Z.ltb_spec (Z.of_N (blen b)) 0); [lia|]. rewrite zlen_nat, i64_small.
    + rewrite !zlen_app. f_equal. lia.
    + rewrite enc_tag in L. cbn [number wt body] in L. rewrite !zlen_app in L. pose proof (zlen_pos (tag k 2)). pose proof (zlen_pos (pb_varint (blen b))).
      pose proof (zlen_pos b). pose proof (zlen_pos rest). lia.
  - cbn in W. destruct W as [_ W].
    assert (WF : Forall wellFormed fs) by (clear - W; induction fs as [|f fs IHf]; constructor; [apply W|apply IHf, W]). clear W.
    set (d := tag k 3 ++ flat_map enc fs ++ tag k 4 ++ rest).
    assert (LD : (zlen d < 2 ^ 62)%Z) by (unfold d; cbn [enc] in L; rewrite <- !app_assoc in L; exact L).
    assert (FD : (length d < S fuel)%nat) by (unfold d; cbn [enc] in F; rewrite <- !app_assoc in F; exact F).
    match goal with |- context [?g (length d) (i64 (zlen (tag k 3) + _))] => set (grp := g) end.
    assert (GS : forall k i, grp (S k) i = match varint 10 d i 0 0 with
               | Ok (inner, i') =>
                 if N.land inner 7 =? 4 then Ok i'
                 else match slice d i (zlen d) with
                      | None => Panic
                      | Some d' =>
                        match skipRpc fuel d' with
                        | Ok next => grp k (i64 (i + next))
                        | Err e => Err e | Panic => Panic | NoFuel => NoFuel
                        end
                      end
               | Err e => Err e | Panic => Panic | NoFuel => NoFuel
               end) by reflexivity.
    rewrite <- (GS (length d) (zlen (tag k 3))). clearbody grp.
    assert (G : forall fs', Forall wellFormed fs' ->
       Forall (fun f => wellFormed f -> forall fuel rest, (zlen (enc f ++ rest) < 2 ^ 62)%Z -> (length (enc f ++ rest) < fuel)%nat -> skipRpc fuel (enc f ++ rest) = Ok (zlen (enc f))) fs' ->
       forall pre n, (0 < length pre)%nat -> d = pre ++ flat_map enc fs' ++ tag k 4 ++ rest -> (length (flat_map enc fs' ++ tag k 4) < n)%nat ->
       grp n (zlen pre) = Ok (zlen (pre ++ flat_map enc fs' ++ tag k 4))).
    { induction fs' as [|f fs' IHf]; intros W' H pre n P D N'; (destruct n as [|n]; [lia|]); rewrite GS.
      - cbn [flat_map app] in *. rewrite D. rewrite varint_tag by (try apply K; reflexivity). rewrite tag_land by reflexivity.
        rewrite N.eqb_refl, zlen_app. reflexivity.
      - pose proof (Forall_inv W') as W1; pose proof (Forall_inv_tail W') as W2; pose proof (Forall_inv H) as H1; pose proof (Forall_inv_tail H) as H2; cbv beta in H1. cbn [flat_map] in D, N' |- *. rewrite <- app_assoc in D.
        assert (D2 : d = pre ++ tag (number f) (wt f) ++ (body f ++ flat_map enc fs' ++ tag k 4 ++ rest))
          by (rewrite D, (enc_tag f), <- !app_assoc; reflexivity).
        rewrite D2 at 1. rewrite varint_tag by (try apply (wf_number f); auto using wt_small). rewrite tag_land by apply wt_small.
        destruct (N.eqb_spec (wt f) 4) as [E4|_]; [elim (wt_not4 f E4)|].
        rewrite slice_tail by (rewrite D, zlen_app; pose proof (zlen_pos pre); pose proof (zlen_pos (enc f ++ flat_map enc fs' ++ tag k 4 ++ rest)); lia).
        replace (Z.to_nat (zlen pre)) with (length pre) by (unfold zlen; lia). rewrite D at 1. rewrite skipn_app, skipn_all, Nat.sub_diag. cbn [skipn app].
        assert (LD' := LD). rewrite D in LD'. rewrite zlen_app in LD'. pose proof (zlen_pos pre).
        assert (FD' := FD). rewrite D in FD'. rewrite app_length in FD'.
        rewrite H1 by (auto; lia).
        assert (LP : (zlen pre + zlen (enc f) < 2 ^ 62)%Z) by (rewrite zlen_app in LD'; pose proof (zlen_pos (flat_map enc fs' ++ tag k 4 ++ rest)); lia).
        pose proof (zlen_pos (enc f)). rewrite i64_small by lia. rewrite <- zlen_app.
        rewrite (IHf W2 H2 (pre ++ enc f) n).
        + rewrite <- !app_assoc. reflexivity.
        + rewrite app_length. lia.
        + rewrite D, <- !app_assoc. reflexivity.
        + rewrite <- !app_assoc in N'. rewrite app_length in N'. assert (0 < length (enc f))%nat by (rewrite enc_tag, app_length; pose proof (tag_pos (number f) (wt f)); lia). lia. }
    rewrite (G fs WF IH (tag k 3) (S (length d))).
    + cbn [enc]. reflexivity.
    + apply tag_pos.
    + reflexivity.
    + unfold d. rewrite !app_length. lia.
  - cbn in W. destruct W as [_ W]. rewrite zlen_app. unfold zlen at 3. rewrite W. reflexivity.
Qed.

(** What one field does to the message. *)
Definition apply1 (m : RpcRequest) (f : wfield) : RpcRequest :=
  match f with
  | WBytes k b => if k =? 1 then mkReq b (Method m) (Params m) (Unrecognized m)
                  else if k =? 2 then mkReq (NS m) b (Params m) (Unrecognized m)
                  else if k =? 3 then mkReq (NS m) (Method m) b (Unrecognized m)
                  else mkReq (NS m) (Method m) (Params m) (Unrecognized m ++ enc f)
  | _ => mkReq (NS m) (Method m) (Params m) (Unrecognized m ++ enc f)
  end.

Lemma enc_pos : forall f, (0 < length (enc f))%nat.
Proof. intro f. rewrite enc_tag, app_length. pose proof (tag_pos (number f) (wt f)). lia. Qed.

Lemma unmarshal_one : forall f pre rest fuel m, wellFormed f -> rightType f -> (zlen (pre ++ enc f ++ rest) < 2 ^ 62)%Z ->
  unmarshalLoop (S fuel) (pre ++ enc f ++ rest) (zlen pre) m = unmarshalLoop fuel (pre ++ enc f ++ rest) (zlen (pre ++ enc f)) (apply1 m f).
Proof.
  intros f pre rest fuel m W R L. pose proof (wf_number f W) as K. pose proof (enc_pos f) as EP.
  set (d := pre ++ enc f ++ rest) in *. cbn [unmarshalLoop].
  assert (LP : (zlen pre + zlen (enc f) + zlen rest < 2 ^ 62)%Z) by (unfold d in L; rewrite !zlen_app in L; lia).
  pose proof (zlen_pos pre) as P0. pose proof (zlen_pos rest) as P1.
  assert (ZE : (0 < zlen (enc f))%Z) by (unfold zlen; lia).
  assert (ZD : zlen d = (zlen pre + zlen (enc f) + zlen rest)%Z) by (unfold d; rewrite !zlen_app; lia).
  destruct (Z.leb_spec (zlen d) (zlen pre)); [lia|].
  assert (D2 : d = pre ++ tag (number f) (wt f) ++ (body f ++ rest)) by (unfold d; rewrite (enc_tag f), <- !app_assoc; reflexivity).
  rewrite D2 at 1. rewrite varint_tag by (try apply K; apply wt_small). rewrite tag_land by apply wt_small. rewrite tag_num by (auto using wt_small).
  destruct (N.eqb_spec (wt f) 4) as [E4|_]; [elim (wt_not4 f E4)|].
  destruct (Z.leb_spec (Z.of_N (number f)) 0); [lia|].
  destruct ((Z.of_N (number f) =? 1)%Z || (Z.of_N (number f) =? 2)%Z || (Z.of_N (number f) =? 3)%Z)%bool eqn:KN.
  - assert (KF : known f = true) by (apply R; lia). destruct f as [k v|k b|k b|k fs|k b]; try discriminate.
    cbn [wt number body] in *. cbn [N.eqb negb]. unfold lenField.
    assert (B : blen b < 2 ^ 62).
    { pose proof (zlen_nat b). pose proof (zlen_pos (tag k 2)). pose proof (zlen_pos (pb_varint (blen b))).
      cbn [enc] in LP. rewrite !zlen_app in LP. change (2 ^ 62) with 4611686018427387904. lia. }
    assert (D3 : d = (pre ++ tag k 2) ++ pb_varint (blen b) ++ (b ++ rest)) by (rewrite D2, <- !app_assoc; reflexivity).
    rewrite <- zlen_app. rewrite D3 at 1. rewrite varint_pb by (change (2 ^ 62) with 4611686018427387904 in B; change (2 ^ 64) with 18446744073709551616; lia).
    rewrite int_of_small by (change (2 ^ 62) with 4611686018427387904 in B; change (2 ^ 63) with 9223372036854775808; lia).
    destruct (Z.ltb_spec (Z.of_N (blen b)) 0); [lia|]. rewrite zlen_nat. rewrite <- zlen_app.
    assert (POST : i64 (zlen ((pre ++ tag k 2) ++ pb_varint (blen b)) + zlen b) = zlen (pre ++ enc (WBytes k b))).
    { rewrite <- zlen_app. cbn [enc]. rewrite <- !app_assoc. apply i64_small. rewrite zlen_app. cbn [enc] in LP.
      pose proof (zlen_pos (tag k 2 ++ pb_varint (blen b) ++ b)). lia. }
    rewrite POST. destruct (Z.ltb_spec (zlen d) (zlen (pre ++ enc (WBytes k b)))); [rewrite zlen_app in *; lia|].
    replace (zlen (pre ++ enc (WBytes k b))) with (zlen ((pre ++ tag k 2) ++ pb_varint (blen b)) + zlen b)%Z at 1
      by (rewrite <- zlen_app; cbn [enc]; rewrite <- !app_assoc; reflexivity).
    replace d with (((pre ++ tag k 2) ++ pb_varint (blen b)) ++ b ++ rest) at 1 by (rewrite D3, <- !app_assoc; reflexivity).
    rewrite slice_app. f_equal. cbn [apply1].
    destruct (Z.eqb_spec (Z.of_N k) 1); destruct (N.eqb_spec k 1); try lia; [reflexivity|].
    destruct (Z.eqb_spec (Z.of_N k) 2); destruct (N.eqb_spec k 2); try lia; [reflexivity|].
    destruct (N.eqb_spec k 3); [reflexivity|lia].
  - rewrite slice_tail by lia. replace (Z.to_nat (zlen pre)) with (length pre) by (unfold zlen; lia).
    assert (SK : skipn (length pre) d = enc f ++ rest) by (unfold d; rewrite skipn_app, skipn_all, Nat.sub_diag; reflexivity).
    rewrite SK. rewrite (skip_spec f W) by (try lia; rewrite zlen_app; lia).
    destruct (Z.ltb_spec (zlen (enc f)) 0); [lia|]. rewrite i64_small by lia. destruct (Z.ltb_spec (zlen d) (zlen pre + zlen (enc f))); [lia|].
    unfold d at 1. rewrite slice_app, <- zlen_app. f_equal.
    destruct f as [k v|k b|k b|k fs|k b]; try reflexivity. cbn [apply1 number] in *.
    destruct (N.eqb_spec k 1); [lia|]. destruct (N.eqb_spec k 2); [lia|]. destruct (N.eqb_spec k 3); [lia|]. reflexivity.
Qed.

Lemma unmarshal_many : forall fs pre rest fuel m, Forall wellFormed fs -> Forall rightType fs -> (zlen (pre ++ flat_map enc fs ++ rest) < 2 ^ 62)%Z ->
  (length (flat_map enc fs ++ rest) < fuel)%nat ->
  exists fuel', (length rest < fuel')%nat /\
  unmarshalLoop fuel (pre ++ flat_map enc fs ++ rest) (zlen pre) m = unmarshalLoop fuel' (pre ++ flat_map enc fs ++ rest) (zlen (pre ++ flat_map enc fs)) (fold_left apply1 fs m).
Proof.
  induction fs as [|f fs IH]; intros pre rest fuel m W R L F.
  - exists fuel. cbn in *. rewrite app_nil_r. auto.
  - inversion W; inversion R; subst. destruct fuel as [|fuel]; [lia|]. cbn [flat_map fold_left] in *. rewrite <- !app_assoc in *.
    rewrite unmarshal_one by assumption.
    destruct (IH (pre ++ enc f) rest fuel (apply1 m f)) as (fuel' & A & B); auto.
    + rewrite <- app_assoc. assumption.
    + rewrite app_length in F. pose proof (enc_pos f). lia.
    + exists fuel'. split; [assumption|]. rewrite <- !app_assoc in B. exact B.
Qed.

Lemma apply_spec : forall fs m, fold_left apply1 fs m =
  mkReq (fold_left (fun v f => match f with WBytes k' b => if k' =? 1 then b else v | _ => v end) fs (NS m))
        (fold_left (fun v f => match f with WBytes k' b => if k' =? 2 then b else v | _ => v end) fs (Method m))
        (fold_left (fun v f => match f with WBytes k' b => if k' =? 3 then b else v | _ => v end) fs (Params m))
        (Unrecognized m ++ unknown fs).
Proof.
  induction fs as [|f fs IH]; intro m; [destruct m; cbn; unfold unknown; cbn; rewrite app_nil_r; reflexivity|].
  cbn [fold_left]. rewrite IH. unfold unknown. cbn [filter].
  destruct f as [k v|k b|k b|k fs'|k b]; cbn [apply1 known negb NS Method Params Unrecognized flat_map]; try (rewrite app_assoc; reflexivity).
  destruct (N.eqb_spec k 1) as [->|N1]; [reflexivity|]. destruct (N.eqb_spec k 2) as [->|N2]; [reflexivity|]. destruct (N.eqb_spec k 3) as [->|N3]; [reflexivity|].
  destruct ((1 <=? k) && (k <=? 3)) eqn:E; [lia|]. cbn [NS Method Params Unrecognized negb flat_map]. rewrite app_assoc. reflexivity.
Qed.

(** Any sequence of well-formed fields, in any order, with repetitions and unknown fields of all wire types. *)
Theorem C63_any_fields : forall fs, Forall wellFormed fs -> Forall rightType fs -> (zlen (flat_map enc fs) < 2 ^ 62)%Z ->
  Unmarshal (flat_map enc fs) = Ok (mkReq (lastOf 1 fs) (lastOf 2 fs) (lastOf 3 fs) (unknown fs)).
Proof.
  intros fs W R L. unfold Unmarshal.
  destruct (unmarshal_many fs [] [] (S (length (flat_map enc fs))) emptyReq W R) as (fuel' & A & B); cbn [app]; try (rewrite app_nil_r); auto.
  cbn [app] in B. rewrite app_nil_r in B. change (zlen []) with 0%Z in B. rewrite B. rewrite unmarshal_end by (cbn in A; lia).
  rewrite apply_spec. reflexivity.
Qed.
Print Assumptions C63_any_fields.

Lemma enc_body_len : forall k b, (zlen b <= zlen (enc (WBytes k b)))%Z.
Proof. intros. cbn [enc]. rewrite !zlen_app. pose proof (zlen_pos (tag k 2)). pose proof (zlen_pos (pb_varint (blen b))). lia. Qed.

Lemma lastOf_len : forall k fs v, (zlen (fold_left (fun v f => match f with WBytes k' b => if (k' =? k)%N then b else v | _ => v end) fs v) <= zlen v + zlen (flat_map enc fs))%Z.
Proof.
  intros k. induction fs as [|f fs IH]; intro v; cbn [fold_left flat_map]; [unfold zlen; cbn; lia|]. rewrite zlen_app.
  specialize (IH (match f with WBytes k' b => if k' =? k then b else v | _ => v end)).
  pose proof (zlen_pos (enc f)). pose proof (zlen_pos v).
  assert (zlen (match f with WBytes k' b => if (k' =? k)%N then b else v | _ => v end) <= zlen v + zlen (enc f))%Z.
  { destruct f as [k' v'|k' b|k' b|k' fs'|k' b]; try lia. destruct (k' =? k); [pose proof (enc_body_len k' b)|]; lia. }
  lia.
Qed.

(** Encoding the result again keeps the unknown fields, byte by byte and in order, after the known ones. *)
Theorem C63_kept : forall fs m, Forall wellFormed fs -> Forall rightType fs -> (zlen (flat_map enc fs) < 2 ^ 62)%Z ->
  Unmarshal (flat_map enc fs) = Ok m -> Marshal m = Some (pb_message (lastOf 1 fs) (lastOf 2 fs) (lastOf 3 fs) ++ unknown fs).
Proof.
  intros fs m W R L E. rewrite C63_any_fields in E by assumption. inversion E; subst m.
  assert (B : forall k, blen (lastOf k fs) < 2 ^ 64).
  { intro k. pose proof (lastOf_len k fs []) as Q. fold (lastOf k fs) in Q. change (zlen []) with 0%Z in Q. pose proof (zlen_nat (lastOf k fs)). change (2 ^ 64) with 18446744073709551616. lia. }
  rewrite Marshal_spec by apply B. reflexivity.
Qed.
Print Assumptions C63_kept.

(** A field 1, 2 or 3 of another wire type is refused, wherever it comes and whatever follows. *)
Theorem C63_wrong_type_refused : forall fs f rest, Forall wellFormed fs -> Forall rightType fs -> wellFormed f -> ~ rightType f ->
  (zlen (flat_map enc fs ++ enc f ++ rest) < 2 ^ 62)%Z -> exists e, Unmarshal (flat_map enc fs ++ enc f ++ rest) = Err e.
Proof.
  intros fs f rest W R Wf Rf L. unfold Unmarshal.
  destruct (unmarshal_many fs [] (enc f ++ rest) (S (length (flat_map enc fs ++ enc f ++ rest))) emptyReq W R) as (fuel' & A & B); auto.
  cbn [app] in B. change (zlen []) with 0%Z in B. rewrite B. exists ErrFormat. destruct fuel' as [|fuel']; [lia|].
  set (pre := flat_map enc fs) in *. pose proof (wf_number f Wf) as K.
  assert (D2 : pre ++ enc f ++ rest = pre ++ tag (number f) (wt f) ++ (body f ++ rest)) by (rewrite (enc_tag f), <- !app_assoc; reflexivity).
  set (d := pre ++ enc f ++ rest) in *. cbn [unmarshalLoop].
  assert (KN : 1 <= number f <= 3 /\ wt f <> 2).
  { unfold rightType in Rf. destruct (N.leb_spec (number f) 3); [|elim Rf; intro; lia]. split; [lia|]. intro Z. apply Rf. intro.
    destruct f; try discriminate. cbn in *. lia. }
  destruct (Z.leb_spec (zlen d) (zlen pre)) as [Q|_]; [exfalso; unfold d in Q; rewrite !zlen_app in Q; pose proof (enc_pos f); pose proof (zlen_pos rest); unfold zlen in Q; lia|].
  rewrite D2 at 1. rewrite varint_tag by (try apply K; apply wt_small). rewrite tag_land by apply wt_small. rewrite tag_num by (auto using wt_small).
  destruct (N.eqb_spec (wt f) 4) as [E4|_]; [elim (wt_not4 f E4)|].
  destruct (Z.leb_spec (Z.of_N (number f)) 0); [lia|].
  destruct ((Z.of_N (number f) =? 1)%Z || (Z.of_N (number f) =? 2)%Z || (Z.of_N (number f) =? 3)%Z)%bool eqn:E3; [|lia].
  destruct (N.eqb_spec (wt f) 2); [tauto|]. reflexivity.
Qed.
Print Assumptions C63_wrong_type_refused.

(** All wire types, a group in a group, the method before the namespace and twice. *)
Example C63_example :
  let fs := [WBytes 2 [109]; WVar 9 300; WGroup 5 [W32 1 [1;2;3;4]; WGroup 6 [W64 7 [1;2;3;4;5;6;7;8]]; WBytes 8 []]; WBytes 1 [110]; WBytes 2 [111;112]; W32 100 [0;0;0;1]] in
  Forall wellFormed fs /\ Forall rightType fs /\
  Unmarshal (flat_map enc fs) = Ok (mkReq [110] [111;112] [] (enc (WVar 9 300) ++ enc (WGroup 5 [W32 1 [1;2;3;4]; WGroup 6 [W64 7 [1;2;3;4;5;6;7;8]]; WBytes 8 []]) ++ enc (W32 100 [0;0;0;1]))) /\
  Unmarshal (enc (WVar 1 5)) = Err ErrFormat.
Proof.
  cbn zeta. split; [repeat constructor; cbn; lia|]. split; [repeat constructor; unfold rightType; cbn; lia|]. split; vm_compute; reflexivity.
Qed.
