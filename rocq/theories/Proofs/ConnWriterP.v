(** Lemmas about writer.go's loops. *)
From Coq Require Import ZifyBool ZifyNat ZifyN.
From Verif Require Import Model.GoBase Model.ConnWriter.
Open Scope nat_scope.

Lemma tcpWrite_spec : forall b e n d err, tcpWrite b e = (n, d, err) ->
  n <= length b /\ d = firstn n b /\ (err = None -> n = length b) /\ (b <> [] -> n = length b -> err = None) /\
  err <> Some WCtx.
Proof.
  intros b e n d err H. unfold tcpWrite in H. destruct e as [|k t]; inversion H; subst; clear H.
  - rewrite firstn_all. repeat split; try lia; try discriminate; auto.
  - repeat split; try lia.
    + discriminate.
    + intros Hb Hn. destruct b; [congruence|]. cbn [length] in Hn. lia.
    + destruct t; discriminate.
Qed.

Lemma wLoop_spec : forall timeout bs its offset sent n err d,
  offset <= length bs -> sent = firstn offset bs ->
  wLoop tcpWrite timeout bs offset its sent = Some (n, err, d) ->
  n <= length bs /\ d = firstn n bs /\ (err = None -> n = length bs) /\
  (offset < length bs -> n = length bs -> err = None).
Proof.
  intros timeout bs. induction its as [|it its IH]; intros offset sent n err d Ho Hs HL; [discriminate|].
  cbn [wLoop] in HL.
  destruct (tcpWrite (skipn offset bs) (ev0 (iev it))) as [[k dd] e] eqn:EW.
  apply tcpWrite_spec in EW. destruct EW as (Hk & Hd & Hn & Hfull & Hc).
  rewrite skipn_length in *.
  assert (Hsent : sent ++ dd = firstn (offset + k) bs).
  { subst. rewrite <- (firstn_skipn offset bs) at 3. rewrite firstn_app.
    rewrite firstn_length_le by assumption. rewrite firstn_firstn.
    replace (min (offset + k) offset) with offset by lia.
    replace (offset + k - offset) with k by lia. reflexivity. }
  assert (Hlast : offset < length bs -> e <> None -> offset + k < length bs).
  { intros Hlt He. assert (skipn offset bs <> []).
    { intro X. apply (f_equal (@length N)) in X. rewrite skipn_length in X. cbn in X. lia. }
    destruct (Nat.eq_dec k (length bs - offset)) as [E|E]; [|lia].
    exfalso. apply He. apply Hfull; assumption. }
  destruct e as [[| |]|].
  - destruct (Z.ltb 0 timeout && iafter it)%bool.
    + inversion HL; subst; clear HL. repeat split; try lia; try assumption; try discriminate.
      intros Hlt. specialize (Hlast Hlt ltac:(discriminate)). lia.
    + destruct (Nat.leb (length bs) (offset + k)) eqn:EL.
      * apply Nat.leb_le in EL. inversion HL; subst; clear HL. repeat split; try lia; assumption.
      * apply Nat.leb_gt in EL. destruct (ictx it).
        -- inversion HL; subst; clear HL. repeat split; try lia; try assumption; discriminate.
        -- destruct (IH (offset + k) _ n err d ltac:(lia) Hsent HL) as (A & B & C & D).
           repeat split; try assumption. intros _. apply D. assumption.
  - inversion HL; subst; clear HL. repeat split; try lia; try assumption; try discriminate.
    intros Hlt. specialize (Hlast Hlt ltac:(discriminate)). lia.
  - congruence.
  - specialize (Hn eq_refl).
    replace (Nat.leb (length bs) (offset + k)) with true in HL by (symmetry; apply Nat.leb_le; lia).
    inversion HL; subst; clear HL. repeat split; try lia; assumption.
Qed.

(** ---- batches ---- *)
Lemma skipn_skipn' : forall (A : Type) x y (l : list A), skipn x (skipn y l) = skipn (y + x) l.
Proof. induction y as [|y IH]; intros [|a l]; cbn; try reflexivity; [apply skipn_nil|apply IH]. Qed.

(** result of consume: [g] entries gone, [v'] remaining *)
Lemma consume_concat : forall nilit v n g v', consume nilit v n = (g, v') ->
  length g + length v' = length v /\ concat v' = skipn n (concat v).
Proof.
  induction v as [|b v IH]; intros n g v' H; cbn [consume] in H.
  - inversion H; subst. cbn. rewrite skipn_nil. split; reflexivity.
  - destruct (Nat.ltb n (length b)) eqn:E.
    + apply Nat.ltb_lt in E. inversion H; subst. cbn [length concat]. split; [reflexivity|].
      rewrite skipn_app. replace (n - length b) with 0 by lia. reflexivity.
    + apply Nat.ltb_ge in E. destruct (consume nilit v (n - length b)) as [d r] eqn:EC.
      inversion H; subst. apply IH in EC. destruct EC as [E1 E2]. cbn [length concat]. split; [lia|].
      rewrite skipn_app. rewrite (skipn_all2 b) by lia. cbn [app]. assumption.
Qed.

(** which entries of the backing array are empty afterwards: exactly those whose bytes are all
    among the first [n], provided no entry was empty before *)
Lemma consume_empty : forall v n g v', Forall (fun b => b <> []) v -> consume true v n = (g, v') ->
  forall i, i < length v ->
    (nth i (g ++ v') [] = [] <-> length (concat (firstn (S i) v)) <= n).
Proof.
  induction v as [|b v IH]; intros n g v' HF H i Hi; [cbn in Hi; lia|].
  inversion HF as [|? ? Hb HF']; subst.
  assert (Hlb : 0 < length b) by (destruct b; [congruence|cbn; lia]).
  cbn [consume] in H. destruct (Nat.ltb n (length b)) eqn:E.
  - apply Nat.ltb_lt in E. inversion H; subst. cbn [app].
    destruct i as [|i].
    + cbn [nth firstn concat]. rewrite app_nil_r. split; intro X.
      * apply (f_equal (@length N)) in X. rewrite skipn_length in X. cbn in X. lia.
      * lia.
    + cbn [nth]. split; intro X.
      * exfalso. rewrite Forall_forall in HF'. apply (HF' (nth i v [])); [|assumption].
        apply nth_In. cbn in Hi. lia.
      * cbn [firstn concat] in X. rewrite app_length in X. lia.
  - apply Nat.ltb_ge in E. destruct (consume true v (n - length b)) as [d r] eqn:EC.
    inversion H; subst. cbn [app]. destruct i as [|i].
    + cbn [nth firstn concat]. rewrite app_nil_r. split; [lia|reflexivity].
    + cbn [nth]. rewrite (IH _ _ _ HF' EC) by (cbn in Hi; lia).
      cbn [firstn concat]. rewrite !app_length. destruct v; cbn [firstn concat]; rewrite ?app_length; lia.
Qed.

Lemma consume_nonempty : forall v n g v', Forall (fun b => b <> []) v -> consume true v n = (g, v') ->
  Forall (fun b => b <> []) v' /\ Forall (fun b => b = []) g.
Proof.
  induction v as [|b v IH]; intros n g v' HF H; cbn [consume] in H.
  - inversion H; subst. split; constructor.
  - inversion HF as [|? ? Hb HF']; subst. destruct (Nat.ltb n (length b)) eqn:E.
    + apply Nat.ltb_lt in E. inversion H; subst. split; [|constructor].
      constructor; [|assumption]. intro X. apply (f_equal (@length N)) in X. rewrite skipn_length in X. cbn in X. lia.
    + destruct (consume true v (n - length b)) as [d r] eqn:EC. inversion H; subst.
      apply IH in EC; [|assumption]. destruct EC. split; [assumption|constructor; [reflexivity|assumption]].
Qed.

(** relation between a batch [frames] of which the first [off] bytes were delivered and the
    backing array [arr]: entry i is empty iff frame i was completely delivered *)
Definition accounted (frames arr : list bytes) (off : nat) : Prop :=
  length arr = length frames /\
  forall i, i < length frames ->
    (nth i arr [] = [] <-> length (concat (firstn (S i) frames)) <= off).

Lemma concat_firstn_le : forall (l : list bytes) i, length (concat (firstn i l)) <= length (concat l).
Proof.
  intros l i. rewrite <- (firstn_skipn i l) at 2. rewrite concat_app, app_length. lia.
Qed.

Lemma wbLoop_spec : forall wv timeout frames its gone v offset sent arr err d,
  (forall v evs n d err, wv v evs = (n, d, err) ->
     n <= length (concat v) /\ d = firstn n (concat v) /\ (err = None -> n = length (concat v)) /\
     err <> Some WCtx) ->
  (* invariant *)
  (exists done rest_off, frames = done ++ rest_off /\ length gone = length done /\ length v = length rest_off /\
     Forall (fun b => b = []) gone /\ Forall (fun b => b <> []) v /\
     length (concat done) <= offset /\
     offset <= length (concat frames) /\
     concat v = skipn offset (concat frames) /\
     (forall i, i < length v -> length (concat (firstn (S i) v)) + offset = length (concat (firstn (S i) rest_off)) + length (concat done))) ->
  sent = firstn offset (concat frames) ->
  wbLoop true wv timeout (length (concat frames)) gone v offset its sent = Some (arr, err, d) ->
  exists off, off <= length (concat frames) /\ d = firstn off (concat frames) /\
    accounted frames arr off /\ (err = None -> off = length (concat frames)).
Proof.
  intros wv timeout frames its. induction its as [|it its IH];
    intros gone v offset sent arr err d Hwv Hinv Hsent HL; [discriminate|].
  destruct Hinv as (done & ro & Ef & Lg & Lv & Fg & Fv & Hdone & Hoff & Hcv & Hacc).
  cbn [wbLoop] in HL.
  destruct (wv v (iev it)) as [[n dd] e] eqn:EW. apply Hwv in EW. destruct EW as (Hn & Hd & Hfull & Hctx).
  destruct (consume true v n) as [g v'] eqn:EC.
  pose proof (consume_concat _ _ _ _ _ EC) as [CL CC].
  pose proof (consume_empty v n g v' Fv EC) as CE.
  pose proof (consume_nonempty v n g v' Fv EC) as [CF CG].
  assert (Hlen : length (concat v) = length (concat frames) - offset) by (rewrite Hcv, skipn_length; reflexivity).
  unfold bytes in *.
  set (off2 := offset + n) in *.
  assert (Hoff2 : off2 <= length (concat frames)) by (unfold off2; lia).
  assert (Hsent2 : sent ++ dd = firstn off2 (concat frames)).
  { subst sent dd. unfold off2. rewrite Hcv.
    rewrite <- (firstn_skipn offset (concat frames)) at 3. rewrite firstn_app.
    rewrite firstn_length_le by assumption. rewrite firstn_firstn.
    replace (min (offset + n) offset) with offset by lia.
    replace (offset + n - offset) with n by lia. reflexivity. }
  assert (Hacc2 : accounted frames ((gone ++ g) ++ v') off2).
  { split.
    - rewrite Ef, !app_length. unfold bytes in *. lia.
    - intros i Hi. rewrite Ef in Hi. rewrite app_length in Hi. rewrite <- app_assoc.
      destruct (Nat.lt_ge_cases i (length gone)) as [Hlt|Hge].
      + rewrite app_nth1 by assumption.
        assert (X : nth i gone [] = []).
        { rewrite Forall_forall in Fg. apply Fg. apply nth_In. assumption. }
        rewrite X. split; [intros _|reflexivity].
        rewrite Ef. rewrite firstn_app. replace (S i - length done) with 0 by lia. rewrite firstn_O, app_nil_r. pose proof (concat_firstn_le done (S i)) as Y. unfold bytes in *. unfold off2. lia.
      + rewrite app_nth2 by assumption.
        assert (Hi2 : i - length gone < length v) by lia.
        rewrite (CE _ Hi2). specialize (Hacc _ Hi2).
        rewrite Ef, firstn_app. rewrite (firstn_all2 done) by lia.
        replace (S i - length done) with (S (i - length gone)) by lia.
        rewrite concat_app, app_length. unfold off2. lia. }
  assert (Hcont : forall arr err d,
     wbLoop true wv timeout (length (concat frames)) (gone ++ g) v' off2 its (sent ++ dd) = Some (arr, err, d) ->
     exists off, off <= length (concat frames) /\ d = firstn off (concat frames) /\
       accounted frames arr off /\ (err = None -> off = length (concat frames))).
  { intros arr' err' d' HL'. apply (IH (gone ++ g) v' off2 (sent ++ dd) arr' err' d' Hwv); [|assumption|assumption].
    exists (done ++ firstn (length g) ro), (skipn (length g) ro).
    assert (Lg2 : length g <= length ro) by lia.
    split; [rewrite <- app_assoc, firstn_skipn; assumption|].
    split; [rewrite !app_length, firstn_length_le by assumption; lia|].
    split; [rewrite skipn_length; lia|].
    split; [apply Forall_app; split; assumption|].
    split; [assumption|].
    assert (Hd2 : length (concat (done ++ firstn (length g) ro)) <= off2).
    { destruct (Nat.eq_dec (length g) 0) as [Z|Z].
      - rewrite Z. cbn [firstn]. rewrite app_nil_r. unfold off2. lia.
      - assert (Hi : length g - 1 < length v) by lia.
        assert (X : nth (length g - 1) (g ++ v') [] = []).
        { rewrite app_nth1 by lia. rewrite Forall_forall in CG. apply CG. apply nth_In. lia. }
        apply (CE _ Hi) in X. specialize (Hacc _ Hi).
        replace (S (length g - 1)) with (length g) in * by lia.
        rewrite concat_app, app_length. unfold off2. lia. }
    split; [assumption|]. split; [assumption|].
    split; [rewrite CC, Hcv, skipn_skipn'; reflexivity|].
    intros i Hi.
    assert (Cg : length (concat (firstn (length g + S i) v)) = n + length (concat (firstn (S i) v'))).
    { assert (HH : forall v n g v', Forall (fun b => b <> []) v -> n <= length (concat v) -> consume true v n = (g, v') ->
         forall k, k <= length v' -> 0 < k -> length (concat (firstn (length g + k) v)) = n + length (concat (firstn k v'))).
      { clear. unfold bytes in *. induction v as [|b v IH]; intros n g v' HF Hn H k Hk Hk0; cbn [consume] in H.
        - inversion H; subst. cbn in Hk. lia.
        - inversion HF as [|? ? Hb HF']; subst. destruct (Nat.ltb n (length b)) eqn:E.
          + apply Nat.ltb_lt in E. inversion H; subst. cbn [length Nat.add].
            destruct k; [lia|]. cbn [firstn concat]. rewrite !app_length, skipn_length. unfold bytes in *. lia.
          + apply Nat.ltb_ge in E. destruct (consume true v (n - length b)) as [d r] eqn:EC. inversion H; subst.
            cbn [length Nat.add firstn concat]. rewrite app_length.
            cbn [concat] in Hn. rewrite app_length in Hn. unfold bytes in *.
            rewrite (IH (n - length b) d v' HF' ltac:(lia) EC) by lia. lia. }
      apply (HH v n g v' Fv Hn EC); unfold bytes in *; lia. }
    assert (Hi2 : length g + i < length v) by lia.
    specialize (Hacc _ Hi2). replace (S (length g + i)) with (length g + S i) in Hacc by lia.
    rewrite Cg in Hacc.
    rewrite concat_app, app_length.
    rewrite <- (firstn_skipn (length g) ro) in Hacc at 1.
    rewrite firstn_app, firstn_length_le in Hacc by assumption.
    rewrite (firstn_all2 (firstn (length g) ro)) in Hacc by (rewrite firstn_length_le by assumption; lia).
    replace (length g + S i - length g) with (S i) in Hacc by lia.
    rewrite concat_app, app_length in Hacc. unfold off2. lia. }
  assert (Hret : forall e', Some ((gone ++ g) ++ v', e', sent ++ dd) = Some (arr, err, d) ->
     (e' = None -> off2 = length (concat frames)) ->
     exists off, off <= length (concat frames) /\ d = firstn off (concat frames) /\
       accounted frames arr off /\ (err = None -> off = length (concat frames))).
  { intros e' X HE. inversion X; subst. exists off2. split; [assumption|]. split; [assumption|]. split; assumption. }
  destruct e as [[| |]|].
  - destruct (Z.ltb 0 timeout && iafter it)%bool; [apply (Hret _ HL); discriminate|].
    destruct (Nat.leb (length (concat frames)) off2) eqn:EL.
    + apply Nat.leb_le in EL. apply (Hret _ HL). intros _. lia.
    + destruct (ictx it); [apply (Hret _ HL); discriminate|apply Hcont; assumption].
  - apply (Hret _ HL). discriminate.
  - congruence.
  - specialize (Hfull eq_refl).
    replace (Nat.leb (length (concat frames)) off2) with true in HL by (symmetry; apply Nat.leb_le; unfold off2; lia).
    apply (Hret _ HL). intros _. unfold off2. lia.
Qed.

Lemma tcpWritev_ok : forall v evs n d err, tcpWritev v evs = (n, d, err) ->
  n <= length (concat v) /\ d = firstn n (concat v) /\ (err = None -> n = length (concat v)) /\ err <> Some WCtx.
Proof.
  intros v evs n d err H. apply tcpWrite_spec in H. destruct H as (A & B & C & D & E).
  repeat split; assumption.
Qed.

(** the per-buffer WriteTo over an honest Write behaves the same *)
Lemma seqWritev_tcp_ok : forall v evs n d err, seqWritev tcpWrite v evs = (n, d, err) ->
  n <= length (concat v) /\ d = firstn n (concat v) /\ (err = None -> n = length (concat v)) /\ err <> Some WCtx.
Proof.
  induction v as [|b v IH]; intros evs n d err H; cbn [seqWritev] in H.
  - inversion H; subst. cbn. repeat split; try lia; discriminate.
  - destruct (tcpWrite b (ev0 evs)) as [[n1 d1] e1] eqn:E1. apply tcpWrite_spec in E1.
    destruct E1 as (A & B & C & D & E). cbn [concat]. rewrite app_length.
    destruct e1 as [e1|].
    + inversion H; subst. repeat split; try lia; try discriminate; try assumption.
      rewrite firstn_app. replace (n - length b) with 0 by lia. cbn [firstn]. rewrite app_nil_r. reflexivity.
    + specialize (C eq_refl). destruct (seqWritev tcpWrite v (tl evs)) as [[n2 d2] e2] eqn:E2.
      injection H as Hn Hd He. apply IH in E2. destruct E2 as (A2 & B2 & C2 & D2).
      assert (Hd1 : d1 = b) by (rewrite B, C; apply firstn_all).
      split; [lia|]. split; [|split; [intro X; rewrite <- Hn, C, C2; congruence|congruence]].
      rewrite <- Hd, <- Hn, Hd1, B2, C, firstn_app, (firstn_all2 b) by lia.
      replace (length b + n2 - length b) with n2 by lia. reflexivity.
Qed.
