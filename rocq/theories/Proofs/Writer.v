(** Lemmas about the frame writer's buffer. *)
From Coq Require Import ZifyBool ZifyNat ZifyN.
From Verif Require Import Model.GoBase Model.Qrpc Model.FrameWriter Spec.FrameSpec Proofs.Bits.
Ltac Zify.zify_post_hook ::= Z.div_mod_to_equations.
Open Scope N_scope.

Lemma put_at_app : forall off bs a b c,
  length a = off -> length b = length bs ->
  put_at off bs (a ++ b ++ c) = a ++ bs ++ c.
Proof.
  intros off bs a b c Ha Hb. unfold put_at. subst off.
  rewrite firstn_app, Nat.sub_diag, firstn_all. cbn [firstn]. rewrite app_nil_r.
  f_equal. f_equal.
  rewrite skipn_app.
  rewrite skipn_all2 by lia. cbn [app].
  replace (length a + length bs - length a)%nat with (length b) by lia.
  rewrite skipn_app, skipn_all, Nat.sub_diag. reflexivity.
Qed.

(** The writer's buffer holds the header fields [id], [fl], [cmd] and the payload [pay];
    the first four bytes are arbitrary. *)
Definition rep (w : dfw) (id fl cmd : N) (pay : bytes) : Prop :=
  exists l4, length l4 = 4%nat /\ fl < 256 /\
    wbuf w = l4 ++ be_enc 8 id ++ [fl] ++ be_enc 3 cmd ++ pay.

Lemma rep_fresh : rep fresh 0 0 0 [].
Proof. exists [0;0;0;0]. repeat split; reflexivity. Qed.

Lemma be32_cmdflags : forall fl cmd, fl < 256 ->
  be32 (u32 (u32 (N.shiftl fl 24) + N.land cmd 0xffffff)) = fl :: be_enc 3 cmd.
Proof.
  intros fl cmd H.
  rewrite land_ffffff, N.shiftl_mul_pow2. change (2^24) with 16777216. unfold u32.
  rewrite (N.mod_small (fl * 16777216)) by lia.
  rewrite N.mod_small by lia.
  rewrite <- (be_enc_mod 3 cmd). change (256 ^ N.of_nat 3) with 16777216.
  generalize (N.mod_lt cmd 16777216 ltac:(discriminate)).
  generalize (cmd mod 16777216). intros c Hc.
  rewrite be32_enc. cbn [be_enc app]. rewrite !N.div_div by discriminate.
  change (256 * 256) with 65536. change (256 * (256 * 256)) with 16777216.
  change (65536 * 256) with 16777216.
  repeat (apply f_equal2; [lia|]). reflexivity.
Qed.

Lemma bytes_enc3 : forall cmd,
  [u8 (N.shiftr cmd 16); u8 (N.shiftr cmd 8); u8 cmd] = be_enc 3 cmd.
Proof.
  intro cmd. unfold u8. cbn [be_enc app]. rewrite !N.shiftr_div_pow2.
  change (2^16) with (256*256). change (2^8) with 256.
  rewrite N.div_div by discriminate. reflexivity.
Qed.

Lemma rep_StartWrite : forall w id0 fl0 cmd0 pay id cmd fl,
  rep w id0 fl0 cmd0 pay -> fl < 256 -> rep (StartWrite w id cmd fl) id fl cmd pay.
Proof.
  intros w id0 fl0 cmd0 pay id cmd fl (l4 & Hl & Hf & E) Hfl.
  exists l4. repeat split; [assumption|assumption|].
  unfold StartWrite, set_wbuf. cbn [wbuf]. rewrite E.
  rewrite be64_enc.
  rewrite (put_at_app 4 (be_enc 8 id) l4 (be_enc 8 id0)) by (rewrite ?be_enc_length; auto).
  rewrite be32_cmdflags by assumption.
  rewrite (app_assoc l4).
  replace ([fl0] ++ be_enc 3 cmd0 ++ pay) with ((fl0 :: be_enc 3 cmd0) ++ pay) by reflexivity.
  rewrite put_at_app.
  - rewrite <- app_assoc. reflexivity.
  - rewrite app_length, be_enc_length. lia.
  - cbn [length]. rewrite !be_enc_length. reflexivity.
Qed.

Lemma rep_SetCmd : forall w id fl cmd0 pay cmd,
  rep w id fl cmd0 pay -> rep (SetCmd w cmd) id fl cmd pay.
Proof.
  intros w id fl cmd0 pay cmd (l4 & Hl & Hf & E).
  exists l4. repeat split; [assumption|assumption|].
  unfold SetCmd, set_wbuf. cbn [wbuf]. rewrite E, bytes_enc3.
  replace (l4 ++ be_enc 8 id ++ [fl] ++ be_enc 3 cmd0 ++ pay)
    with ((l4 ++ be_enc 8 id ++ [fl]) ++ be_enc 3 cmd0 ++ pay)
    by (rewrite <- !app_assoc; reflexivity).
  rewrite put_at_app.
  - rewrite <- !app_assoc. reflexivity.
  - rewrite !app_length, be_enc_length. cbn [length]. lia.
  - rewrite !be_enc_length. reflexivity.
Qed.

Lemma rep_SetFlags : forall w id fl0 cmd pay fl,
  rep w id fl0 cmd pay -> fl < 256 -> rep (SetFlags w fl) id fl cmd pay.
Proof.
  intros w id fl0 cmd pay fl (l4 & Hl & Hf & E) Hfl.
  exists l4. repeat split; [assumption|assumption|].
  unfold SetFlags, set_wbuf. cbn [wbuf]. rewrite E, u8_small by assumption.
  rewrite (app_assoc l4). rewrite put_at_app.
  - rewrite <- !app_assoc. reflexivity.
  - rewrite app_length, be_enc_length. lia.
  - reflexivity.
Qed.

Lemma rep_SetRequestID : forall w id0 fl cmd pay id,
  rep w id0 fl cmd pay -> rep (SetRequestID w id) id fl cmd pay.
Proof.
  intros w id0 fl cmd pay id (l4 & Hl & Hf & E).
  exists l4. repeat split; [assumption|assumption|].
  unfold SetRequestID, set_wbuf. cbn [wbuf]. rewrite E, be64_enc.
  rewrite put_at_app; rewrite ?be_enc_length; auto.
Qed.

Lemma rep_WriteBytes : forall w id fl cmd pay v,
  rep w id fl cmd pay -> rep (WriteBytes w v) id fl cmd (pay ++ v).
Proof.
  intros w id fl cmd pay v (l4 & Hl & Hf & E).
  exists l4. repeat split; [assumption|assumption|].
  unfold WriteBytes, set_wbuf. cbn [wbuf]. rewrite E. rewrite <- !app_assoc. reflexivity.
Qed.

Lemma rep_hdr_split : forall l4 id fl cmd (pay : bytes), length l4 = 4%nat ->
  exists h, length h = 16%nat /\ h = l4 ++ be_enc 8 id ++ [fl] ++ be_enc 3 cmd /\
    l4 ++ be_enc 8 id ++ [fl] ++ be_enc 3 cmd ++ pay = h ++ pay.
Proof.
  intros. exists (l4 ++ be_enc 8 id ++ [fl] ++ be_enc 3 cmd). repeat split.
  - rewrite !app_length, !be_enc_length. cbn [length]. lia.
  - rewrite <- !app_assoc. reflexivity.
Qed.

Lemma rep_Payload : forall w id fl cmd pay, rep w id fl cmd pay -> getPayload w = pay.
Proof.
  intros w id fl cmd pay (l4 & Hl & Hf & E). unfold getPayload. rewrite E.
  destruct (rep_hdr_split l4 id fl cmd pay Hl) as (h & Hh & _ & ->).
  rewrite skipn_app, skipn_all2 by lia. rewrite Hh. reflexivity.
Qed.

Lemma rep_Flags : forall w id fl cmd pay, rep w id fl cmd pay -> getFlags w = fl.
Proof.
  intros w id fl cmd pay (l4 & Hl & Hf & E). unfold getFlags. rewrite E.
  rewrite app_assoc. unfold getb.
  rewrite app_nth2 by (rewrite app_length, be_enc_length; lia).
  rewrite app_length, be_enc_length, Hl. reflexivity.
Qed.

Lemma rep_RequestID : forall w id fl cmd pay, rep w id fl cmd pay ->
  be_enc 8 (getRequestID w) = be_enc 8 id.
Proof.
  intros w id fl cmd pay (l4 & Hl & Hf & E).
  destruct l4 as [|a [|b [|c [|d [|]]]]]; try discriminate.
  unfold getRequestID.
  (* only bytes 4..11 are read: replace the others by 0 *)
  assert (H : rd64 (wbuf w) 4 = rd64 ([0;0;0;0] ++ be_enc 8 id) 4).
  { rewrite E. unfold rd64, rd32, getb. cbn [be_enc app Nat.add nth]. reflexivity. }
  rewrite H. rewrite rd64_val.
  - cbn [be_enc app Nat.add nth getb].
    match goal with |- context [be_val ?l] => change (be_val l) with (be_val (be_enc 8 id)) end.
    rewrite be_val_enc. apply (be_enc_mod 8 id).
  - apply Forall_app. split; [repeat constructor|apply be_enc_byte].
Qed.

Lemma u8_length_bytes : forall n,
  [u8 (N.shiftr n 24); u8 (N.shiftr n 16); u8 (N.shiftr n 8); u8 n] = be_enc 4 n.
Proof. intro n. apply (be32_enc n). Qed.

Lemma rep_endWrite : forall w id fl cmd pay, rep w id fl cmd pay ->
  exists w', endWrite w = (w', EwSent (doc_frame id fl cmd pay)) /\ rep w' id fl cmd [].
Proof.
  intros w id fl cmd pay (l4 & Hl & Hf & E).
  unfold endWrite. rewrite u8_length_bytes.
  set (n := N.of_nat (length (wbuf w)) - 4).
  assert (Hn : n = 12 + N.of_nat (length pay)).
  { unfold n. rewrite E, !app_length, !be_enc_length. cbn [length]. lia. }
  assert (P : put_at 0 (be_enc 4 n) (wbuf w) = doc_frame id fl cmd pay).
  { rewrite E. change (l4 ++ be_enc 8 id ++ [fl] ++ be_enc 3 cmd ++ pay)
      with ([] ++ l4 ++ be_enc 8 id ++ [fl] ++ be_enc 3 cmd ++ pay).
    rewrite put_at_app by (rewrite ?be_enc_length; auto).
    rewrite Hn. reflexivity. }
  rewrite P. eexists. split; [reflexivity|].
  exists (be_enc 4 n). split; [apply be_enc_length|split; [assumption|]].
  unfold set_wbuf. cbn [wbuf]. unfold doc_frame. rewrite <- Hn.
  destruct (rep_hdr_split (be_enc 4 n) id fl cmd pay (be_enc_length _ _)) as (h & Hh & Eh & ->).
  rewrite firstn_app, firstn_all2 by lia. rewrite Hh, Nat.sub_diag. cbn [firstn].
  rewrite app_nil_r, Eh, app_nil_r. reflexivity.
Qed.

(** Finite sweeps over the whole domain of flag bytes. *)
Definition allflags : list N := map N.of_nat (seq 0 256).
Lemma in_allflags : forall fl, fl < 256 -> In fl allflags.
Proof.
  intros fl H. unfold allflags. rewrite in_map_iff. exists (N.to_nat fl).
  split; [lia|]. rewrite in_seq. lia.
Qed.
Lemma flags_sweep : forall P : N -> bool, forallb P allflags = true -> forall fl, fl < 256 -> P fl = true.
Proof. intros P H fl Hfl. rewrite forallb_forall in H. apply H, in_allflags, Hfl. Qed.

Lemma ToNonCodec_lt : forall fl, fl < 256 -> ToNonCodec fl < 256.
Proof.
  intros fl H. apply N.ltb_lt.
  apply (flags_sweep (fun f => ToNonCodec f <? 256)); [vm_compute; reflexivity|assumption].
Qed.
Lemma ToCodec_lt : forall fl, fl < 256 -> ToCodec fl < 256.
Proof.
  intros fl H. apply N.ltb_lt.
  apply (flags_sweep (fun f => ToCodec f <? 256)); [vm_compute; reflexivity|assumption].
Qed.
Lemma ToEndStream_lt : forall fl, fl < 256 -> ToEndStream fl < 256.
Proof.
  intros fl H. apply N.ltb_lt.
  apply (flags_sweep (fun f => ToEndStream f <? 256)); [vm_compute; reflexivity|assumption].
Qed.
Lemma ToNonCodec_spec : forall fl, fl < 256 -> IsCodec (ToNonCodec fl) = false.
Proof.
  intros fl H. apply negb_true_iff.
  apply (flags_sweep (fun f => negb (IsCodec (ToNonCodec f)))); [vm_compute; reflexivity|assumption].
Qed.
Lemma ToNonCodec_id : forall fl, fl < 256 -> IsCodec fl = false -> ToNonCodec fl = fl.
Proof.
  intros fl H Hc. apply N.eqb_eq.
  generalize (flags_sweep (fun f => IsCodec f || (ToNonCodec f =? f)) ltac:(vm_compute; reflexivity) fl H).
  rewrite Hc. exact (fun x => x).
Qed.

(** What EndWrite does with the header flags and the payload, as a function. *)
Inductive packed := PkNoCodec | PkErr | PkOk (fl : N) (pay : bytes).
Definition pack (codec : option Codec) (fl : N) (pay : bytes) : packed :=
  match pay with
  | [] => PkOk (ToNonCodec fl) []
  | _ => if IsCodec fl then
           match codec with
           | None => PkNoCodec
           | Some c => match Encode c pay with
                       | None => PkErr
                       | Some e => if Nat.ltb (length pay) (length e) then PkOk (ToNonCodec fl) pay
                                   else PkOk fl e
                       end
           end
         else PkOk fl pay
  end.

Lemma rep_EndWrite : forall codec w id fl cmd pay, rep w id fl cmd pay ->
  match pack codec fl pay with
  | PkNoCodec => EndWrite codec w = (w, EwNoCodec)
  | PkErr => EndWrite codec w = (w, EwCodecError)
  | PkOk fl' pay' => exists w', EndWrite codec w = (w', EwSent (doc_frame id fl' cmd pay')) /\
                                rep w' id fl' cmd []
  end.
Proof.
  intros codec w id fl cmd pay R.
  assert (Hfl : fl < 256) by (destruct R as (? & ? & ? & ?); assumption).
  unfold EndWrite. rewrite (rep_Payload _ _ _ _ _ R), (rep_Flags _ _ _ _ _ R).
  destruct pay as [|p0 pay].
  - cbn [pack length Nat.eqb].
    apply rep_endWrite, rep_SetFlags with (fl0 := fl); [assumption|apply ToNonCodec_lt; assumption].
  - cbn [pack]. change (Nat.eqb (length (p0 :: pay)) 0) with false. cbv iota.
    destruct (IsCodec fl).
    + destruct codec as [c|]; [|reflexivity].
      destruct (Encode c (p0 :: pay)) as [e|]; [|reflexivity].
      destruct (Nat.ltb (length (p0 :: pay)) (length e)).
      * apply rep_endWrite, rep_SetFlags with (fl0 := fl); [assumption|apply ToNonCodec_lt; assumption].
      * apply rep_endWrite. change e with ([] ++ e). apply rep_WriteBytes.
        destruct R as (l4 & Hl & Hf & E). exists l4. repeat split; [assumption|assumption|].
        unfold set_wbuf. cbn [wbuf]. rewrite E.
        destruct (rep_hdr_split l4 id fl cmd (p0 :: pay) Hl) as (h & Hh & Eh & ->).
        rewrite firstn_app, firstn_all2 by lia. rewrite Hh, Nat.sub_diag. cbn [firstn].
        rewrite app_nil_r, Eh, app_nil_r. reflexivity.
    + apply rep_endWrite. assumption.
Qed.
