(** Proofs of the codec properties. *)
From Coq Require Import ZifyBool ZifyNat ZifyN.
From Verif Require Import Model.GoBase Model.Qrpc Model.FrameWriter Model.Reader Model.FrameReader
  Model.FirstFrame Spec.FrameSpec Spec.WriterSpec Spec.StreamSpec Proofs.Bits Proofs.Writer Proofs.ReaderP Proofs.FrameReaderP.
Ltac Zify.zify_post_hook ::= Z.div_mod_to_equations.
Open Scope N_scope.

Lemma clean_rep : forall w, clean w -> exists id fl cmd, rep w id fl cmd [].
Proof.
  intros w [HL HB].
  destruct (header_split (wbuf w) HL HB) as (size & id & fl & cmd & _ & _ & Hf & _ & _ & E).
  exists id, fl, cmd, (be_enc 4 size). split; [apply be_enc_length|split; [assumption|]].
  rewrite app_nil_r. assumption.
Qed.

Lemma rep_byte : forall w id fl cmd, rep w id fl cmd [] -> 
  exists l4, length l4 = 4%nat /\ wbuf w = l4 ++ be_enc 8 id ++ [fl] ++ be_enc 3 cmd.
Proof.
  intros w id fl cmd (l4 & Hl & _ & E). exists l4. split; [assumption|].
  rewrite app_nil_r in E. assumption.
Qed.

Lemma wrun_app : forall codec os1 os2 w,
  wrun codec w (os1 ++ os2) =
  let '(w1, r1) := wrun codec w os1 in let '(w2, r2) := wrun codec w1 os2 in (w2, r1 ++ r2).
Proof.
  induction os1 as [|o os1 IH]; intros os2 w; cbn [wrun app].
  - destruct (wrun codec w os2). reflexivity.
  - destruct (wstep codec w o) as [w1 r1]. rewrite IH.
    destruct (wrun codec w1 os1) as [w2 r2]. destruct (wrun codec w2 os2) as [w3 r3].
    rewrite app_assoc. reflexivity.
Qed.

Lemma wrun_bytes : forall codec chunks w id fl cmd pay, rep w id fl cmd pay ->
  exists w', wrun codec w (map OBytes chunks) = (w', []) /\ rep w' id fl cmd (pay ++ concat chunks).
Proof.
  induction chunks as [|c chunks IH]; intros w id fl cmd pay R; cbn [map wrun].
  - exists w. cbn. rewrite app_nil_r. split; [reflexivity|assumption].
  - cbn [wstep]. destruct (IH (WriteBytes w c) id fl cmd (pay ++ c) (rep_WriteBytes _ _ _ _ _ _ R))
      as (w' & -> & R').
    exists w'. split; [reflexivity|]. cbn [concat]. rewrite app_assoc. assumption.
Qed.

(** StartWrite; WriteBytes*; EndWrite from a clean writer *)
Lemma wrun_frame : forall codec w id cmd fl chunks, clean w -> fl < 256 ->
  match pack codec fl (concat chunks) with
  | PkOk fl' pay' => exists w', wrun codec w (OStart id cmd fl :: map OBytes chunks ++ [OEnd])
                                = (w', [EwSent (doc_frame id fl' cmd pay')]) /\ rep w' id fl' cmd []
  | PkNoCodec => exists w', wrun codec w (OStart id cmd fl :: map OBytes chunks ++ [OEnd]) = (w', [EwNoCodec])
  | PkErr => exists w', wrun codec w (OStart id cmd fl :: map OBytes chunks ++ [OEnd]) = (w', [EwCodecError])
  end.
Proof.
  intros codec w id cmd fl chunks HC Hfl.
  destruct (clean_rep w HC) as (id0 & fl0 & cmd0 & R0).
  pose proof (rep_StartWrite w id0 fl0 cmd0 [] id cmd fl R0 Hfl) as R1.
  destruct (wrun_bytes codec chunks _ _ _ _ _ R1) as (w2 & E2 & R2). cbn [app] in R2.
  pose proof (rep_EndWrite codec w2 id fl cmd (concat chunks) R2) as H.
  cbn [wrun wstep]. rewrite wrun_app, E2. cbn [wrun wstep app].
  destruct (pack codec fl (concat chunks)) as [| |fl' pay'].
  - rewrite H. eexists. reflexivity.
  - rewrite H. eexists. reflexivity.
  - destruct H as (w3 & -> & R3). exists w3. split; [reflexivity|assumption].
Qed.

(** reading a documented frame *)
Lemma readFrame_doc : forall codec mfs r cd id fl cmd pay rest,
  id < 2^64 -> fl < 256 -> N.of_nat (length pay) < 2^32 - 12 ->
  tooLarge mfs (12 + N.of_nat (length pay)) = false ->
  pend r = doc_frame id fl cmd pay ++ rest ->
  exists r', pend r' = rest /\ fin r' = fin r /\
    readFrame codec mfs r cd =
      (r', match pay with
           | [] => inl (mkFrame id fl (cmd mod 2^24) [])
           | _ => if IsCodec fl then
                    match codec with
                    | None => inr FrNoCodec
                    | Some c => match Decode c pay with
                                | None => inr FrDecode
                                | Some p => inl (mkFrame id fl (cmd mod 2^24) p)
                                end
                    end
                  else inl (mkFrame id fl (cmd mod 2^24) pay)
           end).
Proof.
  intros codec mfs r cd id fl cmd pay rest Hi Hf HL HM HP.
  unfold doc_frame in HP. rewrite <- !app_assoc in HP.
  destruct (readFrame_hdr codec mfs r cd (12 + N.of_nat (length pay)) id fl cmd (pay ++ rest) ltac:(change (2^32) with 4294967296 in *; lia) Hi Hf HP)
    as (r1 & P1 & F1 & T1 & E1).
  rewrite HM in E1.
  replace (12 + N.of_nat (length pay) <? 12) with false in E1 by (symmetry; apply N.ltb_ge; lia).
  destruct (frPayload_ok codec r1 cd _ id fl (cmd mod 2^24) pay rest eq_refl P1) as (r2 & P2 & F2 & T2 & E2).
  exists r2. rewrite E1, E2. repeat split; congruence.
Qed.

Lemma tooLarge_ok : forall mfs size,
  (mfs <= 0 \/ (Z.of_N size <= mfs < 2^32))%Z -> tooLarge mfs size = false.
Proof.
  intros mfs size H. unfold tooLarge. destruct (Z.ltb 0 mfs) eqn:E; [|reflexivity].
  cbn [andb]. apply N.ltb_ge. rewrite Z.mod_small by lia. lia.
Qed.

(** ---- C06 ---- *)
Definition accepted_pay (codec : option Codec) (fl : N) (pay : bytes) := pack codec fl pay.

Lemma pack_carries : forall codec id fl cmd pay fl' pay',
  pack codec fl pay = PkOk fl' pay' -> carries codec (doc_frame id fl' cmd pay') pay.
Proof.
  intros codec id fl cmd pay fl' pay' H. exists id, fl', cmd, pay'. split; [reflexivity|].
  unfold pack in H. destruct pay as [|p0 pay].
  - inversion H. left. reflexivity.
  - destruct (IsCodec fl) eqn:EC; [|inversion H; left; reflexivity].
    destruct codec as [c|]; [|discriminate].
    destruct (Encode c (p0 :: pay)) as [e|] eqn:EE; [|discriminate].
    destruct (Nat.ltb (length (p0 :: pay)) (length e)).
    + inversion H. left. reflexivity.
    + inversion H; subst. right. split; [assumption|]. exists c. split; [reflexivity|assumption].
Qed.

(** Exact behaviour: the pending payload is dropped only by an ending call that sent. *)
Fixpoint payloads_exact (codec : option Codec) (w : dfw) (acc : bytes) (os : list wop) : list bytes :=
  match os with
  | [] => []
  | o :: os' =>
    let '(w', rs) := wstep codec w o in
    match o with
    | OBytes v => payloads_exact codec w' (acc ++ v) os'
    | _ => if is_end o then
             acc :: payloads_exact codec w' (if forallb is_sent rs then [] else acc) os'
           else payloads_exact codec w' acc os'
    end
  end.

Lemma EndWrite_carry : forall codec w id fl cmd acc, rep w id fl cmd acc ->
  exists w' r, EndWrite codec w = (w', r) /\
    (exists fl', rep w' id fl' cmd (if is_sent r then [] else acc)) /\
    match r with EwSent wire => carries codec wire acc | _ => True end.
Proof.
  intros codec w id fl cmd acc R.
  pose proof (rep_EndWrite codec w id fl cmd acc R) as H.
  destruct (pack codec fl acc) as [| |fl' pay'] eqn:E.
  - exists w, EwNoCodec. repeat split; [assumption|]. exists fl. assumption.
  - exists w, EwCodecError. repeat split; [assumption|]. exists fl. assumption.
  - destruct H as (w' & E' & R'). exists w', (EwSent (doc_frame id fl' cmd pay')).
    repeat split; [assumption|exists fl'; assumption|]. eapply pack_carries; eassumption.
Qed.

Lemma wstep_exact : forall codec w id fl cmd acc o, rep w id fl cmd acc -> wop_ok o ->
  if is_end o then
    exists w' r id' fl' cmd', wstep codec w o = (w', [r]) /\
      rep w' id' fl' cmd' (if is_sent r then [] else acc) /\
      match r with EwSent wire => carries codec wire acc | _ => True end
  else
    exists w' id' fl' cmd', wstep codec w o = (w', []) /\
      rep w' id' fl' cmd' (match o with OBytes v => acc ++ v | _ => acc end).
Proof.
  intros codec w id fl cmd acc o R HO.
  assert (Hfl : fl < 256) by (destruct R as (? & ? & ? & ?); assumption).
  destruct o; cbn [is_end wstep].
  - exists (StartWrite w requestID cmd0 flags), requestID, flags, cmd0. split; [reflexivity|].
    eapply rep_StartWrite; eassumption.
  - exists (WriteBytes w v), id, fl, cmd. split; [reflexivity|]. apply rep_WriteBytes. assumption.
  - destruct (EndWrite_carry codec w id fl cmd acc R) as (w' & r & E & (fl' & R') & C).
    rewrite E. cbn [fst snd]. exists w', r, id, fl', cmd. repeat split; assumption.
  - unfold EndWriteCompressed.
    destruct (rep_endWrite (SetFlags w (ToCodec (getFlags w))) id (ToCodec fl) cmd acc) as (w' & E & R').
    { rewrite (rep_Flags _ _ _ _ _ R). apply rep_SetFlags with (fl0 := fl); [assumption|apply ToCodec_lt; assumption]. }
    rewrite E. cbn [fst snd]. exists w', (EwSent (doc_frame id (ToCodec fl) cmd acc)), id, (ToCodec fl), cmd.
    repeat split; [assumption|]. exists id, (ToCodec fl), cmd, acc. split; [reflexivity|left; reflexivity].
  - destruct (EndWrite_carry codec (StartWrite w requestID reason StreamRstFlag) requestID StreamRstFlag reason acc)
      as (w' & r & E & (fl' & R') & C).
    { eapply rep_StartWrite; [eassumption|reflexivity]. }
    unfold ResetFrame. rewrite E. cbn [fst snd]. exists w', r, requestID, fl', reason. repeat split; assumption.
  - exists (SwStartWrite w cmd0), id, fl, cmd0. split; [reflexivity|]. eapply rep_SetCmd; eassumption.
  - unfold SwEndWrite, StreamEndWrite. destruct fin.
    + destruct (EndWrite_carry codec (SetFlags w (ToEndStream (getFlags w))) id (ToEndStream fl) cmd acc)
        as (w' & r & E & (fl' & R') & C).
      { rewrite (rep_Flags _ _ _ _ _ R). apply rep_SetFlags with (fl0 := fl); [assumption|apply ToEndStream_lt; assumption]. }
      rewrite E. cbn [fst snd]. exists w', r, id, fl', cmd. repeat split; assumption.
    + destruct (EndWrite_carry codec w id fl cmd acc R) as (w' & r & E & (fl' & R') & C).
      rewrite E. cbn [fst snd]. exists w', r, id, fl', cmd. repeat split; assumption.
  - unfold SwResetFrame, ResetFrame.
    destruct (EndWrite_carry codec (StartWrite w (getRequestID w) reason StreamRstFlag) (getRequestID w) StreamRstFlag reason acc)
      as (w' & r & E & (fl' & R') & C).
    { eapply rep_StartWrite; [eassumption|reflexivity]. }
    rewrite E. cbn [fst snd]. exists w', r, (getRequestID w), fl', reason. repeat split; assumption.
Qed.

Lemma wrun_exact : forall codec os w id fl cmd acc, rep w id fl cmd acc -> Forall wop_ok os ->
  results_carry codec (snd (wrun codec w os)) (payloads_exact codec w acc os).
Proof.
  induction os as [|o os IH]; intros w id fl cmd acc R HO; [constructor|].
  inversion HO as [|? ? H1 H2]; subst. cbn [wrun payloads_exact].
  pose proof (wstep_exact codec w id fl cmd acc o R H1) as HS.
  destruct (is_end o) eqn:EE.
  - destruct HS as (w' & r & id' & fl' & cmd' & -> & R' & C).
    specialize (IH w' id' fl' cmd' _ R' H2).
    destruct (wrun codec w' os) as [w2 r2] eqn:EW. cbn [snd app].
    cbn [snd] in IH. 
    destruct o; try discriminate EE; cbn [forallb andb]; rewrite ?andb_true_r;
      (constructor; [assumption|exact IH]).
  - destruct HS as (w' & id' & fl' & cmd' & -> & R').
    specialize (IH w' id' fl' cmd' _ R' H2).
    destruct (wrun codec w' os) as [w2 r2] eqn:EW. cbn [snd app].
    destruct o; try discriminate EE; exact IH.
Qed.

Lemma payloads_exact_all_sent : forall codec os w id fl cmd acc, rep w id fl cmd acc -> Forall wop_ok os ->
  Forall (fun r => is_sent r = true) (snd (wrun codec w os)) ->
  payloads_exact codec w acc os = payloads_since_end acc os /\
  exists id' fl' cmd' pay', rep (fst (wrun codec w os)) id' fl' cmd' pay'.
Proof.
  induction os as [|o os IH]; intros w id fl cmd acc R HO HS0; cbn [payloads_exact payloads_since_end].
  { split; [reflexivity|]. exists id, fl, cmd, acc. exact R. }
  inversion HO as [|? ? H1 H2]; subst. cbn [wrun] in *.
  pose proof (wstep_exact codec w id fl cmd acc o R H1) as HS.
  destruct (is_end o) eqn:EE.
  - destruct HS as (w' & r & id' & fl' & cmd' & E & R' & C). rewrite E in *.
    destruct (wrun codec w' os) as [w2 r2] eqn:EW. cbn [snd fst app] in *.
    inversion HS0 as [|? ? S1 S2]; subst. rewrite S1 in R'.
    specialize (IH w' id' fl' cmd' [] R' H2). rewrite EW in IH. cbn [snd fst] in IH. specialize (IH S2).
    destruct IH as [IH1 IH2]. split; [|exact IH2].
    destruct o; try discriminate EE; cbn [forallb is_end]; rewrite S1; cbn [andb]; rewrite IH1; reflexivity.
  - destruct HS as (w' & id' & fl' & cmd' & E & R'). rewrite E in *.
    destruct (wrun codec w' os) as [w2 r2] eqn:EW. cbn [snd fst app] in *.
    destruct o; try discriminate EE; cbn [is_end];
      (specialize (IH w' id' fl' cmd' _ R' H2); rewrite EW in IH; cbn [snd fst] in IH; exact (IH HS0)).
Qed.

Lemma doc_frame_payload : forall id fl cmd q, skipn 16 (doc_frame id fl cmd q) = q.
Proof.
  intros. unfold doc_frame.
  destruct (rep_hdr_split (be_enc 4 (12 + N.of_nat (length q))) id fl cmd q (be_enc_length _ _))
    as (h & Hh & _ & ->).
  rewrite skipn_app, skipn_all2 by lia. rewrite Hh. reflexivity.
Qed.

Lemma doc_frame_length : forall id fl cmd q, length (doc_frame id fl cmd q) = (16 + length q)%nat.
Proof. intros. unfold doc_frame. rewrite !app_length, !be_enc_length. reflexivity. Qed.

Lemma pending_rep : forall codec os w id fl cmd acc, rep w id fl cmd acc -> Forall wop_ok os ->
  Forall (fun r => is_sent r = true) (snd (wrun codec w os)) ->
  exists id' fl' cmd', rep (fst (wrun codec w os)) id' fl' cmd' (pending_after acc os).
Proof.
  induction os as [|o os IH]; intros w id fl cmd acc R HO HS0; cbn [pending_after].
  { exists id, fl, cmd. exact R. }
  inversion HO as [|? ? H1 H2]; subst. cbn [wrun] in *.
  pose proof (wstep_exact codec w id fl cmd acc o R H1) as HS.
  destruct (is_end o) eqn:EE.
  - destruct HS as (w' & r & id' & fl' & cmd' & E & R' & C). rewrite E in *.
    destruct (wrun codec w' os) as [w2 r2] eqn:EW. cbn [snd fst app] in *.
    inversion HS0 as [|? ? S1 S2]; subst. rewrite S1 in R'.
    specialize (IH w' id' fl' cmd' [] R' H2). rewrite EW in IH. cbn [snd fst] in IH. specialize (IH S2).
    destruct o; try discriminate EE; exact IH.
  - destruct HS as (w' & id' & fl' & cmd' & E & R'). rewrite E in *.
    destruct (wrun codec w' os) as [w2 r2] eqn:EW. cbn [snd fst app] in *.
    destruct o; try discriminate EE;
      (specialize (IH w' id' fl' cmd' _ R' H2); rewrite EW in IH; cbn [snd fst] in IH; exact (IH HS0)).
Qed.

Lemma sessions_carry : forall codec ss p id fl cmd, rep p id fl cmd [] ->
  Forall (fun os => Forall wop_ok os /\ pending_after [] os = []) ss ->
  Forall (Forall (fun r => is_sent r = true)) (sessions codec p ss) ->
  Forall2 (fun rs os => results_carry codec rs (payloads_since_end [] os)) (sessions codec p ss) ss.
Proof.
  induction ss as [|os ss IH]; intros p id fl cmd R HO HS; [constructor|].
  inversion HO as [|? ? [H1 HP] H2]; subst. cbn [sessions] in *.
  unfold session in *.
  assert (R0 : rep (newFrameWriter p) id fl cmd []) by exact R.
  destruct (wrun codec (newFrameWriter p) os) as [w rs] eqn:EW.
  inversion HS as [|? ? S1 S2]; subst.
  assert (EQ : snd (wrun codec (newFrameWriter p) os) = rs) by (rewrite EW; reflexivity).
  assert (EF : fst (wrun codec (newFrameWriter p) os) = w) by (rewrite EW; reflexivity).
  constructor.
  - rewrite <- EQ.
    destruct (payloads_exact_all_sent codec os _ id fl cmd [] R0 H1) as [<- _]; [rewrite EQ; exact S1|].
    eapply wrun_exact; eassumption.
  - destruct (pending_rep codec os _ id fl cmd [] R0 H1) as (id' & fl' & cmd' & R'); [rewrite EQ; exact S1|].
    rewrite EF, HP in R'. eapply IH; [exact R'|assumption|assumption].
Qed.

(** ---- C03 ---- *)
Lemma readFrame_wf : forall codec mfs r cd x rest, wf_frame codec mfs x ->
  pend r = wire_of x ++ rest ->
  exists r', readFrame codec mfs r cd = (r', inl (frame_of x)) /\ pend r' = rest /\ fin r' = fin r.
Proof.
  intros codec mfs r cd [[[[id fl] cmd] wp] p] rest (Hi & Hf & Hc & HL & HT & HD) HP.
  cbn [wire_of frame_of] in *.
  destruct (readFrame_doc codec mfs r cd id fl cmd wp rest Hi Hf HL HT HP) as (r' & P & F & E).
  exists r'. rewrite E, N.mod_small by assumption. repeat split; [|assumption|assumption].
  f_equal. destruct wp as [|b wp]; [subst; reflexivity|].
  destruct (IsCodec fl); [|subst; reflexivity].
  destruct HD as (c & -> & ->). reflexivity.
Qed.

Lemma firstn_proper_readFrame : forall codec mfs r cd x k, wf_frame codec mfs x ->
  (k < length (wire_of x))%nat -> pend r = firstn k (wire_of x) ->
  exists r' e, readFrame codec mfs r cd = (r', inr (FrRead e)).
Proof.
  intros codec mfs r cd [[[[id fl] cmd] wp] p] k (Hi & Hf & Hc & HL & HT & HD) Hk HP.
  cbn [wire_of] in *. rewrite doc_frame_length in Hk.
  destruct (Nat.lt_ge_cases k 16) as [Hlt|Hge].
  - pose proof (ReadBytes_spec r 16 cd) as H.
    replace (Nat.leb 16 (length (pend r))) with false in H.
    + destruct H as (r' & E & _). unfold readFrame. rewrite E. eexists. eexists. reflexivity.
    + symmetry. apply Nat.leb_gt. rewrite HP, firstn_length, doc_frame_length. lia.
  - assert (HP2 : pend r = be_enc 4 (12 + N.of_nat (length wp)) ++ be_enc 8 id ++ [fl] ++ be_enc 3 cmd ++ firstn (k - 16) wp).
    { rewrite HP. unfold doc_frame.
      destruct (rep_hdr_split (be_enc 4 (12 + N.of_nat (length wp))) id fl cmd wp (be_enc_length _ _))
        as (h & Hh & Eh & ->).
      rewrite firstn_app, firstn_all2 by lia. rewrite Hh, Eh, <- !app_assoc. reflexivity. }
    destruct (readFrame_hdr codec mfs r cd (12 + N.of_nat (length wp)) id fl cmd (firstn (k - 16) wp)
      ltac:(change (2^32) with 4294967296 in *; lia) Hi Hf HP2) as (r1 & P1 & F1 & T1 & E1).
    rewrite HT in E1.
    replace (12 + N.of_nat (length wp) <? 12) with false in E1 by (symmetry; apply N.ltb_ge; lia).
    unfold frPayload in E1.
    replace (12 <? 12 + N.of_nat (length wp)) with true in E1 by (symmetry; apply N.ltb_lt; lia).
    pose proof (ReadBytes_spec r1 (N.to_nat (12 + N.of_nat (length wp) - 12)) cd) as H.
    replace (Nat.leb (N.to_nat (12 + N.of_nat (length wp) - 12)) (length (pend r1))) with false in H.
    + destruct H as (r' & E & _). rewrite E in E1. rewrite E1. eexists. eexists. reflexivity.
    + symmetry. apply Nat.leb_gt. rewrite P1, firstn_length. lia.
Qed.

Lemma readFrames_spec : forall codec mfs cd xs r tail fuel,
  Forall (wf_frame codec mfs) xs -> pend r = concat (map wire_of xs) ++ tail ->
  (length xs < fuel)%nat ->
  (tail = [] \/ exists x k, wf_frame codec mfs x /\ (k < length (wire_of x))%nat /\ tail = firstn k (wire_of x)) ->
  exists e, readFrames fuel codec mfs r cd = (map frame_of xs, Some (FrRead e)).
Proof.
  induction xs as [|x xs IH]; intros r tail fuel HW HP HF HT.
  - destruct fuel as [|fuel]; [lia|]. cbn [map concat app] in HP.
    destruct HT as [->|(x & k & Hx & Hk & ->)].
    { pose proof (ReadBytes_spec r 16 cd) as H. rewrite HP in H. cbn [length Nat.leb] in H.
      destruct H as (r' & E & _). cbn [readFrames map]. unfold readFrame. rewrite E.
      eexists. reflexivity. }
    destruct (firstn_proper_readFrame codec mfs r cd x k Hx Hk HP) as (r' & e & E).
    cbn [readFrames map]. rewrite E. exists e. reflexivity.
  - destruct fuel as [|fuel]; [cbn in HF; lia|].
    inversion HW as [|? ? Hx Hxs]; subst. cbn [map concat] in HP. rewrite <- app_assoc in HP.
    destruct (readFrame_wf codec mfs r cd x _ Hx HP) as (r' & E & P & F).
    destruct (IH r' tail fuel Hxs P ltac:(cbn in HF; lia) HT) as (e & E2).
    exists e. cbn [readFrames map]. rewrite E, E2. reflexivity.
Qed.
