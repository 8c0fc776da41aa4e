(** Lemmas about readFrame. *)
From Coq Require Import ZifyBool ZifyNat ZifyN.
From Verif Require Import Model.GoBase Model.Qrpc Model.FrameWriter Model.Reader Model.FrameReader
  Spec.FrameSpec Proofs.Bits Proofs.Writer Proofs.ReaderP.
Ltac Zify.zify_post_hook ::= Z.div_mod_to_equations.
Open Scope N_scope.

(** What readFrame does with a frame whose header fields are [size id fl cmd]. *)
Lemma header_fields : forall size id fl cmd,
  size < 2^32 -> id < 2^64 -> fl < 256 -> 
  let h := be_enc 4 size ++ be_enc 8 id ++ [fl] ++ be_enc 3 cmd in
  rd32 h 0 = size /\ rd64 h 4 = id /\
  N.land (rd32 h 12) 0xffffff = cmd mod 2^24 /\ u8 (N.shiftr (rd32 h 12) 24) = fl.
Proof.
  intros size id fl cmd Hs Hi Hf h.
  assert (HB : Forall (fun b => b < 256) h).
  { unfold h. apply Forall_app; split; [apply be_enc_byte|].
    apply Forall_app; split; [apply be_enc_byte|].
    apply Forall_app; split; [constructor; [assumption|constructor]|apply be_enc_byte]. }
  rewrite !rd32_val, rd64_val by assumption.
  assert (E12 : be_val [getb h 12; getb h (12+1); getb h (12+2); getb h (12+3)]
                = fl * 16777216 + cmd mod 16777216).
  { unfold h. cbn [be_enc app Nat.add nth getb].
    unfold be_val at 1. cbn [fold_left].
    transitivity (fl * 16777216 + be_val (be_enc 3 cmd)).
    - unfold be_val. cbn [be_enc app fold_left]. lia.
    - rewrite be_val_enc. reflexivity. }
  rewrite E12. repeat split.
  - unfold h. cbn [be_enc app Nat.add nth getb].
    match goal with |- be_val ?l = _ => change (be_val l) with (be_val (be_enc 4 size)) end.
    rewrite be_val_enc. apply N.mod_small. assumption.
  - unfold h. cbn [be_enc app Nat.add nth getb].
    match goal with |- be_val ?l = _ => change (be_val l) with (be_val (be_enc 8 id)) end.
    rewrite be_val_enc. apply N.mod_small. assumption.
  - rewrite land_ffffff. change (2^24) with 16777216. lia.
  - unfold u8. rewrite N.shiftr_div_pow2. change (2^24) with 16777216.
    rewrite N.div_add_l by discriminate.
    rewrite (N.div_small (cmd mod 16777216)) by (apply N.mod_lt; discriminate).
    rewrite N.add_0_r. apply N.mod_small. assumption.
Qed.

Lemma readFrame_hdr : forall codec mfs r cd size id fl cmd rest,
  size < 2^32 -> id < 2^64 -> fl < 256 ->
  pend r = be_enc 4 size ++ be_enc 8 id ++ [fl] ++ be_enc 3 cmd ++ rest ->
  exists r1, pend r1 = rest /\ fin r1 = fin r /\ timeout r1 = timeout r /\
    readFrame codec mfs r cd =
      (if tooLarge mfs size then (r1, inr FrTooLarge)
       else if size <? 12 then (r1, inr FrInvalidSize)
       else frPayload codec r1 cd size id fl (cmd mod 2^24)).
Proof.
  intros codec mfs r cd size id fl cmd rest Hs Hi Hf HP.
  destruct (ReadBytes_ok r 16 cd (be_enc 4 size ++ be_enc 8 id ++ [fl] ++ be_enc 3 cmd) rest)
    as (r1 & E & P & F & T).
  - rewrite HP, <- !app_assoc. reflexivity.
  - rewrite !app_length, !be_enc_length. reflexivity.
  - exists r1. repeat split; try assumption.
    unfold readFrame. rewrite E.
    destruct (header_fields size id fl cmd Hs Hi Hf) as (E1 & E2 & E3 & E4).
    rewrite E1, E2, E3, E4. reflexivity.
Qed.

Lemma frPayload_ok : forall codec r cd size id fl cmd pay rest,
  size = 12 + N.of_nat (length pay) -> pend r = pay ++ rest ->
  exists r', pend r' = rest /\ fin r' = fin r /\ timeout r' = timeout r /\
    frPayload codec r cd size id fl cmd =
      (r', match pay with
           | [] => inl (mkFrame id fl cmd [])
           | _ => if IsCodec fl then
                    match codec with
                    | None => inr FrNoCodec
                    | Some c => match Decode c pay with
                                | None => inr FrDecode
                                | Some p => inl (mkFrame id fl cmd p)
                                end
                    end
                  else inl (mkFrame id fl cmd pay)
           end).
Proof.
  intros codec r cd size id fl cmd pay rest Hs HP. unfold frPayload.
  destruct pay as [|p0 pay].
  - subst size. change (12 <? 12 + N.of_nat (length (@nil N))) with false. cbv iota.
    exists r. cbn [app] in HP. repeat split; assumption.
  - replace (12 <? size) with true by (symmetry; apply N.ltb_lt; subst; cbn [length]; lia).
    destruct (ReadBytes_ok r (N.to_nat (size - 12)) cd (p0 :: pay) rest HP) as (r' & E & P & F & T).
    { subst size. lia. }
    exists r'. repeat split; try assumption. rewrite E.
    destruct (IsCodec fl); [|reflexivity].
    destruct codec as [c|]; [|reflexivity].
    destruct (Decode c (p0 :: pay)); reflexivity.
Qed.

Lemma be_enc_val : forall l, Forall (fun b => b < 256) l -> be_enc (length l) (be_val l) = l.
Proof.
  induction l using rev_ind; intro H; [reflexivity|].
  apply Forall_app in H. destruct H as [Hl Hx]. inversion Hx; subst.
  rewrite app_length, Nat.add_comm. cbn [length Nat.add be_enc].
  rewrite be_val_snoc.
  replace ((be_val l * 256 + x) / 256) with (be_val l) by lia.
  replace ((be_val l * 256 + x) mod 256) with x by lia.
  rewrite IHl by assumption. reflexivity.
Qed.

Lemma be_val_lt : forall l, Forall (fun b => b < 256) l -> be_val l < 256 ^ N.of_nat (length l).
Proof.
  induction l using rev_ind; intro H; [reflexivity|].
  apply Forall_app in H. destruct H as [Hl Hx]. inversion Hx; subst.
  rewrite app_length, Nat.add_comm. cbn [length Nat.add].
  rewrite be_val_snoc, Nat2N.inj_succ, N.pow_succ_r'. specialize (IHl Hl). lia.
Qed.

(** Any 16-byte header has the four fields. *)
Lemma header_split : forall h, length h = 16%nat -> Forall (fun b => b < 256) h ->
  exists size id fl cmd, size < 2^32 /\ id < 2^64 /\ fl < 256 /\ cmd < 2^24 /\
    size = be_val (firstn 4 h) /\
    h = be_enc 4 size ++ be_enc 8 id ++ [fl] ++ be_enc 3 cmd.
Proof.
  intros h HL HB.
  do 17 (destruct h as [|? h]; [discriminate HL||idtac|]); try discriminate HL.
  repeat match goal with H : Forall _ (_ :: _) |- _ => inversion H; clear H; subst end.
  match goal with |- context [[?a;?b;?c;?d;?e;?f;?g;?h;?i;?j;?k;?l;?m;?n;?o;?p]] =>
    exists (be_val [a;b;c;d]), (be_val [e;f;g;h;i;j;k;l]), m, (be_val [n;o;p]) end.
  repeat split.
  all: try assumption.
  all: try (match goal with |- be_val ?l < _ => apply (be_val_lt l) end; repeat (constructor; try assumption)).
  repeat match goal with |- context [be_enc ?k (be_val ?l)] =>
    change k with (length l); rewrite (be_enc_val l) by (repeat (constructor; try assumption)) end.
  reflexivity.
Qed.
