(** C59: a call through the generated client returns what the service's method returned. *)
From Coq Require Import ZifyBool ZifyNat ZifyN.
From Verif Require Import Model.GoBase Model.Qrpc Model.Pb Model.Codegen Model.Generated Spec.PbSpec Proofs.PbP Props.Pb Props.Codegen.
Open Scope nat_scope.

(** A type whose encodings can be relied on: what was marshalled is unmarshalled to the same value, by encoding/json and,
    if it is a Marshaler, by its own methods. *)
Definition reliable (t : goType) : Prop :=
  (forall v, exists b, jsonMarshal t v = inl b /\ jsonUnmarshal t b = inl v) /\
  (isMarshaler t = true -> forall v, exists b, ownMarshal t v = inl b /\ ownUnmarshal t b = inl v).

(** The first connection in the client's order that does not refuse answers. *)
Definition firstAnswers (n : nat) (idx : N) (fate : nat -> connFate) : Prop :=
  exists pre j post rid, rotation n (N.to_nat (u32 (idx + 1))) = pre ++ j :: post /\
    (forall i, In i pre -> fate i = FRefuse) /\ fate j = FAnswered rid.

(** The full claim: for every method of a registered service, on types with reliable encodings, the generated client's
    method returns the service's output for its input whenever a connection takes the request and it is answered, and
    otherwise an output marked by SetError.  The context's type is context.Context, and no pointer to it is a Marshaler;
    namespaces are Go identifiers. *)
Definition C59_for (tin tout : goType) : Prop :=
  forall (svc : val tin -> val tout) cmd errCmd regs errText noFrame n idx fate ns name input,
  cmd <> errCmd ->
  (forall n m f, In (n, m, f) regs -> noColon n) -> noColon ns ->
  implementation regs ns name = Some (genCallback false tin tout svc) ->
  (forall b, (if isMarshaler tin then ownMarshal tin input else jsonMarshal tin input) = inl b ->
     (zlen (pb_message ns name b) < 2 ^ 63)%Z) ->
  let r := genClientMethod tin tout cmd errCmd n idx
             (fun inBytes => answerFrom errCmd (registerAll regs) errText noFrame cmd fate ns name inBytes) ns name input in
  (firstAnswers n idx fate -> r = Output (svc input)) /\
  (~ firstAnswers n idx fate -> exists e, r = RequestErr e).
Definition C59_statement : Prop := forall tin tout, reliable tin -> reliable tout -> C59_for tin tout.

(** what the server puts into the answer *)
Lemma served : forall (tin tout : goType) svc cmd errCmd regs errText noFrame ns name input inBytes body rid,
  (forall n m f, In (n, m, f) regs -> noColon n) -> noColon ns ->
  implementation regs ns name = Some (genCallback false tin tout svc) ->
  (zlen (pb_message ns name inBytes) < 2 ^ 63)%Z ->
  Marshal (mkReq ns name inBytes []) = Some body ->
  (if isMarshaler tin then ownUnmarshal tin inBytes else jsonUnmarshal tin inBytes) = inl input ->
  serverAnswer errCmd (registerAll regs) errText noFrame rid cmd body =
  match jsonMarshal tout (svc input) with inl out => inr (cmd, out) | inr msg => inr (errCmd, msg) end.
Proof.
  intros tin tout svc cmd errCmd regs errText noFrame ns name input inBytes body rid HR Hn HI HZ HM HD.
  unfold serverAnswer.
  rewrite (C40_end_to_end_partial errCmd regs errText rid cmd ns name inBytes body HR Hn HZ HM).
  rewrite HI. unfold answerOf, genCallback. rewrite HD. destruct (jsonMarshal tout (svc input)); reflexivity.
Qed.

(** what one call gives, whichever way the output is encoded *)
Lemma gen_call : forall (tin tout : goType) (svc : val tin -> val tout) cmd errCmd regs errText noFrame n idx fate ns name input,
  reliable tin -> cmd <> errCmd ->
  (forall n m f, In (n, m, f) regs -> noColon n) -> noColon ns ->
  implementation regs ns name = Some (genCallback false tin tout svc) ->
  (forall b, (if isMarshaler tin then ownMarshal tin input else jsonMarshal tin input) = inl b ->
     (zlen (pb_message ns name b) < 2 ^ 63)%Z) ->
  let r := genClientMethod tin tout cmd errCmd n idx
             (fun inBytes => answerFrom errCmd (registerAll regs) errText noFrame cmd fate ns name inBytes) ns name input in
  (firstAnswers n idx fate -> r =
     match jsonMarshal tout (svc input) with
     | inl out => match (if isMarshaler tout then ownUnmarshal tout out else jsonUnmarshal tout out) with
                  | inl v => Output v | inr e => OutputErr e end
     | inr msg => RequestErr (RemoteErr msg)
     end) /\
  (~ firstAnswers n idx fate -> exists e, r = RequestErr e).
Proof.
  intros tin tout svc cmd errCmd regs errText noFrame n idx fate ns name input [HJ HO] HC HR Hn HI HZ r.
  assert (exists b, (if isMarshaler tin then ownMarshal tin input else jsonMarshal tin input) = inl b /\
     (if isMarshaler tin then ownUnmarshal tin b else jsonUnmarshal tin b) = inl input) as (inBytes & HE & HD).
  { destruct (isMarshaler tin); [apply HO; reflexivity|apply HJ]. }
  specialize (HZ inBytes HE).
  destruct (C41_round_trip ns name inBytes HZ) as (body & HM & _). unfold request in HM.
  set (answer := answerFrom errCmd (registerAll regs) errText noFrame cmd fate ns name inBytes).
  assert (HA : forall j, answer j = match fate j with
     | FRefuse => Refused | FLost rid e => Accepted rid (inl e)
     | FAnswered rid => Accepted rid (match jsonMarshal tout (svc input) with
         inl out => inr (cmd, out) | inr msg => inr (errCmd, msg) end) end).
  { intro j. unfold answer, answerFrom. destruct (fate j); try reflexivity. rewrite HM. f_equal.
    eapply served; eassumption. }
  assert (HRr : r = match snd (clientRequest cmd errCmd n idx answer ns name inBytes) with
    | Out outBytes =>
      match (if isMarshaler tout then ownUnmarshal tout outBytes else jsonUnmarshal tout outBytes) with
      | inl v => Output v
      | inr e => OutputErr e
      end
    | r => RequestErr r
    end).
  { unfold r, genClientMethod. rewrite HE. reflexivity. }
  clearbody r answer. subst r.
  pose proof (C39_failover cmd errCmd n idx answer ns name inBytes body HM) as HF.
  destruct (clientRequest cmd errCmd n idx answer ns name inBytes) as [[idx' cs] res].
  destruct HF as (-> & _ & _ & _ & HF). cbn [snd].
  destruct HF as [(-> & _ & HALL)|(pre & j & post & HO' & _ & HP & HOut)].
  - split; [|intros _; eexists; reflexivity].
    intros (pre & j & post & rid & HO' & _ & Hj). exfalso.
    assert (j < n) as Hlt.
    { assert (In j (rotation n (N.to_nat (u32 (idx + 1))))) as Hin by (rewrite HO'; apply in_or_app; right; left; reflexivity).
      unfold rotation in Hin. apply in_map_iff in Hin. destruct Hin as (y & <- & Hy). apply in_seq in Hy.
      apply Nat.mod_upper_bound. lia. }
    specialize (HALL j Hlt). rewrite HA, Hj in HALL. discriminate.
  - assert (HP' : forall i, In i pre -> fate i = FRefuse).
    { intros i Hi. specialize (HP i Hi). rewrite HA in HP. destruct (fate i); [reflexivity|discriminate|discriminate]. }
    unfold outcome in HOut. rewrite HA in HOut.
    destruct (fate j) as [|rid e|rid] eqn:Fj; [contradiction| |].
    + subst res. split; [|intros _; eexists; reflexivity].
      intros (pre2 & j2 & post2 & rid2 & HO2 & HP2 & Hj2). exfalso. rewrite HO' in HO2.
      revert pre2 HO2 HP2. clear - HP' Fj Hj2. induction pre as [|a pre IH]; intros [|b pre2] E HP2; cbn in E; inversion E; subst.
      * congruence.
      * specialize (HP2 b (or_introl eq_refl)). congruence.
      * specialize (HP' j2 (or_introl eq_refl)). congruence.
      * eapply IH; [intros; apply HP'; right; assumption|eassumption|intros; apply HP2; right; assumption].
    + split.
      * intros _. destruct (jsonMarshal tout (svc input)) as [out|msg].
        -- destruct (N.eqb_spec cmd errCmd); [contradiction|]. subst res. reflexivity.
        -- rewrite N.eqb_refl in HOut. subst res. reflexivity.
      * intro HN. exfalso. apply HN. exists pre, j, post, rid. repeat split; assumption.
Qed.

(** Partial: output types that are not Marshalers.  Missing: Marshaler outputs, for which it is false. *)
Theorem C59_call_returns_output_partial : forall tin tout,
  reliable tin -> reliable tout -> isMarshaler tout = false -> C59_for tin tout.
Proof.
  intros tin tout Ri Ro HM svc cmd errCmd regs errText noFrame n idx fate ns name input HC HR Hn HI HZ.
  destruct (gen_call tin tout svc cmd errCmd regs errText noFrame n idx fate ns name input Ri HC HR Hn HI HZ) as [H1 H2].
  cbv zeta in *. split; [|exact H2]. intro F. rewrite (H1 F). rewrite HM. destruct Ro as [Ro _].
  destruct (Ro (svc input)) as (b & -> & ->). reflexivity.
Qed.
Print Assumptions C59_call_returns_output_partial.

(** A Marshaler output never arrives if its Unmarshal refuses what encoding/json makes of it. *)
Theorem C59_marshaler_output_never_arrives : forall (tin tout : goType) (svc : val tin -> val tout) cmd errCmd regs errText noFrame n idx fate ns name input,
  reliable tin -> cmd <> errCmd ->
  (forall n m f, In (n, m, f) regs -> noColon n) -> noColon ns ->
  implementation regs ns name = Some (genCallback false tin tout svc) ->
  (forall b, (if isMarshaler tin then ownMarshal tin input else jsonMarshal tin input) = inl b ->
     (zlen (pb_message ns name b) < 2 ^ 63)%Z) ->
  isMarshaler tout = true ->
  (forall v b, jsonMarshal tout v = inl b -> exists e, ownUnmarshal tout b = inr e) ->
  forall v, genClientMethod tin tout cmd errCmd n idx
    (fun inBytes => answerFrom errCmd (registerAll regs) errText noFrame cmd fate ns name inBytes) ns name input <> Output v.
Proof.
  intros tin tout svc cmd errCmd regs errText noFrame n idx fate ns name input Ri HC HR Hn HI HZ HM HU v E.
  destruct (gen_call tin tout svc cmd errCmd regs errText noFrame n idx fate ns name input Ri HC HR Hn HI HZ) as [H1 H2].
  cbv zeta in *. rewrite E in *. clear E.
  assert (~ ~ firstAnswers n idx fate) as NN by (intro NF; destruct (H2 NF) as (e & He); discriminate He).
  apply NN. intro F. specialize (H1 F). rewrite HM in H1.
  destruct (jsonMarshal tout (svc input)) as [out|msg] eqn:EJ; [|discriminate].
  destruct (HU _ _ EJ) as (e & He). rewrite He in H1. discriminate.
Qed.
Print Assumptions C59_marshaler_output_never_arrives.

(** Byte strings, written by encoding/json between quotes; as a Marshaler, written as a protobuf field (tag 10, length). *)
Definition asJson (v : bytes) : bytes := 34%N :: v ++ [34%N].
Definition ofJson (b : bytes) : bytes + bytes :=
  match b with 34%N :: r => inl (removelast r) | _ => inr [106]%N end.
Definition strType (m : bool) : goType :=
  mkType bytes m (fun v => inl (10%N :: N.of_nat (length v) :: v))
    (fun b => match b with 10%N :: l :: r => if N.eqb l (N.of_nat (length r)) then inl r else inr [112]%N | _ => inr [112]%N end)
    (fun v => inl (asJson v)) ofJson.

Lemma strType_reliable : forall m, reliable (strType m).
Proof.
  intro m. split.
  - intro v. exists (asJson v). split; [reflexivity|]. cbn. rewrite removelast_last. reflexivity.
  - intros _ v. exists (10%N :: N.of_nat (length v) :: v). split; [reflexivity|]. cbn. rewrite N.eqb_refl. reflexivity.
Qed.

(** the service of the examples: prepends a byte *)
Definition echo (v : bytes) : bytes := 104%N :: v.

Theorem C59_refuted : ~ C59_statement.
Proof.
  intro H.
  specialize (H (strType true) (strType true) (strType_reliable true) (strType_reliable true) echo 5%N 6%N
    [([]%N, [97]%N, genCallback false (strType true) (strType true) echo)] (fun _ => []) 0%N 1 0%N (fun _ => FAnswered 3%N)
    []%N [97]%N [120]%N).
  cbv zeta in H. destruct H as [H _]; try discriminate.
  - intros n m f [E|[]]. inversion E. intros [].
  - intros [].
  - reflexivity.
  - intros b E. cbn in E. inversion E. vm_compute. reflexivity.
  - assert (firstAnswers 1 0%N (fun _ => FAnswered 3%N)) as F.
    { exists [], 0, [], 3%N. split; [reflexivity|]. split; [intros i []|reflexivity]. }
    specialize (H F). vm_compute in H. discriminate H.
Qed.
Print Assumptions C59_refuted.

(** The same call with a type that is not a Marshaler arrives, over the second of two connections. *)
Example C59_example :
  let regs := [([]%N, [97]%N, genCallback false (strType true) (strType false) echo)] in
  let fate j := if j =? 1 then FRefuse else FAnswered 3%N in
  (forall n m f, In (n, m, f) regs -> noColon n) /\
  firstAnswers 2 0%N fate /\
  genClientMethod (strType true) (strType false) 5%N 6%N 2 0%N
    (fun inBytes => answerFrom 6%N (registerAll regs) (fun _ => []) 0%N 5%N fate []%N [97]%N inBytes) []%N [97]%N [120]%N = Output [104;120]%N.
Proof.
  cbv zeta. split; [intros n m f [E|[]]; inversion E; intros []|]. split.
  - exists [1], 0, [], 3%N. split; [reflexivity|]. split; [|reflexivity]. intros i [<-|[]]. reflexivity.
  - vm_compute. reflexivity.
Qed.
