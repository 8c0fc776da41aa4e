(** C39, C40: the generated RPC client and the service dispatcher. *)
From Coq Require Import ZifyBool ZifyNat ZifyN.
From Verif Require Import Model.GoBase Model.Qrpc Model.Pb Model.Codegen Spec.PbSpec Proofs.PbP Props.Pb.
Open Scope nat_scope.

(** ** C39 *)
(** Spec, written from the README's description: the connections are tried one after the other in a
    rotated order; the answer of the first one that accepts decides. *)
Definition rotation (n start : nat) : list nat := map (fun i => (start + i) mod n) (seq 0 n).

(** the connections that were sent the request *)
Definition tried (cs : list connCall) : list nat :=
  flat_map (fun c => match c with CallRequest j _ _ _ => [j] | CallReset _ _ => [] end) cs.

(** what the caller gets from an accepting connection *)
Definition outcome (errCmd : Cmd) (a : connAnswer) (r : clientResult) : Prop :=
  match a with
  | Refused => False
  | Accepted _ (inl e) => r = WaitErr e
  | Accepted _ (inr (c, p)) => if N.eqb c errCmd then r = RemoteErr p else r = Out p
  end.

Lemma tried_cons : forall j b f p cs, tried (CallRequest j b f p :: cs) = j :: tried cs.
Proof. reflexivity. Qed.

Lemma requestLoop_spec : forall cmd errCmd n idx answer body k i,
  let '(cs, r) := requestLoop cmd errCmd n idx answer body k i in
  let js := map (fun i => (i + N.to_nat idx) mod n) (seq i k) in
  (Forall (fun j => answer j = Refused) js /\ tried cs = js /\ r = ServiceNA /\
   cs = map (fun j => CallRequest j cmd NBFlag body) js) \/
  (exists pre j post, js = pre ++ j :: post /\ Forall (fun j => answer j = Refused) pre /\
    answer j <> Refused /\ tried cs = pre ++ [j] /\ outcome errCmd (answer j) r /\
    exists tl, cs = map (fun j => CallRequest j cmd NBFlag body) (pre ++ [j]) ++ tl /\
      tl = match answer j with Accepted rid (inl _) => [CallReset j rid] | _ => [] end).
Proof.
  intros cmd errCmd n idx answer body. induction k as [|k IH]; intro i.
  - cbn. left. repeat split. constructor.
  - cbn [requestLoop seq map]. set (j := ((i + N.to_nat idx) mod n)).
    destruct (answer j) as [|rid [e|[fc p]]] eqn:A.
    + specialize (IH (S i)). destruct (requestLoop cmd errCmd n idx answer body k (S i)) as [cs r].
      destruct IH as [(HF & HT & HR & HC)|(pre & j' & post & HJ & HF & HA & HT & HO & tl & HC & HL)].
      * left. split; [constructor; assumption|]. split; [rewrite tried_cons; congruence|]. split; [assumption|]. cbn [map]. congruence.
      * right. exists (j :: pre), j', post. rewrite tried_cons, HJ, HT.
        split; [reflexivity|]. split; [constructor; assumption|]. split; [assumption|]. split; [reflexivity|].
        split; [assumption|]. exists tl. split; [|exact HL]. rewrite HC. cbn. reflexivity.
    + right. exists [], j, (map (fun i => (i + N.to_nat idx) mod n) (seq (S i) k)). cbn.
      split; [reflexivity|]. split; [constructor|]. split; [congruence|]. split; [reflexivity|].
      split; [rewrite A; reflexivity|]. exists [CallReset j rid]. rewrite A. split; reflexivity.
    + destruct (N.eqb fc errCmd) eqn:EC; right; exists [], j, (map (fun i => (i + N.to_nat idx) mod n) (seq (S i) k)); cbn;
      (split; [reflexivity|]; split; [constructor|]; split; [congruence|]; split; [reflexivity|];
       split; [rewrite A; cbn; rewrite EC; reflexivity|]; exists []; rewrite A; split; reflexivity).
Qed.

Lemma NoDup_map_in : forall (A B : Type) (f : A -> B) l,
  (forall x y, In x l -> In y l -> f x = f y -> x = y) -> NoDup l -> NoDup (map f l).
Proof.
  induction l as [|a l IH]; intros HI ND; [constructor|]. inversion ND; subst. cbn. constructor.
  - intro Hin. apply in_map_iff in Hin. destruct Hin as (y & E & Hy).
    assert (y = a) by (apply HI; [right; assumption|left; reflexivity|assumption]). subst. contradiction.
  - apply IH; [|assumption]. intros; apply HI; [right; assumption|right; assumption|assumption].
Qed.

Lemma rotation_NoDup : forall n s, NoDup (rotation n s).
Proof.
  intros n s. unfold rotation. destruct (Nat.eq_dec n 0) as [->|Hn]; [constructor|].
  apply NoDup_map_in; [|apply seq_NoDup].
  intros x y Hx Hy E. apply in_seq in Hx. apply in_seq in Hy.
  assert (G : forall a b, a < n -> b < n -> a <= b -> (s + a) mod n = (s + b) mod n -> a = b).
  { intros a b Ha Hb Hab HE.
    pose proof (Nat.div_mod (s + a) n Hn). pose proof (Nat.div_mod (s + b) n Hn).
    rewrite HE in *. set (q := (s + a) / n) in *. set (q' := (s + b) / n) in *.
    assert (q' = q) by nia. nia. }
  destruct (Nat.le_ge_cases x y); [apply G; lia|symmetry; apply G; lia].
Qed.

Lemma rotation_all : forall n s j, j < n -> In j (rotation n s).
Proof.
  intros n s j Hj. assert (Hn : n <> 0) by lia.
  pose proof (rotation_NoDup n s) as ND.
  assert (HL : length (rotation n s) = n) by (unfold rotation; rewrite map_length, seq_length; reflexivity).
  assert (HI : incl (rotation n s) (seq 0 n)).
  { intros x Hx. unfold rotation in Hx. apply in_map_iff in Hx. destruct Hx as (y & <- & _).
    apply in_seq. split; [lia|]. cbn. apply Nat.mod_upper_bound. lia. }
  assert (HI' : incl (seq 0 n) (rotation n s)).
  { apply NoDup_length_incl; [assumption|rewrite HL, seq_length; lia|assumption]. }
  apply HI'. apply in_seq. lia.
Qed.

(** Failover: every connection is tried at most once, in rotated order starting at the counter value;
    the result is that of the first connection that accepted; ErrServiceNA only when all refused. *)
Theorem C39_failover :
  forall cmd errCmd n idx answer ns name inBytes body,
  Marshal (mkReq ns name inBytes []) = Some body ->
  let '(idx', cs, r) := clientRequest cmd errCmd n idx answer ns name inBytes in
  let order := rotation n (N.to_nat idx') in
  idx' = u32 (idx + 1) /\
  NoDup (tried cs) /\
  (forall j, In j (tried cs) -> j < n) /\
  (forall j b f p, In (CallRequest j b f p) cs -> b = cmd /\ f = NBFlag /\ p = body) /\
  ((r = ServiceNA /\ tried cs = order /\ (forall j, j < n -> answer j = Refused)) \/
   (exists pre j post, order = pre ++ j :: post /\ tried cs = pre ++ [j] /\
      (forall j, In j pre -> answer j = Refused) /\ outcome errCmd (answer j) r)).
Proof.
  intros cmd errCmd n idx answer ns name inBytes body HM. unfold clientRequest. rewrite HM.
  set (idx' := u32 (idx + 1)).
  pose proof (requestLoop_spec cmd errCmd n idx' answer body n 0) as H.
  destruct (requestLoop cmd errCmd n idx' answer body n 0) as [cs r]. cbn [fst snd]. cbv zeta in H.
  replace (map (fun i => (i + N.to_nat idx') mod n) (seq 0 n)) with (rotation n (N.to_nat idx')) in H
    by (unfold rotation; apply map_ext; intro; f_equal; lia).
  pose proof (rotation_NoDup n (N.to_nat idx')) as ND.
  assert (HB : forall j, In j (rotation n (N.to_nat idx')) -> j < n).
  { intros j Hj. unfold rotation in Hj. apply in_map_iff in Hj. destruct Hj as (y & <- & Hy). apply in_seq in Hy.
    apply Nat.mod_upper_bound. lia. }
  set (order := rotation n (N.to_nat idx')) in *.
  destruct H as [(HF & HT & HR & HC)|(pre & j & post & HJ & HF & HA & HT & HO & tl & HC & HL)].
  - rewrite Forall_forall in HF. split; [reflexivity|]. split; [rewrite HT; assumption|]. split; [rewrite HT; exact HB|].
    split.
    { intros j b f p Hin. rewrite HC in Hin. apply in_map_iff in Hin. destruct Hin as (? & E & _). repeat split; congruence. }
    left. repeat split; try assumption. intros j Hj. apply HF. apply rotation_all. assumption.
  - rewrite Forall_forall in HF.
    assert (HT' : NoDup (pre ++ [j]) /\ forall x, In x (pre ++ [j]) -> In x order).
    { rewrite HJ in ND. split.
      - replace (pre ++ j :: post) with ((pre ++ [j]) ++ post) in ND by (rewrite <- app_assoc; reflexivity).
        clear - ND. induction (pre ++ [j]) as [|a l IH]; [constructor|]. cbn in ND. inversion ND; subst.
        constructor; [intro; apply H1; apply in_or_app; left; assumption|auto].
      - intros x Hx. rewrite HJ. apply in_app_or in Hx. apply in_or_app. destruct Hx as [|[->|[]]]; [left; assumption|right; left; reflexivity]. }
    assert (HQ : forall j0 b f p, In (CallRequest j0 b f p) cs -> b = cmd /\ f = NBFlag /\ p = body).
    { intros j0 b f p Hin. rewrite HC in Hin. apply in_app_or in Hin. destruct Hin as [Hin|Hin].
      - apply in_map_iff in Hin. destruct Hin as (? & E & _). split; [congruence|split; congruence].
      - rewrite HL in Hin. destruct (answer j) as [|rid [e|q]]; cbn in Hin; try contradiction.
        destruct Hin as [Hin|[]]. discriminate. }
    split; [reflexivity|]. split; [rewrite HT; apply HT'|]. split.
    { intros x Hx. rewrite HT in Hx. apply HB. apply HT'. assumption. }
    split; [exact HQ|]. right. exists pre, j, post. repeat split; assumption.
Qed.
Print Assumptions C39_failover.

(** A request whose answer is not awaited to the end (the wait failed) is reset on that connection, and
    nothing is reset otherwise. *)
Theorem C39_reset_on_giving_up :
  forall cmd errCmd n idx answer ns name inBytes j rid,
  let '(_, cs, r) := clientRequest cmd errCmd n idx answer ns name inBytes in
  In (CallReset j rid) cs <-> exists e pre, tried cs = pre ++ [j] /\ answer j = Accepted rid (inl e) /\ r = WaitErr e.
Proof.
  intros cmd errCmd n idx answer ns name inBytes j rid. unfold clientRequest.
  destruct (Marshal (mkReq ns name inBytes [])) as [body|].
  2:{ split; [intros []|]. intros (e & pre & HT & _). destruct pre; discriminate. }
  pose proof (requestLoop_spec cmd errCmd n (u32 (idx + 1)) answer body n 0) as H.
  destruct (requestLoop cmd errCmd n (u32 (idx + 1)) answer body n 0) as [cs r]. cbn [fst snd]. cbv zeta in H.
  destruct H as [(HF & HT & HR & HC)|(pre & j' & post & HJ & HF & HA & HT & HO & tl & HC & HL)].
  - split.
    + intro Hin. rewrite HC in Hin. apply in_map_iff in Hin. destruct Hin as (? & E & _). discriminate.
    + intros (e & pre & _ & _ & HR'). congruence.
  - split.
    + intro Hin. rewrite HC in Hin. apply in_app_or in Hin. destruct Hin as [Hin|Hin].
      * apply in_map_iff in Hin. destruct Hin as (? & E & _). discriminate.
      * rewrite HL in Hin. destruct (answer j') as [|rid' [e|q]] eqn:A; cbn in Hin; try contradiction.
        destruct Hin as [Hin|[]]. assert (j' = j) by congruence. assert (rid' = rid) by congruence. subst.
        exists e, pre. rewrite A. repeat split; assumption.
    + intros (e & pre' & HT' & A & HR'). rewrite HT in HT'. apply app_inj_tail in HT'. destruct HT' as [_ ->].
      rewrite HC. apply in_or_app. right. rewrite HL, A. left. reflexivity.
Qed.
Print Assumptions C39_reset_on_giving_up.

(** Consecutive calls start at consecutive connections as long as the uint32 counter does not wrap. *)
Theorem C39_start_rotates :
  forall n idx, (idx + 2 < 2 ^ 32)%N -> 0 < n ->
  hd 0 (rotation n (N.to_nat (u32 (u32 (idx + 1) + 1)))) =
  (hd 0 (rotation n (N.to_nat (u32 (idx + 1)))) + 1) mod n.
Proof.
  intros n idx Hi Hn. assert (E : u32 (idx + 1) = (idx + 1)%N) by (unfold u32; apply N.mod_small; lia).
  rewrite E. assert (E2 : u32 (idx + 1 + 1) = (idx + 2)%N) by (unfold u32; rewrite N.mod_small; lia). rewrite E2.
  unfold rotation. destruct n as [|n]; [lia|]. cbn [seq map hd].
  rewrite !Nat.add_0_r, Nat.add_mod_idemp_l by lia. f_equal. lia.
Qed.
Print Assumptions C39_start_rotates.

(** three connections, counter at 3: 1 refuses, 2 accepts; and all refusing *)
Example C39_example :
  let ans j := if j =? 2 then Accepted 7%N (inr (5%N, [1;2]%N)) else Refused in
  (exists body, Marshal (mkReq [97]%N [98]%N [1]%N []) = Some body /\
   clientRequest 5%N 6%N 3 3%N ans [97]%N [98]%N [1]%N =
     (4%N, [CallRequest 1 5%N NBFlag body; CallRequest 2 5%N NBFlag body], Out [1;2]%N)) /\
  snd (clientRequest 5%N 6%N 3 3%N (fun _ => Refused) [97]%N [98]%N [1]%N) = ServiceNA /\
  snd (clientRequest 5%N 6%N 3 3%N (fun _ => Accepted 7%N (inr (6%N, [33]%N))) [97]%N [98]%N [1]%N) = RemoteErr [33]%N.
Proof. split; [eexists; split; vm_compute; reflexivity|]. split; vm_compute; reflexivity. Qed.

(** ** C40 *)
(** Spec: what an answer to a well-formed request for (ns, method) must be, given who implements it. *)
Definition answerOf (requestID : N) (cmd errCmd : Cmd) (impl : option methodCall) (params : bytes) : list svcEvent :=
  match impl with
  | None => [Wrote requestID errCmd 0%N noSuchService; ClosedConn]
  | Some m =>
    Called m params ::
    match m params with
    | inl out => [Wrote requestID cmd 0%N out]
    | inr msg => [Wrote requestID errCmd 0%N msg; ClosedConn]
    end
  end.

(** The last registration for exactly the pair (ns, method). *)
Definition beqP (a b : bytes) : {a = b} + {a <> b} := list_eq_dec N.eq_dec a b.
Definition implementation (regs : list (bytes * bytes * methodCall)) (ns method : bytes) : option methodCall :=
  fold_left (fun acc '(n, m, f) => if beqP n ns then if beqP m method then Some f else acc else acc) regs None.

Lemma beq_eq : forall a b, beq a b = true <-> a = b.
Proof.
  induction a as [|x a IH]; destruct b as [|y b]; cbn; try (split; [discriminate|congruence]); [tauto|].
  rewrite andb_true_iff, N.eqb_eq, IH. split; [intros []; congruence|]. intro H. inversion H. tauto.
Qed.

(** the full claim: every request is answered according to the registration of its own pair *)
Definition C40_statement : Prop :=
  forall errCmd regs errText requestID cmd ns method params body,
  Unmarshal body = Ok (mkReq ns method params []) ->
  ServeQRPC errCmd (registerAll regs) errText requestID cmd body =
    Some (answerOf requestID cmd errCmd (implementation regs ns method) params).

(** two different pairs share a key, so a request for an unregistered method runs another one *)
Theorem C40_refuted : ~ C40_statement.
Proof.
  intro H.
  specialize (H 9%N [([97;58;98]%N, [99]%N, fun p => inl p)] (fun _ => []) 1%N 2%N [97]%N [98;58;99]%N [5]%N
    (pb_message [97]%N [98;58;99]%N [5]%N)).
  assert (E : Unmarshal (pb_message [97]%N [98;58;99]%N [5]%N) = Ok (mkReq [97]%N [98;58;99]%N [5]%N [])) by (vm_compute; reflexivity).
  specialize (H E). vm_compute in H. discriminate H.
Qed.
Print Assumptions C40_refuted.

Definition noColon (l : bytes) : Prop := ~ In colon l.

Lemma FQ_inj : forall a b c d, noColon a -> noColon c -> FQMethod a b = FQMethod c d -> a = c /\ b = d.
Proof.
  unfold FQMethod, noColon. induction a as [|x a IH]; intros b [|y c] d Ha Hc E; cbn in *.
  - inversion E. tauto.
  - inversion E. subst. tauto.
  - inversion E. subst. tauto.
  - inversion E; subst. destruct (IH b c d) as [-> ->]; tauto.
Qed.

Lemma callback_registerAll : forall regs t ns method,
  (forall n m f, In (n, m, f) regs -> noColon n) -> noColon ns ->
  callback (fold_left (fun t '(ns, me, m) => register t ns me m) regs t) (FQMethod ns method) =
  fold_left (fun acc '(n, m, f) => if beqP n ns then if beqP m method then Some f else acc else acc) regs
    (callback t (FQMethod ns method)).
Proof.
  induction regs as [|[[n m] f] regs IH]; intros t ns method HR Hn; [reflexivity|]. cbn [fold_left].
  rewrite IH; [|intros; eapply HR; right; eassumption|assumption]. f_equal. unfold register. cbn [callback].
  assert (Hnn : noColon n) by (eapply HR; left; reflexivity).
  destruct (beq (FQMethod n m) (FQMethod ns method)) eqn:E.
  - apply beq_eq in E. destruct (FQ_inj _ _ _ _ Hnn Hn E) as [-> ->].
    destruct (beqP ns ns); [|congruence]. destruct (beqP method method); [reflexivity|congruence].
  - destruct (beqP n ns) as [->|]; [|reflexivity]. destruct (beqP m method) as [->|]; [|reflexivity].
    assert (beq (FQMethod ns method) (FQMethod ns method) = true) by (apply beq_eq; reflexivity). congruence.
Qed.

(** Partial: namespaces (registered and requested) without ':'.  Missing: namespaces containing ':',
    where it is false.  Method names may contain anything. *)
Theorem C40_dispatch_partial :
  forall errCmd regs errText requestID cmd ns method params unrec body,
  (forall n m f, In (n, m, f) regs -> noColon n) -> noColon ns ->
  Unmarshal body = Ok (mkReq ns method params unrec) ->
  ServeQRPC errCmd (registerAll regs) errText requestID cmd body =
    Some (answerOf requestID cmd errCmd (implementation regs ns method) params).
Proof.
  intros errCmd regs errText requestID cmd ns method params unrec body HR Hn HU.
  unfold ServeQRPC. rewrite HU. cbn [NS Method Params]. unfold registerAll.
  rewrite callback_registerAll by assumption. cbn [callback]. fold (implementation regs ns method).
  unfold answerOf. destruct (implementation regs ns method) as [m|]; [|reflexivity].
  destruct (m params); reflexivity.
Qed.
Print Assumptions C40_dispatch_partial.

(** Distinct pairs never share a registration (again for namespaces without ':'). *)
Theorem C40_no_collision_partial :
  forall ns method ns' method', noColon ns -> noColon ns' ->
  (ns, method) <> (ns', method') -> FQMethod ns method <> FQMethod ns' method'.
Proof. intros a b c d Ha Hc HN E. destruct (FQ_inj _ _ _ _ Ha Hc E). subst. tauto. Qed.
Print Assumptions C40_no_collision_partial.

(** Undecodable requests and every error are answered under errCmd and close the connection; exactly
    one frame is written, with the request's id, and it is a non-stream frame. *)
Theorem C40_error_answers :
  forall errCmd table errText requestID cmd body evs,
  ServeQRPC errCmd table errText requestID cmd body = Some evs ->
  exists c p, (forall r c' f p', In (Wrote r c' f p') evs <-> (r = requestID /\ c' = c /\ f = 0%N /\ p' = p)) /\
    length (filter (fun e => match e with Wrote _ _ _ _ => true | _ => false end) evs) = 1 /\
    ((c = cmd /\ ~ In ClosedConn evs /\ exists m params, In (Called m params) evs /\ m params = inl p) \/
     (c = errCmd /\ In ClosedConn evs /\
       ((exists e, Unmarshal body = Err e /\ p = errText e) \/
        (exists r, Unmarshal body = Ok r /\ callback table (FQMethod (NS r) (Method r)) = None /\ p = noSuchService) \/
        (exists m params, In (Called m params) evs /\ m params = inr p)))).
Proof.
  intros errCmd table errText requestID cmd body evs H. unfold ServeQRPC in H.
  destruct (Unmarshal body) as [r|e| |] eqn:HU; try discriminate.
  - destruct (callback table (FQMethod (NS r) (Method r))) as [cb|] eqn:HC.
    + destruct (cb (Params r)) as [out|msg] eqn:HCB; inversion H; subst; clear H.
      * exists cmd, out. split; [|split; [reflexivity|left]].
        { intros. cbn. split; [intros [E|[E|[]]]; inversion E; subst; auto|intros (-> & -> & -> & ->); auto]. }
        split; [reflexivity|]. split; [cbn; intros [E|[E|[]]]; discriminate|].
        exists cb, (Params r). split; [left; reflexivity|assumption].
      * exists errCmd, msg. split; [|split; [reflexivity|right]].
        { intros. cbn. split; [intros [E|[E|[E|[]]]]; inversion E; subst; auto|intros (-> & -> & -> & ->); auto]. }
        split; [reflexivity|]. split; [cbn; auto|]. right. right. exists cb, (Params r). split; [left; reflexivity|assumption].
    + inversion H; subst; clear H. exists errCmd, noSuchService. split; [|split; [reflexivity|right]].
      { intros. cbn -[noSuchService]. split; [intros [E|[E|[]]]; inversion E; subst; auto|intros (-> & -> & -> & ->); auto]. }
      split; [reflexivity|]. split; [cbn; auto|]. right. left. exists r. auto.
  - inversion H; subst; clear H. exists errCmd, (errText e). split; [|split; [reflexivity|right]].
    { intros. cbn. split; [intros [E|[E|[]]]; inversion E; subst; auto|intros (-> & -> & -> & ->); auto]. }
    split; [reflexivity|]. split; [cbn; auto|]. left. exists e. auto.
Qed.
Print Assumptions C40_error_answers.

(** A request produced by the generated client reaches the method registered under its own name. *)
Theorem C40_end_to_end_partial :
  forall errCmd regs errText requestID cmd ns method params body,
  (forall n m f, In (n, m, f) regs -> noColon n) -> noColon ns ->
  (zlen (pb_message ns method params) < 2 ^ 63)%Z ->
  Marshal (mkReq ns method params []) = Some body ->
  ServeQRPC errCmd (registerAll regs) errText requestID cmd body =
    Some (answerOf requestID cmd errCmd (implementation regs ns method) params).
Proof.
  intros errCmd regs errText requestID cmd ns method params body HR Hn HZ HM.
  destruct (C41_round_trip ns method params HZ) as (enc & HE & HU & _). unfold request in *.
  rewrite HM in HE. inversion HE; subst enc. eapply C40_dispatch_partial; eassumption.
Qed.
Print Assumptions C40_end_to_end_partial.

Example C40_example :
  let f : methodCall := fun p => inl (1%N :: p) in
  let g : methodCall := fun p => inr [33]%N in
  let regs := [([]%N, [97]%N, f); ([110]%N, [97;58]%N, g)] in
  (forall n m h, In (n, m, h) regs -> noColon n) /\
  implementation regs [] [97]%N = Some f /\
  ServeQRPC 9%N (registerAll regs) (fun _ => [0]%N) 3%N 4%N (pb_message []%N [97]%N [7]%N) =
    Some [Called f [7]%N; Wrote 3%N 4%N 0%N [1;7]%N] /\
  ServeQRPC 9%N (registerAll regs) (fun _ => [0]%N) 3%N 4%N (pb_message [110]%N [97;58]%N [7]%N) =
    Some [Called g [7]%N; Wrote 3%N 9%N 0%N [33]%N; ClosedConn] /\
  ServeQRPC 9%N (registerAll regs) (fun _ => [0]%N) 3%N 4%N (pb_message [110]%N [97]%N [7]%N) =
    Some [Wrote 3%N 9%N 0%N noSuchService; ClosedConn] /\
  ServeQRPC 9%N (registerAll regs) (fun _ => [0]%N) 3%N 4%N [10]%N = Some [Wrote 3%N 9%N 0%N [0]%N; ClosedConn].
Proof.
  repeat split; try (vm_compute; reflexivity).
  intros n m h [E|[E|[]]]; inversion E; subst; intro Hin; cbn in Hin; intuition discriminate.
Qed.
