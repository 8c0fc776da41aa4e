(** C68: a call of a generated client over a connection gets the result of the method it named. *)
From Coq Require Import ZifyBool ZifyNat ZifyN.
From Verif Require Import Model.GoBase Model.Machine Model.Qrpc Model.Pb Model.FrameReader Model.Stream Model.Pair Model.Call Model.Codegen Model.Rpc
  Spec.PbSpec Proofs.PairP Proofs.CallP Proofs.CallQ Props.Stream Props.Pair Props.Call Props.Codegen.
From Verif Require Model.Ids Model.Mux Model.Response.
Open Scope N_scope.

(** What the caller must get: the bytes the registered method returns for the input, or its error; an error if there is no such
    method. *)
Definition rpcSpec (impl : option methodCall) (input : bytes) : clientResult :=
  match impl with
  | None => RemoteErr noSuchService
  | Some m => match m input with inl out => Out out | inr msg => RemoteErr msg end
  end.

(** The claim for one service: whatever else is going on, if GetFrame on the Response of a call made by a generated client
    returns a frame, Client.Request returns what the spec says.  Namespaces are Go identifiers; the ServiceMux could be made
    (mux.Handle panics for larger cmds). *)
Definition C68_for (v : service) : Prop :=
  forall lim regs j k r f ns name input, sane lim -> s_table v = registerAll regs ->
  (forall n m g, In (n, m, g) regs -> noColon n) -> noColon ns -> (zlen (pb_message ns name input) < 2 ^ 63)%Z ->
  reachable (rstep lim v) cinit j -> In k (calls j) -> c_stream k = false -> c_cmd k = s_cmd v ->
  Marshal (mkReq ns name input []) = Some (c_pay k) -> c_resp k = Some r ->
  In (Some f) (Response.gots (rr j) r) ->
  rpcResult (s_err v) f = rpcSpec (implementation regs ns name) input.
Definition C68_statement : Prop := forall v, rpcMux v <> None -> s_cmd v <> s_err v -> C68_for v.

(** the answers of generated handlers *)
Definition fromRpc (v : service) (q f : Frame) : Prop :=
  isRpc v q = true -> exists c fl p, written v q = Some (c, fl, p) /\ f = mkFrame (fRequestID q) fl (N.land c 0xffffff) p.

Lemma rstep_cstep : forall lim v j l j', rstep lim v j l = Some j' -> exists l', cstep lim j l' = Some j'.
Proof.
  intros lim v j [s|l] j' E; cbn [rstep] in E.
  - destruct (got _) as [|q g]; [discriminate|]. destruct (isRpc v q); [|discriminate]. destruct (written v q) as [[[c fl] p]|]; [|discriminate]. eauto.
  - destruct l; eauto. destruct (got _) as [|q g]; [discriminate|]. destruct (isRpc v q); [discriminate|]. eauto.
Qed.

Lemma answers_step : forall lim j l j', cstep lim j l = Some j' -> answers j' = answers j \/
  exists s cmd fl pay q g, l = JAnswer s cmd fl pay /\ got (heap (ep (pp j) false) s) = q :: g /\ answers j' = (q, mkFrame (fRequestID q) fl (N.land cmd 0xffffff) pay) :: answers j.
Proof.
  intros lim j l j' E. destruct l.
  - left. unfold cstep in E. destruct (Ids.clientNextID (ridGen j)). destruct (2 ^ 63 <=? ridGen j + 1); [discriminate|]. destruct (IsPush _); [injection E as <-; reflexivity|]. destruct (Response.pstep _ _ _); [|discriminate]. injection E as <-. reflexivity.
  - left. unfold cstep in E. destruct (nth_error _ _); [|discriminate]. destruct (collecting j); [|discriminate]. destruct (Pair.pstep _ _ _); [|discriminate]. injection E as <-. reflexivity.
  - left. unfold cstep in E. destruct (_ && _); [|discriminate]. destruct (Pair.pstep _ _ _); [|discriminate]. injection E as <-. reflexivity.
  - right. unfold cstep in E. destruct (got _) as [|q g] eqn:EG; [discriminate|]. destruct (_ && _); [|discriminate]. destruct (Pair.pstep _ _ _); [|discriminate]. injection E as <-. eauto 10.
  - left. unfold cstep in E. destruct (serverOk _ _); [|discriminate]. destruct (Pair.pstep _ _ _); [|discriminate]. injection E as <-. reflexivity.
  - left. destruct (pair_case lim j l j' E) as (p' & _ & _ & HA).
    destruct HA as [(-> & _)|[(_ & ->)|[(_ & ->)|[(_ & _ & ->)|(_ & _ & r0 & lb & r' & _ & _ & _ & ->)]]]]; reflexivity.
  - left. unfold cstep in E. destruct (rpc _); try discriminate. destruct (ret j); [|discriminate]. destruct (Response.pstep _ _ _); [|discriminate]. injection E as <-. reflexivity.
  - left. unfold cstep in E. destruct l; try discriminate; try (destruct (wpc _); try discriminate); destruct (Response.pstep _ _ _); try discriminate; injection E as <-; reflexivity.
  - left. unfold cstep in E. destruct (Response.pstep _ _ _); [|discriminate]. injection E as <-. reflexivity.
Qed.

Lemma rpc_reach : forall lim v j, reachable (rstep lim v) cinit j -> reachable (cstep lim) cinit j /\ forall q f, In (q, f) (answers j) -> fromRpc v q f.
Proof.
  intros lim v j R. pattern j. refine (reachable_inv (rstep lim v) (fun j => reachable (cstep lim) cinit j /\ forall q f, In (q, f) (answers j) -> fromRpc v q f) cinit _ _ j R).
  - split; [exists []; reflexivity|]. intros q f [].
  - clear j R. intros j l j' [R A] E. destruct (rstep_cstep _ _ _ _ _ E) as (l' & E'). split; [eapply reachable_step; eassumption|].
    assert (X : exists l0, cstep lim j l0 = Some j' /\ (forall s c fl p q g, l0 = JAnswer s c fl p -> got (heap (ep (pp j) false) s) = q :: g -> isRpc v q = true -> written v q = Some (c, fl, p))).
    { clear l' E'. destruct l as [s|l]; cbn [rstep] in E.
      - destruct (got _) as [|q g] eqn:EG; [discriminate|]. destruct (isRpc v q); [|discriminate]. destruct (written v q) as [[[c fl] p]|] eqn:EW; [|discriminate].
        exists (JAnswer s c fl p). split; [assumption|]. intros s0 c0 fl0 p0 q0 g0 X Y _. injection X as <- <- <- <-. rewrite EG in Y. injection Y as <- <-. assumption.
      - assert (NA : (forall s c fl p, l <> JAnswer s c fl p) -> cstep lim j l = Some j' -> exists l0, cstep lim j l0 = Some j' /\ (forall s c fl p q g, l0 = JAnswer s c fl p -> got (heap (ep (pp j) false) s) = q :: g -> isRpc v q = true -> written v q = Some (c, fl, p))).
        { intros N E0. exists l. split; [assumption|]. intros. subst l. elim (N s c fl p eq_refl). }
        destruct l; try (apply NA; [discriminate|exact E]). clear NA. destruct (got _) as [|q g] eqn:EG; [discriminate|]. destruct (isRpc v q) eqn:EI; [discriminate|].
        eexists. split; [exact E|]. intros s0 c0 fl0 p0 q0 g0 X Y Z. injection X as <- <- <- <-. rewrite EG in Y. injection Y as <- <-. congruence. }
    destruct X as (l0 & E0 & HW). intros q f HI. destruct (answers_step lim j l0 j' E0) as [Y|(s & c & fl & p & q0 & g & -> & EG & Y)]; rewrite Y in HI; [auto|].
    destruct HI as [HI|HI]; [|auto]. injection HI as <- <-. intro IR. exists c, fl, p. split; [|reflexivity]. eapply HW; [reflexivity|exact EG|exact IR].
Qed.

Lemma land_max : forall c, c <= MaxCmd -> N.land c 0xffffff = c.
Proof. intros c H. unfold MaxCmd in H. change 0xffffff with (N.ones 24). rewrite N.land_ones. apply N.mod_small. change (2 ^ 24) with 0x1000000. lia. Qed.

(** Partial: services whose error cmd fits into a frame.  Missing: larger ones, for which it is false. *)
Theorem C68_result_of_the_method_partial : forall v, rpcMux v <> None -> s_cmd v <> s_err v -> s_err v <= MaxCmd -> C68_for v.
Proof.
  intros v HX HN HE lim regs j k r f ns name input HS HT HR Hn HZ R HK Hs HC HM Hr HG.
  destruct (rpc_reach lim v j R) as [RC A]. destruct (C67_own_answer lim j r f HS RC HG) as (k' & q & K1 & K2 & K3 & K4 & Q1 & Q2 & Q3).
  assert (k = k') by (apply K4; auto). subst k'. rewrite (Q3 Hs) in *.
  assert (HL : s_cmd v <= MaxCmd) by (unfold rpcMux, Mux.Handle in HX; destruct (MaxCmd <? s_cmd v) eqn:EL; [congruence|apply N.ltb_ge; assumption]).
  assert (IR : isRpc v (request_of k) = true).
  { unfold isRpc, rpcMux, Mux.Handle, Mux.ServeQRPC. apply N.ltb_ge in HL as HL'. rewrite HL'. unfold Mux.emptyMux, request_of. cbn [fCmd]. rewrite HC, land_max by assumption. rewrite N.eqb_refl. reflexivity. }
  destruct (A _ _ Q1 IR) as (c & fl & p & W & F). unfold written, request_of in W. cbn [fRequestID fCmd fPayload] in W. rewrite HC, HT, land_max in W by assumption.
  rewrite (C40_end_to_end_partial (s_err v) regs (s_text v) (c_id k) (s_cmd v) ns name input (c_pay k) HR Hn HZ HM) in W.
  unfold rpcResult, rpcSpec. rewrite F. cbn [fCmd fPayload]. unfold answerOf in W. destruct (implementation regs ns name) as [m|]; [destruct (m input) as [out|msg]|]; cbn in W; injection W as <- <- <-.
  - rewrite land_max by assumption. destruct (N.eqb_spec (s_cmd v) (s_err v)); [contradiction|reflexivity].
  - rewrite land_max by assumption. rewrite N.eqb_refl. reflexivity.
  - rewrite land_max by assumption. rewrite N.eqb_refl. reflexivity.
Qed.
Print Assumptions C68_result_of_the_method_partial.

(** What happens otherwise: an error of the method is returned to the caller as if it were the output. *)
Theorem C68_errors_become_outputs :
  forall v lim regs j k r f ns name input msg, rpcMux v <> None -> MaxCmd < s_err v -> sane lim -> s_table v = registerAll regs ->
  (forall n m g, In (n, m, g) regs -> noColon n) -> noColon ns -> (zlen (pb_message ns name input) < 2 ^ 63)%Z ->
  reachable (rstep lim v) cinit j -> In k (calls j) -> c_stream k = false -> c_cmd k = s_cmd v ->
  Marshal (mkReq ns name input []) = Some (c_pay k) -> c_resp k = Some r -> In (Some f) (Response.gots (rr j) r) ->
  rpcSpec (implementation regs ns name) input = RemoteErr msg ->
  rpcResult (s_err v) f = Out msg.
Proof.
  intros v lim regs j k r f ns name input msg HX HE HS HT HR Hn HZ R HK Hs HC HM Hr HG SP.
  destruct (rpc_reach lim v j R) as [RC A]. destruct (C67_own_answer lim j r f HS RC HG) as (k' & q & K1 & K2 & K3 & K4 & Q1 & Q2 & Q3).
  assert (k = k') by (apply K4; auto). subst k'. rewrite (Q3 Hs) in *.
  assert (HL : s_cmd v <= MaxCmd) by (unfold rpcMux, Mux.Handle in HX; destruct (MaxCmd <? s_cmd v) eqn:EL; [congruence|apply N.ltb_ge; assumption]).
  assert (IR : isRpc v (request_of k) = true).
  { unfold isRpc, rpcMux, Mux.Handle, Mux.ServeQRPC. apply N.ltb_ge in HL as HL'. rewrite HL'. unfold Mux.emptyMux, request_of. cbn [fCmd]. rewrite HC, land_max by assumption. rewrite N.eqb_refl. reflexivity. }
  destruct (A _ _ Q1 IR) as (c & fl & p & W & F). unfold written, request_of in W. cbn [fRequestID fCmd fPayload] in W. rewrite HC, HT, land_max in W by assumption.
  rewrite (C40_end_to_end_partial (s_err v) regs (s_text v) (c_id k) (s_cmd v) ns name input (c_pay k) HR Hn HZ HM) in W.
  assert (LT : N.land (s_err v) 0xffffff <> s_err v).
  { change 0xffffff with (N.ones 24). rewrite N.land_ones. pose proof (N.mod_lt (s_err v) (2 ^ 24) ltac:(discriminate)) as X. unfold MaxCmd in HE. change (2 ^ 24) with 0x1000000 in *. lia. }
  unfold rpcResult, rpcSpec in *. rewrite F. cbn [fCmd fPayload]. unfold answerOf in W. destruct (implementation regs ns name) as [m|]; [destruct (m input) as [out|msg0]|]; cbn in W; injection W as <- <- <-; try discriminate SP; injection SP as <-.
  - destruct (N.eqb_spec (N.land (s_err v) 0xffffff) (s_err v)); [contradiction|reflexivity].
  - destruct (N.eqb_spec (N.land (s_err v) 0xffffff) (s_err v)); [contradiction|reflexivity].
Qed.
Print Assumptions C68_errors_become_outputs.

(** a service with the method "a", which returns 1 followed by its input, or refuses an empty input; called once *)
Definition inc : methodCall := fun p => match p with [] => inr [33] | _ => inl (1 :: p) end.
Definition sampleV (err : Cmd) : service := mkService 7 err (registerAll [([], [97], inc)]) (fun _ => []).
Definition sampleRun (input : bytes) : list rlabel :=
  map ROp (rpcRequest 7 (pb_message [] [97] input) :: JTake 0 :: repeat (JPair (PLoc true LWStep)) 4 ++
  map JResp [Response.PRegister; Response.PWrite; Response.PAnswer; Response.PAnswer] ++
  JPair (PArrive false (16 + length (pb_message [] [97] input))) :: JPair (PRead false) :: repeat (JPair (PLoc false LRStep)) 6) ++
  RServe 0 :: map ROp (repeat (JPair (PLoc false LWStep)) 8 ++
  JPair (PArrive true 100) :: JPair (PRead true) :: repeat (JPair (PLoc true LRStep)) 10 ++
  JLook :: map JResp [Response.PHand; Response.PGet 0]).
Definition sampleEnd (err : Cmd) (input : bytes) : option cst := run (rstep (fun _ => 0%Z) (sampleV err)) cinit (sampleRun input).
Lemma sample_ok : forall err input f, match sampleEnd err input with
    Some j => calls j = [mkCall 3 7 NBFlag (pb_message [] [97] input) false (Some 0)] /\ Response.gots (rr j) 0 = [Some f] | None => False end ->
  exists j k, reachable (rstep (fun _ => 0%Z) (sampleV err)) cinit j /\ In k (calls j) /\ c_stream k = false /\ c_cmd k = s_cmd (sampleV err) /\
    c_pay k = pb_message [] [97] input /\ c_resp k = Some 0 /\ In (Some f) (Response.gots (rr j) 0).
Proof.
  intros err input f H. unfold sampleEnd in H. destruct (run _ _ _) as [j|] eqn:E; [|contradiction]. destruct H as [HC HG].
  exists j, (mkCall 3 7 NBFlag (pb_message [] [97] input) false (Some 0)). split; [exists (sampleRun input); exact E|]. rewrite HC, HG. cbn. auto 10.
Qed.

Example C68_case : exists j k, reachable (rstep (fun _ => 0%Z) (sampleV 8)) cinit j /\ In k (calls j) /\ c_stream k = false /\ c_cmd k = s_cmd (sampleV 8) /\
    c_pay k = pb_message [] [97] [5] /\ c_resp k = Some 0 /\ In (Some (mkFrame 3 0 7 [1; 5])) (Response.gots (rr j) 0).
Proof. apply sample_ok. vm_compute. split; reflexivity. Qed.
Example C68_hypotheses : rpcMux (sampleV 8) <> None /\ s_cmd (sampleV 8) <> s_err (sampleV 8) /\ s_err (sampleV 8) <= MaxCmd /\
  Marshal (mkReq [] [97] [5] []) = Some (pb_message [] [97] [5]) /\ rpcSpec (implementation [([], [97], inc)] [] [97]) [5] = Out [1; 5].
Proof. repeat split; try (vm_compute; reflexivity); vm_compute; discriminate. Qed.

(** The service may be given any two different cmds; with an error cmd above 0xffffff the caller takes the error's text for the
    output. *)
Theorem C68_refuted : ~ C68_statement.
Proof.
  intro H. assert (F : C68_for (sampleV 0x1000008)) by (apply H; [vm_compute; discriminate|discriminate]). clear H.
  destruct (sample_ok 0x1000008 [] (mkFrame 3 0 8 [33])) as (j & k & R & K1 & K2 & K3 & K4 & K5 & G); [vm_compute; split; reflexivity|].
  assert (X := F (fun _ => 0%Z) [([], [97], inc)] j k 0 (mkFrame 3 0 8 [33]) [] [97] [] ltac:(intros [|]; left; lia) eq_refl
    ltac:(intros n m g [E|[]]; injection E as <- _ _; intros []) ltac:(intros []) ltac:(vm_compute; reflexivity) R K1 K2 K3).
  rewrite K4 in X. specialize (X ltac:(vm_compute; reflexivity) K5 G). vm_compute in X. discriminate X.
Qed.
Print Assumptions C68_refuted.
