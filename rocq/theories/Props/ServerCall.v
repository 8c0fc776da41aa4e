(** C79: a server's call gets the answer of the client's handler that was given this call. *)
From Coq Require Import ZifyBool ZifyNat ZifyN.
From Verif Require Import Model.GoBase Model.Machine Model.Qrpc Model.Reader Model.FrameReader Model.Stream Model.Pair Model.Call
  Proofs.StreamP Proofs.StreamI Proofs.PairP Proofs.CallP Proofs.CallS Props.Stream Props.Pair Props.Call Model.ServerCall Proofs.SCallP Proofs.SCallS.
From Verif Require Model.Response Props.Response.
Open Scope N_scope.

(** The full statement: GetFrame returns a frame written by a client's handler that was given this call's request; the request of
    a call made with Request is on the wire at most once; the client's handler is called at most once for it, with that request;
    the first answer gets to the call, once. *)
Definition C79_statement : Prop :=
  forall lim ls j, sane lim -> run (cstep lim) cinit ls = Some j ->
  (forall r f, In (Some f) (Response.gots (rr j) r) -> exists k q, In k (calls j) /\ c_resp k = Some r /\ fRequestID f = c_id k /\
     In (q, f) (answers j) /\ fRequestID q = c_id k /\ (c_stream k = false -> q = request_of k)) /\
  forall k, In k (calls j) -> c_stream k = false ->
  (frames_of (false, c_id k) (sent (pp j) false) = [] \/ frames_of (false, c_id k) (sent (pp j) false) = [request_of k]) /\
  (let st := ep (pp j) true in
   forall s s', s < next st -> s' < next st -> spush (heap st s) = false -> spush (heap st s') = false ->
     sid (heap st s) = c_id k -> sid (heap st s') = c_id k -> got (heap st s) <> [] -> got (heap st s') <> [] ->
     got (heap st s) = [request_of k] /\ s = s') /\
  (forall r f t, c_resp k = Some r -> frames_of (false, c_id k) (inlog (ep (pp j) false)) = f :: t ->
     Response.up (rr j) = true -> rpc (ep (pp j) false) = RIdle -> ret j = None -> Response.hand (rr j) = None ->
     Response.sends (rr j) r = 1%nat /\ (Response.chanF (rr j) r = [f] \/ In (Some f) (Response.gots (rr j) r))).

(** one call of the server up to the first answer of the client's handler *)
Definition oneSCall (r : N) (pay ans : bytes) : list clabel :=
  JCall false 7 0 pay :: JTake 0 :: repeat (JPair (PLoc false LWStep)) 4 ++
  map JResp [Response.PRegister; Response.PWrite; Response.PAnswer; Response.PAnswer] ++
  JPair (PArrive true 5) :: JPair (PArrive true 12) :: JPair (PRead true) :: repeat (JPair (PLoc true LRStep)) 6 ++
  JAnswer 0 8 0 ans :: repeat (JPair (PLoc true LWStep)) 8 ++
  JPair (PArrive false 100) :: JPair (PRead false) :: repeat (JPair (PLoc false LRStep)) 10 ++
  JLook :: map JResp [Response.PHand; Response.PGet r].
(** the client's handler writes a second frame: the server calls its own handler with it; that handler answers and the client's
    handler is called again *)
Definition secondAnswer : list clabel :=
  oneSCall 0 [1] [2] ++ JAnswer 0 8 0 [3] :: repeat (JPair (PLoc true LWStep)) 4 ++
  JPair (PArrive false 100) :: JPair (PRead false) :: repeat (JPair (PLoc false LRStep)) 6 ++ JLook ::
  JEcho 0 9 NBFlag [4] :: repeat (JPair (PLoc false LWStep)) 8 ++ map JResp [Response.PRegister; Response.PWrite; Response.PAnswer] ++
  JPair (PArrive true 17) :: JPair (PRead true) :: repeat (JPair (PLoc true LRStep)) 10.

(** no handler of the server answers a frame that came under one of the server's own ids *)
Definition noEcho (ls : list clabel) : Prop := forall i cmd fl pay, ~ In (JEcho i cmd fl pay) ls.

Lemma calm_run : forall lim ls j, run (cstep lim) cinit ls = Some j -> noEcho ls -> reachable (cstepQ lim) cinit j.
Proof.
  intros lim ls j E N. exists ls. revert E N. generalize cinit. induction ls as [|l ls IH]; intros s E N; [exact E|]. cbn in *.
  destruct (cstep lim s l) as [s'|] eqn:ES; [|discriminate].
  assert (Q : cstepQ lim s l = Some s').
  { unfold cstepQ. destruct l; try exact ES. exfalso. eapply N. left. reflexivity. }
  rewrite Q. apply IH; [exact E|]. intros i cmd fl pay H. eapply N. right. exact H.
Qed.

(** GetFrame on the Response of a call, when it returns a frame, returns a frame that was written by a client's handler which was
    given this call's request: for Request exactly the frame of the call, for StreamRequest a frame sent under its id.  The call
    is the only one with this Response and the only one with this id. *)
Theorem C79_own_answer_partial :
  forall lim ls j r f, sane lim -> run (cstep lim) cinit ls = Some j -> noEcho ls -> In (Some f) (Response.gots (rr j) r) ->
  exists k q, In k (calls j) /\ c_resp k = Some r /\ fRequestID f = c_id k /\
    (forall k', In k' (calls j) -> c_resp k' = Some r \/ c_id k' = c_id k -> k' = k) /\
    In (q, f) (answers j) /\ fRequestID q = c_id k /\ (c_stream k = false -> q = request_of k).
Proof.
  intros lim ls j r f HS RN NE HG. pose proof (calm_run lim ls j RN NE) as R. pose proof (reach_call lim (sane_ok lim HS) j R) as I. destruct (v_resp _ _ I) as (rs & A & B & C).
  destruct (Response.C23_own_frame false rs (rr j) r f A HG) as [F1 F2]. apply C in F1. rewrite N2Nat.id in F1. destruct F1 as (k & K1 & K2 & K3).
  destruct (B f F2) as (P1 & P2 & G).
  assert (OD : N.even (fRequestID f) = true) by (destruct (v_ids _ _ I k K1) as (n & _ & E); rewrite <- K3, E; apply odd_even).
  destruct (G (conj P2 (conj P1 OD))) as (q & Q). destruct (v_ans _ _ I q f Q) as (Q1 & Q2 & Q3 & Q4).
  exists k, q. split; [assumption|]. split; [assumption|]. split; [congruence|]. split; [|split; [assumption|split; [congruence|]]].
  - intros k' H [H1|H1]; (eapply same_call; [apply I|assumption|assumption|]); [|assumption].
    assert (X : nth_error (Response.requests rs) (N.to_nat r) = Some (c_id k')) by (apply C; exists k'; rewrite N2Nat.id; auto).
    assert (Y : nth_error (Response.requests rs) (N.to_nat r) = Some (c_id k)) by (apply C; exists k; rewrite N2Nat.id; auto). congruence.
  - intro Hs. assert (PQ : plainf q) by (unfold plainf; rewrite Q1; auto). destruct (Q4 PQ) as (k' & K4 & K5 & K6).
    assert (k' = k) by (eapply same_call; [apply I|assumption|assumption|congruence]). subst k'. destruct K6 as [K6| ->]; [congruence|reflexivity].
Qed.
Print Assumptions C79_own_answer_partial.

(** The request of a call made with Request is on the wire at most once, and not before the writer has
    taken it. *)
Theorem C79_sent_once_partial :
  forall lim ls j k, sane lim -> run (cstep lim) cinit ls = Some j -> noEcho ls -> In k (calls j) -> c_stream k = false ->
  frames_of (false, c_id k) (sent (pp j) false) = [] \/
  (frames_of (false, c_id k) (sent (pp j) false) = [request_of k] /\ ~ In k (waiting j)).
Proof.
  intros lim ls j k HS RN NE HK Hs. pose proof (calm_run lim ls j RN NE) as R. pose proof (reach_call lim (sane_ok lim HS) j R) as I. pose proof (v_once _ _ I k HK Hs) as O.
  assert (NL : (length (frames_of (false, c_id k) (sent (pp j) false)) + wcount (c_id k) (waiting j) <= 1)%nat).
  { fold (nfr (c_id k) (sent (pp j) false)). unfold load in O. lia. }
  destruct (frames_of (false, c_id k) (sent (pp j) false)) as [|f [|g l]] eqn:E; [auto| |cbn in NL; lia]. right.
  split.
  - assert (X : In f (frames_of (false, c_id k) (sent (pp j) false))) by (rewrite E; left; reflexivity).
    unfold frames_of in X. apply filter_In in X. cbn [fst snd] in X. destruct X as [X1 X2]. rewrite !andb_true_iff, N.eqb_eq, negb_true_iff in X2.
    destruct X2 as [[X2 X3] X4]. apply Bool.eqb_prop in X2.
    assert (OD : N.even (fRequestID f) = true) by (destruct (v_ids _ _ I k HK) as (n & _ & EN); rewrite X3, EN; apply odd_even).
    assert (G : fromCall (calls j) f).
    { apply (v_good _ _ I false f); [auto|]. unfold plainf; auto. }
    destruct G as (k' & K1 & K2 & K3). assert (k' = k) by (eapply same_call; [apply I|assumption|assumption|congruence]). subst k'.
    destruct K3 as [K3| ->]; [congruence|reflexivity].
  - intro W. cbn [length] in NL. assert (wcount (c_id k) (waiting j) = 0)%nat by lia. unfold wcount in H.
    assert (Y : In k (filter (fun x => c_id x =? c_id k) (waiting j))) by (apply filter_In; rewrite N.eqb_refl; auto).
    destruct (filter _ _); [contradiction|discriminate].
Qed.
Print Assumptions C79_sent_once_partial.

(** So the handler is called at most once for it: at most one stream of the client is given a frame under its id, and that
    frame is the request. *)
Theorem C79_handled_once_partial :
  forall lim ls j k, sane lim -> run (cstep lim) cinit ls = Some j -> noEcho ls -> In k (calls j) -> c_stream k = false ->
  let st := ep (pp j) true in
  (forall s, s < next st -> spush (heap st s) = false -> sid (heap st s) = c_id k -> got (heap st s) <> [] ->
     got (heap st s) = [request_of k]) /\
  (forall s s', s < next st -> s' < next st -> spush (heap st s) = false -> spush (heap st s') = false ->
     sid (heap st s) = c_id k -> sid (heap st s') = c_id k -> got (heap st s) <> [] -> got (heap st s') <> [] -> s = s').
Proof.
  intros lim ls j k HS RN NE HK Hs st. pose proof (calm_run lim ls j RN NE) as R. pose proof (reach_call lim (sane_ok lim HS) j R) as I. pose proof (reach_pair lim (sane_ok lim HS) _ (v_pair _ _ I)) as PI.
  destruct (q_wire _ _ PI false) as (rest & W & _). cbn [negb] in W. fold st in W.
  set (P := fun f => Bool.eqb (IsPush (fFlags f)) false && N.eqb (fRequestID f) (c_id k) && negb (IsRst (fFlags f))).
  assert (FO : frames_of (false, c_id k) (sent (pp j) false) = filter P (inlog st) ++ filter P rest).
  { unfold frames_of. rewrite W, !filter_app. reflexivity. }
  assert (LE : (length (filter P (inlog st)) <= 1)%nat).
  { destruct (C79_sent_once_partial lim ls j k HS RN NE HK Hs) as [X|[X _]]; rewrite FO in X; apply (f_equal (@length _)) in X; rewrite !app_length in X; cbn in X; lia. }
  pose proof (q_reach _ _ PI true) as RS. fold st in RS.
  destruct (C20_any_peer_partial true st RS) as (pos & P1 & P2 & P3 & _).
  assert (PP : forall s f, s < next st -> spush (heap st s) = false -> sid (heap st s) = c_id k -> In f (got (heap st s)) -> P f = true).
  { intros s f Hl Hp Hi Hf. destruct (got_in true st s f RS Hl Hf) as (_ & A & B & C). unfold P. rewrite A, B, C, Hp, Hi, N.eqb_refl. reflexivity. }
  assert (NX : forall s f g, s < next st -> got (heap st s) = f :: g -> exists i, In i (pos s) /\ nth_error (inlog st) i = Some f).
  { intros s f g Hl Hg. destruct (P1 s Hl) as (A & _ & _). rewrite Hg in A. inversion A as [|i ? l ? B C]; subst. exists i. split; [left; reflexivity|assumption]. }
  split.
  - intros s Hl Hp Hi Hn. destruct (got (heap st s)) as [|f g] eqn:EG; [congruence|]. clear Hn.
    destruct (P1 s Hl) as (A & SS & _). rewrite EG in A. inversion A as [|i ? l ? A1 A2]; subst.
    assert (g = []).
    { destruct g as [|h g]; [reflexivity|exfalso]. inversion A2 as [|i2 ? l2 ? A3 A4]; subst.
      match goal with H : _ = pos s |- _ => rewrite <- H in SS end. inversion SS as [|? ? _ SF]; subst. inversion SF as [|? ? SF1 _]; subst.
      pose proof (two_in P (inlog st) i i2 f h SF1 A1 A3 ltac:(apply (PP s); auto; rewrite EG; left; reflexivity) ltac:(apply (PP s); auto; rewrite EG; right; left; reflexivity)). lia. }
    subst g. assert (IN : In f (filter P (inlog st))) by (apply filter_In; split; [eapply nth_error_In; eassumption|apply (PP s); auto; rewrite EG; left; reflexivity]).
    assert (Z : (1 <= length (filter P (inlog st)))%nat) by (destruct (filter P (inlog st)); [contradiction|cbn; lia]).
    destruct (C79_sent_once_partial lim ls j k HS RN NE HK Hs) as [X|[X _]]; rewrite FO in X; destruct (filter P (inlog st)) as [|x xs]; try discriminate; try contradiction.
    injection X as -> X. apply app_eq_nil in X. destruct X as [-> _]. destruct IN as [<-|[]]. reflexivity.
  - intros s s' H1 H2 K1 K2 L1 L2 G1 G2. destruct (got (heap st s)) as [|f g] eqn:E1; [congruence|]. destruct (got (heap st s')) as [|f' g'] eqn:E2; [congruence|].
    destruct (NX s f g H1 E1) as (i & I1 & I2). destruct (NX s' f' g' H2 E2) as (i' & I3 & I4).
    assert (Pf : P f = true) by (apply (PP s); auto; rewrite E1; left; reflexivity). assert (Pf' : P f' = true) by (apply (PP s'); auto; rewrite E2; left; reflexivity).
    destruct (Nat.lt_trichotomy i i') as [L|[->|L]].
    + pose proof (two_in P (inlog st) i i' f f' L I2 I4 Pf Pf'). lia.
    + eapply P2; eassumption.
    + pose proof (two_in P (inlog st) i' i f' f L I4 I2 Pf' Pf). lia.
Qed.
Print Assumptions C79_handled_once_partial.

(** The answer gets to the call: on a connection that was not closed, when the server has read a frame under the id of a call
    made with Request and the reader is through with it, that frame has been given to the call's Response, once: it waits there
    for GetFrame or GetFrame has returned it. *)
Theorem C79_delivered_partial :
  forall lim ls j k r f t, sane lim -> run (cstep lim) cinit ls = Some j -> noEcho ls -> In k (calls j) -> c_stream k = false -> c_resp k = Some r ->
  frames_of (false, c_id k) (inlog (ep (pp j) false)) = f :: t ->
  Response.up (rr j) = true -> rpc (ep (pp j) false) = RIdle -> ret j = None -> Response.hand (rr j) = None ->
  Response.sends (rr j) r = 1%nat /\ (Response.chanF (rr j) r = [f] \/ In (Some f) (Response.gots (rr j) r)).
Proof. intros lim ls j k r f t HS RN NE. apply (delivered lim (sane_ok lim HS)). eapply calm_run; eassumption. Qed.
Print Assumptions C79_delivered_partial.

(** What GetFrame returns is the first frame the server read under the id, when it read any. *)
Theorem C79_first_answer_partial :
  forall lim ls j k r f g t, sane lim -> run (cstep lim) cinit ls = Some j -> noEcho ls -> In k (calls j) -> c_stream k = false -> c_resp k = Some r ->
  In f (Response.chanF (rr j) r) \/ In (Some f) (Response.gots (rr j) r) -> frames_of (false, c_id k) (inlog (ep (pp j) false)) = g :: t -> f = g.
Proof. intros lim ls j k r f g t HS RN NE. apply (first_answer lim (sane_ok lim HS)). eapply calm_run; eassumption. Qed.
Print Assumptions C79_first_answer_partial.


(** A client's handler that writes two frames for one request makes the server call its own handler with the second one; when
    that handler answers as it answers any request, the client's handler is called again for the same call. *)
Theorem C79_refuted : ~ C79_statement.
Proof.
  intro H. assert (SN : sane (fun _ => 0%Z)) by (intro c; left; discriminate).
  assert (X : match run (cstep (fun _ => 0%Z)) cinit secondAnswer with Some j => let st := ep (pp j) true in
    calls j = [mkCall 2 7 NBFlag [1] false (Some 0)] /\ given j = [mkFrame 2 0 8 [3]] /\
    (0 <? next st) = true /\ (1 <? next st) = true /\ spush (heap st 0) = false /\ spush (heap st 1) = false /\ sid (heap st 0) = 2 /\ sid (heap st 1) = 2 /\
    got (heap st 0) = [mkFrame 2 NBFlag 7 [1]] /\ got (heap st 1) = [mkFrame 2 NBFlag 9 [4]] | None => False end) by (vm_compute; repeat split).
  destruct (run (cstep (fun _ => 0%Z)) cinit secondAnswer) as [j|] eqn:E; [|contradiction]. cbv zeta in X. destruct X as (A & _ & B & C & D & F & G & K & L & M).
  apply N.ltb_lt in B, C. destruct (H (fun _ => 0%Z) secondAnswer j SN E) as [_ H1]. clear H.
  destruct (H1 (mkCall 2 7 NBFlag [1] false (Some 0)) ltac:(rewrite A; left; reflexivity) eq_refl) as (_ & H & _). specialize (H 0 1 B C D F G K).
  cbv zeta in H. rewrite L, M in H. destruct (H ltac:(discriminate) ltac:(discriminate)) as [_ X]. discriminate X.
Qed.
Print Assumptions C79_refuted.

(** one call, answered *)
Example C79_case : exists j k, run (cstep (fun _ => 0%Z)) cinit (oneSCall 0 [1] [2]) = Some j /\ noEcho (oneSCall 0 [1] [2]) /\ In k (calls j) /\
  (c_stream k = false /\ c_resp k = Some 0 /\ Response.gots (rr j) 0 = [Some (mkFrame 2 0 8 [2])] /\ sent (pp j) false = [request_of k] /\ given j = []).
Proof.
  assert (X : match run (cstep (fun _ => 0%Z)) cinit (oneSCall 0 [1] [2]) with Some j => calls j = [mkCall 2 7 NBFlag [1] false (Some 0)] /\
    Response.gots (rr j) 0 = [Some (mkFrame 2 0 8 [2])] /\ sent (pp j) false = [mkFrame 2 NBFlag 7 [1]] /\ given j = [] | None => False end) by (vm_compute; repeat split).
  destruct (run (cstep (fun _ => 0%Z)) cinit (oneSCall 0 [1] [2])) as [j|]; [|contradiction]. exists j, (mkCall 2 7 NBFlag [1] false (Some 0)). destruct X as (A & B & C & D).
  split; [reflexivity|]. split; [|rewrite A, B, C, D; cbn; auto 10].
  intros i cmd fl pay H. unfold oneSCall in H. cbn in H. repeat (destruct H as [H|H]; [discriminate H|]). exact H.
Qed.

(** the same before GetFrame: the answer waits in the Response *)
Definition beforeSGet : list clabel := removelast (oneSCall 0 [1] [2]).
Example C79_delivered_case : exists j k, run (cstep (fun _ => 0%Z)) cinit beforeSGet = Some j /\ noEcho beforeSGet /\ calls j = [k] /\
  (c_stream k = false /\ c_resp k = Some 0 /\ frames_of (false, c_id k) (inlog (ep (pp j) false)) = [mkFrame 2 0 8 [2]] /\
   Response.up (rr j) = true /\ rpc (ep (pp j) false) = RIdle /\ ret j = None /\ Response.hand (rr j) = None /\ Response.chanF (rr j) 0 = [mkFrame 2 0 8 [2]]).
Proof.
  assert (X : match run (cstep (fun _ => 0%Z)) cinit beforeSGet with Some j => calls j = [mkCall 2 7 NBFlag [1] false (Some 0)] /\
    frames_of (false, 2) (inlog (ep (pp j) false)) = [mkFrame 2 0 8 [2]] /\ Response.up (rr j) = true /\ rpc (ep (pp j) false) = RIdle /\ ret j = None /\
    Response.hand (rr j) = None /\ Response.chanF (rr j) 0 = [mkFrame 2 0 8 [2]] | None => False end) by (vm_compute; repeat split).
  destruct (run (cstep (fun _ => 0%Z)) cinit beforeSGet) as [j|]; [|contradiction]. exists j, (mkCall 2 7 NBFlag [1] false (Some 0)). destruct X as (A & B & C & D & F & G & K).
  split; [reflexivity|]. split; [|cbn [c_stream c_resp c_id]; rewrite A, B, C, D, F, G, K; auto 12].
  intros i cmd fl pay H. unfold beforeSGet, oneSCall in H. cbn in H. repeat (destruct H as [H|H]; [discriminate H|]). exact H.
Qed.
