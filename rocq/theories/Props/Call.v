(** C67: a call gets the answer of the handler that was given this call. *)
From Coq Require Import ZifyBool ZifyNat ZifyN.
From Verif Require Import Model.GoBase Model.Machine Model.Qrpc Model.Reader Model.FrameReader Model.Stream Model.Pair Model.Call
  Proofs.StreamP Proofs.StreamI Proofs.PairP Proofs.CallP Proofs.CallS Props.Stream Props.Pair.
From Verif Require Model.Response Props.Response.
Open Scope N_scope.

(** the frame a call puts on the wire: its id, flags and payload, the lower 24 bits of its cmd *)
Definition request_of (k : call) : Frame := mkFrame (c_id k) (c_fl k) (N.land (c_cmd k) 0xffffff) (c_pay k).

(** GetFrame on the Response of a call, when it returns a frame, returns a frame that was written by a handler which was given
    this call's request: for Request exactly the frame of the call, for StreamRequest a frame sent under its id.  The call is
    the only one with this Response and the only one with this id. *)
Theorem C67_own_answer :
  forall lim j r f, sane lim -> reachable (cstep lim) cinit j -> In (Some f) (Response.gots (rr j) r) ->
  exists k q, In k (calls j) /\ c_resp k = Some r /\ fRequestID f = c_id k /\
    (forall k', In k' (calls j) -> c_resp k' = Some r \/ c_id k' = c_id k -> k' = k) /\
    In (q, f) (answers j) /\ fRequestID q = c_id k /\ (c_stream k = false -> q = request_of k).
Proof.
  intros lim j r f HS R HG. pose proof (reach_call lim (sane_ok lim HS) j R) as I. destruct (v_resp _ _ I) as (ls & A & B & C).
  destruct (Response.C23_own_frame true ls (rr j) r f A HG) as [F1 F2]. apply C in F1. rewrite N2Nat.id in F1. destruct F1 as (k & K1 & K2 & K3).
  destruct (B f F2) as (P1 & P2 & G).
  assert (OD : N.even (fRequestID f) = false) by (destruct (v_ids _ _ I k K1) as (n & _ & E); rewrite <- K3, E; apply odd_even).
  destruct (G (conj P2 (conj P1 OD))) as (q & Q). destruct (v_ans _ _ I q f Q) as (Q1 & Q2 & Q3 & Q4).
  exists k, q. split; [assumption|]. split; [assumption|]. split; [congruence|]. split; [|split; [assumption|split; [congruence|]]].
  - intros k' H [H1|H1]; (eapply same_call; [apply I|assumption|assumption|]); [|assumption].
    assert (X : nth_error (Response.requests ls) (N.to_nat r) = Some (c_id k')) by (apply C; exists k'; rewrite N2Nat.id; auto).
    assert (Y : nth_error (Response.requests ls) (N.to_nat r) = Some (c_id k)) by (apply C; exists k; rewrite N2Nat.id; auto). congruence.
  - intro Hs. assert (PQ : plainf q) by (unfold plainf; rewrite Q1; auto). destruct (Q4 PQ) as (k' & K4 & K5 & K6).
    assert (k' = k) by (eapply same_call; [apply I|assumption|assumption|congruence]). subst k'. destruct K6 as [K6| ->]; [congruence|reflexivity].
Qed.
Print Assumptions C67_own_answer.

(** The request of a call made with Request is on the wire at most once, over all connections, and not before the writer has
    taken it. *)
Theorem C67_sent_once :
  forall lim j k, sane lim -> reachable (cstep lim) cinit j -> In k (calls j) -> c_stream k = false ->
  frames_of (false, c_id k) (past j ++ sent (pp j) true) = [] \/
  (frames_of (false, c_id k) (past j ++ sent (pp j) true) = [request_of k] /\ ~ In k (waiting j)).
Proof.
  intros lim j k HS R HK Hs. pose proof (reach_call lim (sane_ok lim HS) j R) as I. pose proof (v_once _ _ I k HK Hs) as O.
  assert (NL : (length (frames_of (false, c_id k) (past j ++ sent (pp j) true)) + wcount (c_id k) (waiting j) <= 1)%nat).
  { fold (nfr (c_id k) (past j ++ sent (pp j) true)). rewrite nfr_app. unfold load in O. lia. }
  destruct (frames_of (false, c_id k) (past j ++ sent (pp j) true)) as [|f [|g l]] eqn:E; [auto| |cbn in NL; lia]. right.
  split.
  - assert (X : In f (frames_of (false, c_id k) (past j ++ sent (pp j) true))) by (rewrite E; left; reflexivity).
    unfold frames_of in X. apply filter_In in X. cbn [fst snd] in X. destruct X as [X1 X2]. rewrite !andb_true_iff, N.eqb_eq, negb_true_iff in X2.
    destruct X2 as [[X2 X3] X4]. apply Bool.eqb_prop in X2.
    assert (OD : N.even (fRequestID f) = false) by (destruct (v_ids _ _ I k HK) as (n & _ & EN); rewrite X3, EN; apply odd_even).
    assert (G : fromCall (calls j) f).
    { apply in_app_iff in X1. destruct X1 as [X1|X1]; [apply (v_past _ _ I f X1)|apply (v_good _ _ I true f); [auto|]]; unfold plainf; auto. }
    destruct G as (k' & K1 & K2 & K3). assert (k' = k) by (eapply same_call; [apply I|assumption|assumption|congruence]). subst k'.
    destruct K3 as [K3| ->]; [congruence|reflexivity].
  - intro W. cbn [length] in NL. assert (wcount (c_id k) (waiting j) = 0)%nat by lia. unfold wcount in H.
    assert (Y : In k (filter (fun x => c_id x =? c_id k) (waiting j))) by (apply filter_In; rewrite N.eqb_refl; auto).
    destruct (filter _ _); [contradiction|discriminate].
Qed.
Print Assumptions C67_sent_once.

Lemma two_in : forall (P : Frame -> bool) l i j f g, (i < j)%nat -> nth_error l i = Some f -> nth_error l j = Some g -> P f = true -> P g = true ->
  (2 <= length (filter P l))%nat.
Proof.
  intros P l i j f g L Hi Hj Pf Pg. destruct (nth_error_split l i Hi) as (a & b & -> & E). rewrite filter_app. cbn [filter]. rewrite Pf.
  rewrite nth_error_app2 in Hj by lia. replace (j - length a)%nat with (S (j - S (length a))) in Hj by lia. cbn in Hj. apply nth_error_In in Hj.
  assert (X : In g (filter P b)) by (apply filter_In; auto). rewrite app_length. cbn [length]. destruct (filter P b); [contradiction|]. cbn [length]. lia.
Qed.

(** So the handler is called at most once for it: at most one stream of the server is given a frame under its id, and that
    frame is the request; a request that was sent on an earlier connection is not handled on this one. *)
Theorem C67_handled_once :
  forall lim j k, sane lim -> reachable (cstep lim) cinit j -> In k (calls j) -> c_stream k = false ->
  let st := ep (pp j) false in
  (forall s, s < next st -> spush (heap st s) = false -> sid (heap st s) = c_id k -> got (heap st s) <> [] ->
     got (heap st s) = [request_of k] /\ frames_of (false, c_id k) (past j) = []) /\
  (forall s s', s < next st -> s' < next st -> spush (heap st s) = false -> spush (heap st s') = false ->
     sid (heap st s) = c_id k -> sid (heap st s') = c_id k -> got (heap st s) <> [] -> got (heap st s') <> [] -> s = s').
Proof.
  intros lim j k HS R HK Hs st. pose proof (reach_call lim (sane_ok lim HS) j R) as I. pose proof (reach_pair lim (sane_ok lim HS) _ (v_pair _ _ I)) as PI.
  destruct (q_wire _ _ PI true) as (rest & W & _). cbn [negb] in W. fold st in W.
  set (P := fun f => Bool.eqb (IsPush (fFlags f)) false && N.eqb (fRequestID f) (c_id k) && negb (IsRst (fFlags f))).
  assert (FO : frames_of (false, c_id k) (past j ++ sent (pp j) true) = filter P (past j) ++ filter P (inlog st) ++ filter P rest).
  { unfold frames_of. rewrite W, !filter_app. reflexivity. }
  assert (LE : (length (filter P (past j)) + length (filter P (inlog st)) <= 1)%nat).
  { destruct (C67_sent_once lim j k HS R HK Hs) as [X|[X _]]; rewrite FO in X; apply (f_equal (@length _)) in X; rewrite !app_length in X; cbn in X; lia. }
  pose proof (q_reach _ _ PI false) as RS. fold st in RS.
  destruct (C20_any_peer_partial false st RS) as (pos & P1 & P2 & P3 & _).
  assert (PP : forall s f, s < next st -> spush (heap st s) = false -> sid (heap st s) = c_id k -> In f (got (heap st s)) -> P f = true).
  { intros s f Hl Hp Hi Hf. destruct (got_in false st s f RS Hl Hf) as (_ & A & B & C). unfold P. rewrite A, B, C, Hp, Hi, N.eqb_refl. reflexivity. }
  assert (NE : forall s f g, s < next st -> got (heap st s) = f :: g -> exists i, In i (pos s) /\ nth_error (inlog st) i = Some f).
  { intros s f g Hl Hg. destruct (P1 s Hl) as (A & _ & _). rewrite Hg in A. inversion A as [|i ? l ? B C]; subst. exists i. split; [left; reflexivity|assumption]. }
  split.
  - intros s Hl Hp Hi Hn. destruct (got (heap st s)) as [|f g] eqn:EG; [congruence|]. clear Hn.
    destruct (P1 s Hl) as (A & SS & _). rewrite EG in A. inversion A as [|i ? l ? A1 A2]; subst.
    assert (g = []).
    { destruct g as [|h g]; [reflexivity|exfalso]. inversion A2 as [|i2 ? l2 ? A3 A4]; subst.
      match goal with H : _ = pos s |- _ => rewrite <- H in SS end. inversion SS as [|? ? _ SF]; subst. inversion SF as [|? ? SF1 _]; subst.
      pose proof (two_in P (inlog st) i i2 f h SF1 A1 A3 ltac:(apply (PP s); auto; rewrite EG; left; reflexivity) ltac:(apply (PP s); auto; rewrite EG; right; left; reflexivity)). lia. }
    subst g. assert (IN : In f (filter P (inlog st))) by (apply filter_In; split; [eapply nth_error_In; eassumption|apply (PP s); auto; rewrite EG; left; reflexivity]).
    assert (Z : (1 <= length (filter P (inlog st)))%nat) by (destruct (filter P (inlog st)); [contradiction|cbn; lia]).
    assert (F0 : filter P (past j) = []) by (destruct (filter P (past j)); [reflexivity|cbn in LE; lia]).
    split; [|exact F0]. destruct (C67_sent_once lim j k HS R HK Hs) as [X|[X _]]; rewrite FO, F0 in X; cbn [app] in X; destruct (filter P (inlog st)) as [|x xs]; try discriminate; try contradiction.
    injection X as -> X. apply app_eq_nil in X. destruct X as [-> _]. destruct IN as [<-|[]]. reflexivity.
  - intros s s' H1 H2 K1 K2 L1 L2 G1 G2. destruct (got (heap st s)) as [|f g] eqn:E1; [congruence|]. destruct (got (heap st s')) as [|f' g'] eqn:E2; [congruence|].
    destruct (NE s f g H1 E1) as (i & I1 & I2). destruct (NE s' f' g' H2 E2) as (i' & I3 & I4).
    assert (Pf : P f = true) by (apply (PP s); auto; rewrite E1; left; reflexivity). assert (Pf' : P f' = true) by (apply (PP s'); auto; rewrite E2; left; reflexivity).
    destruct (Nat.lt_trichotomy i i') as [L|[->|L]].
    + pose proof (two_in P (inlog st) i i' f f' L I2 I4 Pf Pf'). lia.
    + eapply P2; eassumption.
    + pose proof (two_in P (inlog st) i' i f' f L I4 I2 Pf' Pf). lia.
Qed.
Print Assumptions C67_handled_once.

(** The answer gets to the call: on a connection that was not closed, when the client has read a frame under the id of a call
    made with Request and the reader is through with it, that frame has been given to the call's Response, once: it waits there
    for GetFrame or GetFrame has returned it. *)
Theorem C67_delivered :
  forall lim j k r f t, sane lim -> reachable (cstep lim) cinit j -> In k (calls j) -> c_stream k = false -> c_resp k = Some r ->
  frames_of (false, c_id k) (inlog (ep (pp j) true)) = f :: t ->
  Response.up (rr j) = true -> rpc (ep (pp j) true) = RIdle -> ret j = None -> Response.hand (rr j) = None ->
  Response.sends (rr j) r = 1%nat /\ (Response.chanF (rr j) r = [f] \/ In (Some f) (Response.gots (rr j) r)).
Proof. intros lim j k r f t HS. apply delivered. apply sane_ok. assumption. Qed.
Print Assumptions C67_delivered.

(** What GetFrame returns is the first frame the client read under the id, when it read any on this connection. *)
Theorem C67_first_answer :
  forall lim j k r f g t, sane lim -> reachable (cstep lim) cinit j -> In k (calls j) -> c_stream k = false -> c_resp k = Some r ->
  In f (Response.chanF (rr j) r) \/ In (Some f) (Response.gots (rr j) r) -> frames_of (false, c_id k) (inlog (ep (pp j) true)) = g :: t -> f = g.
Proof. intros lim j k r f g t HS. apply first_answer. apply sane_ok. assumption. Qed.
Print Assumptions C67_first_answer.

(** two calls, the connection lost and made again in between *)
Definition oneCall (r id : N) (pay ans : bytes) : list clabel :=
  JCall false 7 0 pay :: JTake 0 :: repeat (JPair (PLoc true LWStep)) 4 ++
  map JResp [Response.PRegister; Response.PWrite; Response.PAnswer; Response.PAnswer] ++
  JPair (PArrive false 5) :: JPair (PArrive false 12) :: JPair (PRead false) :: repeat (JPair (PLoc false LRStep)) 6 ++
  JAnswer 0 8 0 ans :: repeat (JPair (PLoc false LWStep)) 8 ++
  JPair (PArrive true 100) :: JPair (PRead true) :: repeat (JPair (PLoc true LRStep)) 10 ++
  JLook :: map JResp [Response.PHand; Response.PGet r].
Definition twoCalls : list clabel :=
  oneCall 0 3 [1] [2] ++ map JResp [Response.PClose; Response.PReadQuit; Response.PWriteQuit] ++ JReconnect :: oneCall 1 5 [4] [5].
Example C67_case : exists j, run (cstep (fun _ => 0%Z)) cinit twoCalls = Some j /\
  (Response.gots (rr j) 0 = [Some (mkFrame 3 0 8 [2])] /\ Response.gots (rr j) 1 = [Some (mkFrame 5 0 8 [5])] /\
   past j ++ sent (pp j) true = [mkFrame 3 0 7 [1]; mkFrame 5 0 7 [4]] /\ length (calls j) = 2%nat).
Proof.
  destruct (run (cstep (fun _ => 0%Z)) cinit twoCalls) as [j|] eqn:E; [|vm_compute in E; discriminate]. exists j. split; [reflexivity|].
  enough (X : match run (cstep (fun _ => 0%Z)) cinit twoCalls with Some j =>
    Response.gots (rr j) 0 = [Some (mkFrame 3 0 8 [2])] /\ Response.gots (rr j) 1 = [Some (mkFrame 5 0 8 [5])] /\
    past j ++ sent (pp j) true = [mkFrame 3 0 7 [1]; mkFrame 5 0 7 [4]] /\ length (calls j) = 2%nat | None => False end) by (rewrite E in X; exact X).
  vm_compute. repeat split.
Qed.

(** the first call after the reader is through and before GetFrame: the frame waits *)
Definition beforeGet : list clabel := removelast (oneCall 0 3 [1] [2]).
Example C67_delivered_case : exists j k, run (cstep (fun _ => 0%Z)) cinit beforeGet = Some j /\ calls j = [k] /\
  (c_stream k = false /\ c_resp k = Some 0 /\ frames_of (false, c_id k) (inlog (ep (pp j) true)) = [mkFrame 3 0 8 [2]] /\
   Response.up (rr j) = true /\ rpc (ep (pp j) true) = RIdle /\ ret j = None /\ Response.hand (rr j) = None /\ Response.chanF (rr j) 0 = [mkFrame 3 0 8 [2]]).
Proof.
  destruct (run (cstep (fun _ => 0%Z)) cinit beforeGet) as [j|] eqn:E; [|vm_compute in E; discriminate]. exists j, (mkCall 3 7 0 [1] false (Some 0)). split; [reflexivity|].
  enough (X : match run (cstep (fun _ => 0%Z)) cinit beforeGet with Some j => calls j = [mkCall 3 7 0 [1] false (Some 0)] /\
   frames_of (false, 3) (inlog (ep (pp j) true)) = [mkFrame 3 0 8 [2]] /\
   Response.up (rr j) = true /\ rpc (ep (pp j) true) = RIdle /\ ret j = None /\ Response.hand (rr j) = None /\ Response.chanF (rr j) 0 = [mkFrame 3 0 8 [2]]
   | None => False end) by (rewrite E in X; cbn [c_stream c_resp c_id]; tauto).
  vm_compute. repeat split.
Qed.
