(** C66: two endpoints of the library talking to each other. *)
From Coq Require Import ZifyBool ZifyNat ZifyN.
From Verif Require Import Model.GoBase Model.Machine Model.Qrpc Model.FrameWriter Model.Reader Model.FrameReader Model.Stream Model.Pair
  Spec.FrameSpec Spec.StreamSpec Proofs.CodecP Proofs.StreamP Proofs.StreamI Proofs.StreamQ Proofs.StreamR Proofs.PairP Props.Stream.
Open Scope N_scope.

(** the receivers' limits on the size of a frame: none, or one that a frame without payload meets and that is a uint32 *)
Definition sane (lim : bool -> Z) : Prop := forall c, (lim c <= 0 \/ 12 <= lim c < 2 ^ 32)%Z.
Lemma sane_ok : forall lim, sane lim -> forall c, tooLarge (lim c) 12 = false.
Proof. intros lim H c. apply tooLarge_ok. specialize (H c). lia. Qed.

(** The claim: whatever is called on the two sides, in whatever order, and however the bytes arrive, neither process panics. *)
Definition C66_statement : Prop :=
  forall lim p c, sane lim -> reachable (pstep lim) pinit p -> panicked (ep p c) = false.

(** A handler that returns before its request is answered, and a goroutine it started that answers later.  The library sends a
    reset when the handler returns (serveconn.go:267-276); the late answer is accepted too, as the first frame of a new stream
    (serveconn.go:658), and follows the reset on the wire.  On the client the reset closes the stream's channel
    (stream.go:199-201) and leaves the stream in the table, because the client's side ended with the request; the answer then
    closes the channel again (stream.go:154): the client's process panics. *)
Definition late_answer (req ans : bytes) : list plabel :=
  PWrite true 3 7 0 false req :: repeat (PLoc true LWStep) 4 ++
  [PArrive false 5; PArrive false 100; PRead false] ++ repeat (PLoc false LRStep) 6 ++
  [PLoc false (LHEnd 0); PLoc false LWriteRst] ++ repeat (PLoc false LWStep) 7 ++
  PWrite false 3 7 0 false ans :: repeat (PLoc false LWStep) 4 ++
  [PArrive true 100; PRead true] ++ repeat (PLoc true LRStep) 4 ++
  [PRead true] ++ repeat (PLoc true LRStep) 5.
Theorem C66_late_answer_crashes_client :
  exists p, run (pstep (fun _ => 0%Z)) pinit (late_answer [1] [2]) = Some p /\
    panicked (ep p true) = true /\
    sent p true = [mkFrame 3 0 7 [1]] /\ sent p false = [mkFrame 3 StreamRstFlag 0 []; mkFrame 3 0 7 [2]] /\
    got (heap (ep p false) 0) = [mkFrame 3 0 7 [1]].
Proof.
  destruct (run (pstep (fun _ => 0%Z)) pinit (late_answer [1] [2])) as [p|] eqn:E; [|vm_compute in E; discriminate].
  exists p. split; [reflexivity|].
  assert (X : match run (pstep (fun _ => 0%Z)) pinit (late_answer [1] [2]) with
    | Some p => panicked (ep p true) = true /\ sent p true = [mkFrame 3 0 7 [1]] /\
      sent p false = [mkFrame 3 StreamRstFlag 0 []; mkFrame 3 0 7 [2]] /\ got (heap (ep p false) 0) = [mkFrame 3 0 7 [1]]
    | None => False end) by (vm_compute; repeat split).
  rewrite E in X. exact X.
Qed.
Print Assumptions C66_late_answer_crashes_client.

Theorem C66_refuted : ~ C66_statement.
Proof.
  intro H. destruct C66_late_answer_crashes_client as (p & R & P & _).
  pose proof (H (fun _ => 0%Z) p true ltac:(intro; lia) (ex_intro _ _ R)). congruence.
Qed.
Print Assumptions C66_refuted.

(** What a side's readFrame returned is, frame by frame, a beginning of what the other side's writer accepted: same ids,
    flags, cmds (24 bits) and payloads, whatever the pieces in which the bytes arrive. *)
Theorem C66_frames_cross :
  forall lim p c, sane lim -> reachable (pstep lim) pinit p ->
  exists rest, sent p (negb c) = inlog (ep p c) ++ rest /\
    map (fun f => (fRequestID f, fFlags f)) (sent p (negb c)) =
      flat_map (fun e => match e with (id, fl, WSent _) => [(id, fl)] | _ => [] end) (wlog (ep p (negb c))).
Proof.
  intros lim p c HS R. pose proof (reach_pair lim (sane_ok lim HS) p R) as I.
  destruct (q_wire _ _ I (negb c)) as (rest & A & _). rewrite negb_involutive in A. exists rest. split; [assumption|]. apply (q_log _ _ I).
Qed.
Print Assumptions C66_frames_cross.

(** And nothing is lost: a reader that is at readFrame gets the next frame once the bytes in flight have arrived. *)
Theorem C66_next_frame_arrives :
  forall lim p c f rest, sane lim -> reachable (pstep lim) pinit p -> sent p (negb c) = inlog (ep p c) ++ f :: rest ->
  rpc (ep p c) = RIdle -> panicked (ep p c) = false ->
  exists p', run (pstep lim) p [PArrive c (length (flight p (negb c))); PRead c] = Some p' /\ inlog (ep p' c) = inlog (ep p c) ++ [f].
Proof.
  intros lim p c f rest HS R HF HR HP. pose proof (reach_pair lim (sane_ok lim HS) p R) as I.
  cbn [run]. set (p1 := match pstep lim p (PArrive c (length (flight p (negb c)))) with Some x => x | None => p end).
  assert (E1 : pstep lim p (PArrive c (length (flight p (negb c)))) = Some p1) by reflexivity. rewrite E1.
  pose proof (pinv_step lim (sane_ok lim HS) _ _ _ I E1) as I1.
  assert (EP : ep p1 = ep p) by reflexivity. assert (SE : sent p1 = sent p) by reflexivity.
  assert (FL : flight p1 (negb c) = []) by (cbn; rewrite put_eq, skipn_all; reflexivity).
  destruct (q_wire _ _ I1 (negb c)) as (rest1 & A & B). rewrite negb_involutive in A, B. rewrite EP, SE, HF in A. rewrite FL, app_nil_r in B.
  apply app_inv_head in A. subst rest1.
  assert (FR : Forall (fitsF (lim c)) (f :: rest)).
  { pose proof (q_fit _ _ I (negb c)) as F. rewrite negb_involutive, HF in F. apply Forall_app in F. apply F. }
  pose proof (read_some (lim c) (rx p1 c) [] (f :: rest) FR ltac:(rewrite app_nil_r; exact B)) as RD.
  unfold pstep. destruct (readFrame None (lim c) (rx p1 c) false) as [r' [g|e]].
  - destruct RD as (fs' & X & _). injection X as <- <-. rewrite EP. destruct (sstep c (ep p c) (LFrame f)) as [st'|] eqn:ES.
    + eexists. split; [reflexivity|]. cbn [ep]. rewrite put_eq. apply (read_step c _ _ _ ES).
    + exfalso. unfold sstep in ES. rewrite HP, HR in ES. discriminate.
  - exfalso. rewrite B in RD. unfold wires in RD. cbn [map concat] in RD. rewrite app_length in RD. lia.
Qed.
Print Assumptions C66_next_frame_arrives.

(** Neither side can make the other panic as long as it sends no ordinary frame on a stream after a reset of it. *)
Theorem C66_no_crash_partial :
  forall lim p c, sane lim -> reachable (pstep lim) pinit p -> ~ ordinary_after_reset (sent p (negb c)) -> panicked (ep p c) = false.
Proof.
  intros lim p c HS R H. pose proof (reach_pair lim (sane_ok lim HS) p R) as I.
  apply (C18_no_panic_partial c); [apply (q_reach _ _ I)|]. intros (a & g & b & f & d & E & X). apply H.
  destruct (q_wire _ _ I (negb c)) as (rest & A & _). rewrite negb_involutive in A. exists a, g, b, f, (d ++ rest). split; [|assumption].
  rewrite A, E, <- !app_assoc. cbn. rewrite <- app_assoc. reflexivity.
Qed.
Print Assumptions C66_no_crash_partial.

(** A stream on which a side sends nothing but resets after a frame that ends or resets it: on the other side one stream takes its
    frames, it was given a beginning of the ordinary frames sent on it, and all of them once everything was read. *)
Theorem C66_stream_crosses_partial :
  forall lim p c push id, sane lim -> reachable (pstep lim) pinit p -> conforming (push, id) (sent p (negb c)) ->
  let out := frames_of (push, id) (sent p (negb c)) in let st := ep p c in
  (forall s, s < next st -> binded (heap st s) = true -> spush (heap st s) = push -> sid (heap st s) = id ->
     exists rest, out = got (heap st s) ++ rest) /\
  (forall s s', s < next st -> s' < next st -> got (heap st s) <> [] -> got (heap st s') <> [] ->
     spush (heap st s) = push -> sid (heap st s) = id -> spush (heap st s') = push -> sid (heap st s') = id -> s = s') /\
  (inlog st = sent p (negb c) -> rpc st = RIdle -> out <> [] ->
     exists s, s < next st /\ spush (heap st s) = push /\ sid (heap st s) = id /\ got (heap st s) = out).
Proof.
  intros lim p c push id HS R HC out st. pose proof (reach_pair lim (sane_ok lim HS) p R) as I.
  destruct (q_wire _ _ I (negb c)) as (rest & A & _). rewrite negb_involutive in A. fold st in A.
  assert (HC' : conforming (push, id) (inlog st)).
  { intros a f b E O D. assert (X : sent p (negb c) = a ++ f :: (b ++ rest)) by (rewrite A, E, <- app_assoc; reflexivity).
    specialize (HC a f (b ++ rest) X O D). apply Forall_app in HC. apply HC. }
  destruct (C20_in_order_exactly_once_partial c st push id (q_reach _ _ I c) HC') as (P1 & P2 & P3).
  split; [|split; [exact P2|]].
  - intros s Hs B K1 K2. destruct (P1 s Hs B K1 K2) as (r & E & _). exists (r ++ frames_of (push, id) rest).
    unfold out. rewrite A. unfold frames_of at 1. rewrite filter_app. fold (frames_of (push, id) (inlog st)). rewrite E, <- app_assoc. reflexivity.
  - intros EA ER NE. unfold out in *. rewrite <- EA in *. apply P3; auto.
Qed.
Print Assumptions C66_stream_crosses_partial.

(** A call: the client sends one frame under the id, the server answers with one.  When both were read, the server's handler
    was given the request and the client's stream the answer. *)
Theorem C66_call_partial :
  forall lim p id q a, sane lim -> reachable (pstep lim) pinit p ->
  frames_of (false, id) (sent p true) = [q] -> frames_of (false, id) (sent p false) = [a] ->
  (forall c f, In f (sent p c) -> on (false, id) f -> IsRst (fFlags f) = false) ->
  inlog (ep p false) = sent p true -> inlog (ep p true) = sent p false -> rpc (ep p true) = RIdle -> rpc (ep p false) = RIdle ->
  (exists s, s < next (ep p false) /\ sid (heap (ep p false) s) = id /\ got (heap (ep p false) s) = [q]) /\
  (exists s, s < next (ep p true) /\ sid (heap (ep p true) s) = id /\ got (heap (ep p true) s) = [a]).
Proof.
  intros lim p id q a HS R HQ HA NR L1 L2 R1 R2.
  assert (CF : forall c x, frames_of (false, id) (sent p c) = [x] -> conforming (false, id) (sent p c)).
  { intros c x HX u f v E O D. apply Forall_forall. intros g Hg OG. exfalso.
    assert (X : forall f, In f (sent p c) -> on (false, id) f ->
      Bool.eqb (IsPush (fFlags f)) false && N.eqb (fRequestID f) id && negb (IsRst (fFlags f)) = true).
    { intros h H1 H2. rewrite (NR c h H1 H2). destruct H2 as [H2 H3]. cbn in H2, H3. rewrite H2, H3, N.eqb_refl. reflexivity. }
    unfold frames_of in HX. rewrite E, filter_app in HX. cbn [filter fst snd] in HX.
    rewrite (X f) in HX by (auto; rewrite E; apply in_elt). destruct (in_split _ _ Hg) as (v1 & v2 & ->). rewrite filter_app in HX. cbn [filter fst snd] in HX.
    rewrite (X g) in HX by (auto; rewrite E; apply in_app_iff; right; right; apply in_elt).
    apply (f_equal (@length _)) in HX. rewrite !app_length in HX. cbn [length] in HX. rewrite app_length in HX. cbn [length] in HX. lia. }
  split.
  - destruct (C66_stream_crosses_partial lim p false false id HS R (CF true q HQ)) as (_ & _ & P). cbn [negb] in P.
    rewrite HQ in P. destruct (P L1 R2 ltac:(discriminate)) as (s & A1 & _ & A3 & A4). eauto.
  - destruct (C66_stream_crosses_partial lim p true false id HS R (CF false a HA)) as (_ & _ & P). cbn [negb] in P.
    rewrite HA in P. destruct (P L2 R1 ltac:(discriminate)) as (s & A1 & _ & A3 & A4). eauto.
Qed.
Print Assumptions C66_call_partial.

(** the hypotheses can be met: the same call, answered before the handler returns *)
Definition timely_answer : list plabel :=
  PWrite true 3 7 0 false [1] :: repeat (PLoc true LWStep) 4 ++
  [PArrive false 5; PArrive false 100; PRead false] ++ repeat (PLoc false LRStep) 6 ++
  PWrite false 3 7 0 false [2] :: repeat (PLoc false LWStep) 8 ++ [PLoc false (LHEnd 0)] ++
  [PArrive true 100; PRead true] ++ repeat (PLoc true LRStep) 10.
Example C66_call_case : exists p, reachable (pstep (fun _ => 0%Z)) pinit p /\
  (frames_of (false, 3) (sent p true) = [mkFrame 3 0 7 [1]] /\ frames_of (false, 3) (sent p false) = [mkFrame 3 0 7 [2]] /\
   inlog (ep p false) = sent p true /\ inlog (ep p true) = sent p false /\ rpc (ep p true) = RIdle /\ rpc (ep p false) = RIdle /\
   panicked (ep p true) = false /\ tbl (ep p true) false 3 = None /\ tbl (ep p false) false 3 = None).
Proof.
  destruct (run (pstep (fun _ => 0%Z)) pinit timely_answer) as [p|] eqn:E; [|vm_compute in E; discriminate].
  exists p. split; [exists timely_answer; assumption|].
  enough (X : match run (pstep (fun _ => 0%Z)) pinit timely_answer with Some p => frames_of (false, 3) (sent p true) = [mkFrame 3 0 7 [1]] /\ frames_of (false, 3) (sent p false) = [mkFrame 3 0 7 [2]] /\
   inlog (ep p false) = sent p true /\ inlog (ep p true) = sent p false /\ rpc (ep p true) = RIdle /\ rpc (ep p false) = RIdle /\
   panicked (ep p true) = false /\ tbl (ep p true) false 3 = None /\ tbl (ep p false) false 3 = None | None => False end) by (rewrite E in X; exact X).
  vm_compute. repeat split.
Qed.
