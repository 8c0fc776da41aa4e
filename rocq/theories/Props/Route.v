(** C54, C55: flags, and where frames go. *)
From Verif Require Import Model.GoBase Model.Qrpc Model.FrameWriter Model.Reader Model.FrameReader Model.FirstFrame Model.Route Model.Ids
  Spec.FrameSpec Spec.WriterSpec Proofs.Bits Proofs.Writer Proofs.ReaderP Proofs.FrameReaderP Proofs.CodecP Props.Codec.
Open Scope N_scope.

(** *** The documented bits of the flags byte (qrpc.go:29-45), bit 0 the lowest *)
Definition bit (k : N) (fl : N) : Prop := N.testbit fl k = true.
Definition streamBit := bit 0.
Definition endBit := bit 1.
Definition rstBit := bit 2.
Definition nbBit := bit 3.
Definition pushBit := bit 4.
Definition codecBit := bit 5.

Lemma has_bit : forall fl k, has fl (2 ^ k) = N.testbit fl k.
Proof.
  intros fl k. unfold has. destruct (N.testbit fl k) eqn:E.
  - apply negb_true_iff, N.eqb_neq. intros Z. assert (X : N.testbit (N.land fl (2 ^ k)) k = false) by (rewrite Z; apply N.bits_0).
    rewrite N.land_spec, E, N.pow2_bits_true in X. discriminate.
  - apply negb_false_iff, N.eqb_eq. apply N.bits_inj_0. intros n. rewrite N.land_spec. destruct (N.eq_dec k n) as [->|NE]; [rewrite E; reflexivity|].
    rewrite N.pow2_bits_false by assumption. apply andb_false_r.
Qed.

(** ** C54 *)

(** Every predicate reads its own bits and no other, and every setter changes its own bit and no other. *)
Theorem C54_flag_bits : forall fl,
  (IsStream fl = true <-> streamBit fl \/ endBit fl) /\
  (IsNonBlock fl = true <-> streamBit fl \/ endBit fl \/ nbBit fl) /\
  (IsRst fl = true <-> rstBit fl) /\
  (IsDone fl = true <-> (~ streamBit fl /\ ~ endBit fl) \/ endBit fl \/ rstBit fl) /\
  (IsPush fl = true <-> pushBit fl) /\
  (IsCodec fl = true <-> codecBit fl) /\
  (forall k, bit k (ToStream fl) <-> bit k fl \/ k = 0) /\
  (forall k, bit k (ToEndStream fl) <-> bit k fl \/ k = 1) /\
  (forall k, bit k (ToCodec fl) <-> bit k fl \/ k = 5) /\
  (fl < 256 -> forall k, bit k (ToNonCodec fl) <-> bit k fl /\ k <> 5).
Proof.
  intros fl. unfold IsStream, IsNonBlock, IsDone, IsRst, IsPush, IsCodec, IsStream, ToStream, ToEndStream, ToCodec, streamBit, endBit, rstBit, nbBit, pushBit, codecBit, bit.
  change StreamFlag with (2 ^ 0). change StreamEndFlag with (2 ^ 1). change StreamRstFlag with (2 ^ 2). change NBFlag with (2 ^ 3). change PushFlag with (2 ^ 4). change CodecFlag with (2 ^ 5).
  rewrite !has_bit.
  assert (L : forall a k, N.testbit (N.lor fl (2 ^ a)) k = true <-> N.testbit fl k = true \/ k = a).
  { intros a k. rewrite N.lor_spec, orb_true_iff, N.pow2_bits_eqb, N.eqb_eq. split; intros [A|A]; auto. }
  split; [|split; [|split; [|split; [|split; [|split; [|split; [|split; [|split]]]]]]]]; try (intros k; apply L).
  - destruct (N.testbit fl 0), (N.testbit fl 1); cbn; tauto.
  - destruct (N.testbit fl 0), (N.testbit fl 1), (N.testbit fl 3); cbn; tauto.
  - tauto.
  - destruct (N.testbit fl 0), (N.testbit fl 1), (N.testbit fl 2); cbn; split; intros; auto; try tauto; try discriminate; destruct H as [[A B]|[A|A]]; try discriminate; contradiction.
  - tauto.
  - tauto.
  - intros HF k. unfold ToNonCodec, not8. change CodecFlag with (2 ^ 5). rewrite N.land_spec, N.lxor_spec, andb_true_iff, N.pow2_bits_eqb.
    change 255 with (N.ones 8). split.
    + intros [A B]. split; [assumption|]. intros ->. discriminate.
    + intros [A B]. split; [assumption|]. assert (HK : k < 8). { destruct (N.lt_ge_cases k 8) as [C|C]; [assumption|]. rewrite (testbit_small fl 8 k) in A; [discriminate|assumption|assumption]. }
      rewrite N.ones_spec_low by assumption. replace (5 =? k) with false by (symmetry; apply N.eqb_neq; congruence). reflexivity.
Qed.
Print Assumptions C54_flag_bits.

(** Where a frame goes, in terms of its bits. *)
Theorem C54_server_route : forall sub pending f,
  let fl := fFlags f in let id := fRequestID f in
  (pushBit fl -> serverRoute sub pending f = if sub then DSub else DDrop) /\
  (~ pushBit fl -> N.Even id -> pending id = true -> rstBit fl -> serverRoute sub pending f = DResp true) /\
  (~ pushBit fl -> N.Even id -> pending id = true -> ~ rstBit fl -> serverRoute sub pending f = DResp false) /\
  (~ pushBit fl -> N.Odd id \/ pending id = false -> (nbBit fl \/ streamBit fl \/ endBit fl) -> serverRoute sub pending f = DHandler false) /\
  (~ pushBit fl -> N.Odd id \/ pending id = false -> ~ nbBit fl -> ~ streamBit fl -> ~ endBit fl -> serverRoute sub pending f = DHandler true).
Proof.
  intros sub pending f fl id. destruct (C54_flag_bits fl) as (_ & NB & RS & _ & PU & _). unfold serverRoute. fold fl id.
  assert (EV : FromServer id = true <-> N.Even id) by (unfold FromServer; rewrite N.eqb_eq; split; [intros A; exists (id / 2); pose proof (N.div_mod' id 2); lia|intros [m ->]; rewrite N.mul_comm; apply N.mod_mul; lia]).
  assert (OE : N.Odd id -> ~ N.Even id) by (intros [a ->] [b B]; lia).
  destruct (IsPush fl) eqn:EP.
  - apply PU in EP || (assert (pushBit fl) by (apply PU; reflexivity)). repeat split; intros; auto; tauto.
  - assert (NP : ~ pushBit fl) by (intros A; apply PU in A; discriminate).
    split; [contradiction|]. repeat split; intros.
    + apply EV in H0. rewrite H0, H1. cbn. apply RS in H2. rewrite H2. reflexivity.
    + apply EV in H0. rewrite H0, H1. cbn. destruct (IsRst fl) eqn:ER; [contradiction H2; apply RS; reflexivity|reflexivity].
    + assert (X : FromServer id && pending id = false). { destruct H0 as [A|A]; [|rewrite A; apply andb_false_r]. destruct (FromServer id) eqn:E; [|reflexivity]. contradiction (OE A). apply EV. reflexivity. }
      rewrite X. assert (Y : IsNonBlock fl = true) by (apply NB; tauto). rewrite Y. reflexivity.
    + assert (X : FromServer id && pending id = false). { destruct H0 as [A|A]; [|rewrite A; apply andb_false_r]. destruct (FromServer id) eqn:E; [|reflexivity]. contradiction (OE A). apply EV. reflexivity. }
      rewrite X. destruct (IsNonBlock fl) eqn:E; [|reflexivity]. assert (Y : streamBit fl \/ endBit fl \/ nbBit fl) by (apply NB; reflexivity). tauto.
Qed.
Print Assumptions C54_server_route.

Theorem C54_client_route : forall sub handler pending f,
  let fl := fFlags f in let id := fRequestID f in
  (pushBit fl -> clientRoute sub handler false pending f = if sub then DSub else DDrop) /\
  (~ pushBit fl -> pending id = true -> rstBit fl -> clientRoute sub handler false pending f = DResp true) /\
  (~ pushBit fl -> pending id = true -> ~ rstBit fl -> clientRoute sub handler false pending f = DResp false) /\
  (~ pushBit fl -> pending id = false -> handler = true -> N.Even id -> (nbBit fl \/ streamBit fl \/ endBit fl) -> clientRoute sub handler false pending f = DHandler false) /\
  (~ pushBit fl -> pending id = false -> handler = true -> (N.Odd id \/ (~ nbBit fl /\ ~ streamBit fl /\ ~ endBit fl)) -> clientRoute sub handler false pending f = DQuit) /\
  (~ pushBit fl -> pending id = false -> handler = false -> clientRoute sub handler false pending f = DDrop).
Proof.
  intros sub handler pending f fl id. destruct (C54_flag_bits fl) as (_ & NB & RS & _ & PU & _). unfold clientRoute. fold fl id.
  assert (EV : FromServer id = true <-> N.Even id) by (unfold FromServer; rewrite N.eqb_eq; split; [intros A; exists (id / 2); pose proof (N.div_mod' id 2); lia|intros [m ->]; rewrite N.mul_comm; apply N.mod_mul; lia]).
  assert (OE : N.Odd id -> ~ N.Even id) by (intros [a ->] [b B]; lia).
  destruct (IsPush fl) eqn:EP.
  - assert (pushBit fl) by (apply PU; reflexivity). repeat split; intros; auto; tauto.
  - assert (NP : ~ pushBit fl) by (intros A; apply PU in A; discriminate).
    split; [contradiction|]. repeat split; intros.
    + rewrite H0. apply RS in H1. rewrite H1. reflexivity.
    + rewrite H0. destruct (IsRst fl) eqn:ER; [contradiction H1; apply RS; reflexivity|reflexivity].
    + rewrite H0, H1. apply EV in H2. rewrite H2. assert (Y : IsNonBlock fl = true) by (apply NB; tauto). rewrite Y. reflexivity.
    + rewrite H0, H1. destruct (FromServer id) eqn:E; [|reflexivity]. cbn. destruct H2 as [A|A]; [contradiction (OE A); apply EV; reflexivity|].
      destruct (IsNonBlock fl) eqn:E2; [|reflexivity]. assert (Y : streamBit fl \/ endBit fl \/ nbBit fl) by (apply NB; reflexivity). tauto.
    + rewrite H0, H1. reflexivity.
Qed.
Print Assumptions C54_client_route.

Example C54_example :
  serverRoute true (fun id => id =? 4) (mkFrame 4 4 0 []) = DResp true /\
  serverRoute true (fun id => id =? 4) (mkFrame 3 0 0 []) = DHandler true /\
  serverRoute true (fun id => id =? 4) (mkFrame 3 2 0 []) = DHandler false /\
  clientRoute true true false (fun id => id =? 3) (mkFrame 3 0 0 []) = DResp false /\
  clientRoute true true false (fun id => id =? 3) (mkFrame 6 8 0 []) = DHandler false /\
  clientRoute true true false (fun id => id =? 3) (mkFrame 6 0 0 []) = DQuit /\
  clientRoute true true false (fun id => id =? 3) (mkFrame 3 24 0 []) = DSub.
Proof. repeat split. Qed.

(** End to end.  What writeFirstFrame puts on the wire is read back with id, flags and payload unchanged. *)
Lemma first_frame_read : forall codecw codecr mfs p r cd id cmd fl payload rest,
  clean p -> id < 2 ^ 64 -> fl < 256 -> ~ codecBit fl ->
  N.of_nat (length payload) < 2 ^ 32 - 12 -> (mfs <= 0 \/ 12 + Z.of_nat (length payload) <= mfs < 2 ^ 32)%Z ->
  exists wire, snd (writeFirstFrame codecw p id cmd fl payload) = EwSent wire /\
    (pend r = wire ++ rest -> exists r', readFrame codecr mfs r cd = (r', inl (mkFrame id fl (cmd mod 2 ^ 24) payload)) /\ pend r' = rest).
Proof.
  intros codecw codecr mfs p r cd id cmd fl payload rest HC HI HF NC HL HM.
  destruct (C54_flag_bits fl) as (_ & _ & _ & _ & _ & CO & _).
  assert (EC : IsCodec fl = false) by (destruct (IsCodec fl); [contradiction NC; apply CO; reflexivity|reflexivity]).
  destruct (C01_frame_round_trip codecw codecr mfs (newFrameWriter p) r cd id cmd fl [payload] rest HC HI HF EC) as (wire & W & R); try (cbn [concat]; rewrite app_nil_r; assumption).
  exists wire. cbn [concat] in R. rewrite app_nil_r in R. split; [|exact R].
  cbn in W. unfold writeFirstFrame. destruct (EndWrite codecw (WriteBytes (StartWrite (newFrameWriter p) id cmd fl) payload)) as [w' res]. cbn in *. congruence.
Qed.

Lemma nonstream_id : forall fl, fl < 256 -> ToNonStream fl = fl.
Proof. intros fl H. apply N.eqb_eq. apply (flags_sweep (fun f => ToNonStream f =? f)); [vm_compute; reflexivity|assumption]. Qed.

(** A request written by Connection.Request (id odd, no push flag) and read by the server is dispatched to the handler,
    whatever responses the server waits for; the server's reader waits for it exactly if it has none of the nonblocking and
    stream flags. *)
Theorem C54_request_reaches_handler_partial : forall codecw codecr mfs p r cd id cmd fl payload rest sub pending,
  clean p -> id < 2 ^ 64 -> N.Odd id -> fl < 256 -> ~ codecBit fl -> ~ pushBit fl ->
  N.of_nat (length payload) < 2 ^ 32 - 12 -> (mfs <= 0 \/ 12 + Z.of_nat (length payload) <= mfs < 2 ^ 32)%Z ->
  exists wire, snd (clientRequest codecw p id cmd fl payload) = EwSent wire /\
    (pend r = wire ++ rest -> exists r' f block, readFrame codecr mfs r cd = (r', inl f) /\ pend r' = rest /\ fRequestID f = id /\ fPayload f = payload /\
      serverRoute sub pending f = DHandler block /\ (block = false <-> nbBit fl \/ streamBit fl \/ endBit fl)).
Proof.
  intros codecw codecr mfs p r cd id cmd fl payload rest sub pending HC HI HO HF NC NP HL HM.
  destruct (first_frame_read codecw codecr mfs p r cd id cmd fl payload rest HC HI HF NC HL HM) as (wire & W & R).
  exists wire. unfold clientRequest. rewrite nonstream_id by assumption. split; [assumption|]. intros P. destruct (R P) as (r' & E & P').
  exists r', (mkFrame id fl (cmd mod 2 ^ 24) payload), (negb (IsNonBlock fl)). repeat split; auto.
  - destruct (C54_server_route sub pending (mkFrame id fl (cmd mod 2 ^ 24) payload)) as (_ & _ & _ & A & B). cbn [fFlags fRequestID] in A, B.
    destruct (C54_flag_bits fl) as (_ & NB & _). destruct (IsNonBlock fl) eqn:EN.
    + apply A; auto. assert (X : streamBit fl \/ endBit fl \/ nbBit fl) by (apply NB; reflexivity). tauto.
    + apply B; auto; intros X; enough (false = true) by discriminate; apply NB; tauto.
  - destruct (C54_flag_bits fl) as (_ & NB & _). intros X. apply negb_false_iff, NB in X. tauto.
  - destruct (C54_flag_bits fl) as (_ & NB & _). intros X. apply negb_false_iff, NB. tauto.
Qed.
Print Assumptions C54_request_reaches_handler_partial.

(** A request written by the server's Request (id even, no push flag) and read by a client that has a Handler is dispatched to
    it without blocking the reader, if the client's own pending requests have odd ids (C09). *)
Theorem C54_server_request_reaches_handler_partial : forall codecw codecr mfs p r cd id cmd fl payload rest sub pending,
  clean p -> id < 2 ^ 64 -> N.Even id -> fl < 256 -> ~ codecBit fl -> ~ pushBit fl -> (forall k, pending k = true -> N.Odd k) ->
  N.of_nat (length payload) < 2 ^ 32 - 12 -> (mfs <= 0 \/ 12 + Z.of_nat (length payload) <= mfs < 2 ^ 32)%Z ->
  exists wire, snd (serverRequest codecw p id cmd fl payload) = EwSent wire /\
    (pend r = wire ++ rest -> exists r' f, readFrame codecr mfs r cd = (r', inl f) /\ pend r' = rest /\ fRequestID f = id /\ fPayload f = payload /\
      clientRoute sub true false pending f = DHandler false).
Proof.
  intros codecw codecr mfs p r cd id cmd fl payload rest sub pending HC HI HE HF NC NP HP HL HM.
  assert (B : forall k, bit k (N.lor fl NBFlag) <-> bit k fl \/ k = 3).
  { intros k. unfold bit. change NBFlag with (2 ^ 3). rewrite N.lor_spec, orb_true_iff, N.pow2_bits_eqb, N.eqb_eq. split; intros [A|A]; auto. }
  assert (HF' : N.lor fl NBFlag < 256).
  { apply (N.ltb_lt (N.lor fl NBFlag) 256). apply (flags_sweep (fun f => N.lor f NBFlag <? 256)); [vm_compute; reflexivity|assumption]. }
  assert (NC' : ~ codecBit (N.lor fl NBFlag)) by (unfold codecBit; intros A; apply B in A as [A|A]; [contradiction|discriminate]).
  destruct (first_frame_read codecw codecr mfs p r cd id cmd (N.lor fl NBFlag) payload rest HC HI HF' NC' HL HM) as (wire & W & R).
  exists wire. split; [exact W|]. intros P. destruct (R P) as (r' & E & P').
  exists r', (mkFrame id (N.lor fl NBFlag) (cmd mod 2 ^ 24) payload). repeat split; auto.
  destruct (C54_client_route sub true pending (mkFrame id (N.lor fl NBFlag) (cmd mod 2 ^ 24) payload)) as (_ & _ & _ & A & _). cbn [fFlags fRequestID] in A. apply A; auto.
  - unfold pushBit. intros X. apply B in X as [X|X]; [contradiction|discriminate].
  - destruct (pending id) eqn:EP; [|reflexivity]. destruct (HP id EP) as [a A1]. destruct HE as [b B1]. lia.
  - left. apply B. auto.
Qed.
Print Assumptions C54_server_request_reaches_handler_partial.

(** A request written by StreamRequest is read as a frame with the stream flag and otherwise the flags of the caller; it reaches
    the peer's Handler without blocking the reader: the server's if sent by the client (odd id), the client's if sent by the
    server (even id). *)
Theorem C54_stream_request_reaches_handler_partial : forall codecw codecr mfs p r cd id cmd fl payload rest sub pending,
  clean p -> id < 2 ^ 64 -> fl < 256 -> ~ codecBit fl -> ~ pushBit fl ->
  N.of_nat (length payload) < 2 ^ 32 - 12 -> (mfs <= 0 \/ 12 + Z.of_nat (length payload) <= mfs < 2 ^ 32)%Z ->
  exists wire, snd (streamRequest codecw p id cmd fl payload) = EwSent wire /\
    (pend r = wire ++ rest -> exists r' f, readFrame codecr mfs r cd = (r', inl f) /\ pend r' = rest /\
      fRequestID f = id /\ fCmd f = cmd mod 2 ^ 24 /\ fPayload f = payload /\
      streamBit (fFlags f) /\ (forall k, k <> 0 -> bit k (fFlags f) <-> bit k fl) /\
      (N.Odd id -> serverRoute sub pending f = DHandler false) /\
      (N.Even id -> (forall k, pending k = true -> N.Odd k) -> clientRoute sub true false pending f = DHandler false)).
Proof.
  intros codecw codecr mfs p r cd id cmd fl payload rest sub pending HC HI HF NC NP HL HM.
  assert (B : forall k, bit k (ToStream fl) <-> bit k fl \/ k = 0).
  { intros k. unfold bit, ToStream. change StreamFlag with (2 ^ 0). rewrite N.lor_spec, orb_true_iff, N.pow2_bits_eqb, N.eqb_eq. split; intros [A|A]; auto. }
  assert (HF' : ToStream fl < 256).
  { apply (N.ltb_lt (ToStream fl) 256). apply (flags_sweep (fun f => ToStream f <? 256)); [vm_compute; reflexivity|assumption]. }
  assert (NC' : ~ codecBit (ToStream fl)) by (unfold codecBit; intros A; apply B in A as [A|A]; [contradiction|discriminate]).
  assert (NP' : ~ pushBit (ToStream fl)) by (unfold pushBit; intros A; apply B in A as [A|A]; [contradiction|discriminate]).
  assert (SB : streamBit (ToStream fl)) by (apply B; auto).
  destruct (first_frame_read codecw codecr mfs p r cd id cmd (ToStream fl) payload rest HC HI HF' NC' HL HM) as (wire & W & R).
  exists wire. split; [exact W|]. intros P. destruct (R P) as (r' & E & P').
  exists r', (mkFrame id (ToStream fl) (cmd mod 2 ^ 24) payload). cbn [fRequestID fCmd fPayload fFlags].
  repeat match goal with |- _ /\ _ => split end; auto.
  - intros k Hk. rewrite B. tauto.
  - intros HO. destruct (C54_server_route sub pending (mkFrame id (ToStream fl) (cmd mod 2 ^ 24) payload)) as (_ & _ & _ & A & _). cbn [fFlags fRequestID] in A. apply A; auto.
  - intros HE HP. destruct (C54_client_route sub true pending (mkFrame id (ToStream fl) (cmd mod 2 ^ 24) payload)) as (_ & _ & _ & A & _). cbn [fFlags fRequestID] in A. apply A; auto.
    destruct (pending id) eqn:EP; [|reflexivity]. destruct (HP id EP) as [a A1]. destruct HE as [b B1]. lia.
Qed.
Print Assumptions C54_stream_request_reaches_handler_partial.
Example C54_stream_case : snd (streamRequest None fresh 3 5 NBFlag [1]) = EwSent (doc_frame 3 9 5 [1]).
Proof. vm_compute. reflexivity. Qed.

(** The full claim for what is not a push and not awaited, and for requests: they reach the Handler, whatever the flags. *)
Definition C54_statement : Prop :=
  (forall sub pending f, ~ pushBit (fFlags f) -> pending (fRequestID f) = false -> exists block, clientRoute sub true false pending f = DHandler block) /\
  (forall codecw codecr mfs p r cd id cmd fl payload rest sub pending wire,
    clean p -> id < 2 ^ 64 -> N.Odd id -> fl < 256 -> N.of_nat (length payload) < 2 ^ 32 - 12 ->
    (mfs <= 0 \/ 12 + Z.of_nat (length payload) <= mfs < 2 ^ 32)%Z ->
    snd (clientRequest codecw p id cmd fl payload) = EwSent wire -> pend r = wire ++ rest ->
    exists r' f block, readFrame codecr mfs r cd = (r', inl f) /\ serverRoute sub pending f = DHandler block).

(** A request made with the push flag is sent as a push: the server's Handler never sees it. *)
Theorem C54_push_request_not_handled : forall codecw codecr mfs p r cd id cmd fl payload rest sub pending,
  clean p -> id < 2 ^ 64 -> fl < 256 -> ~ codecBit fl -> pushBit fl ->
  N.of_nat (length payload) < 2 ^ 32 - 12 -> (mfs <= 0 \/ 12 + Z.of_nat (length payload) <= mfs < 2 ^ 32)%Z ->
  exists wire, snd (clientRequest codecw p id cmd fl payload) = EwSent wire /\
    (pend r = wire ++ rest -> exists r' f, readFrame codecr mfs r cd = (r', inl f) /\ pend r' = rest /\
      serverRoute sub pending f = if sub then DSub else DDrop).
Proof.
  intros codecw codecr mfs p r cd id cmd fl payload rest sub pending HC HI HF NC HP HL HM.
  destruct (first_frame_read codecw codecr mfs p r cd id cmd fl payload rest HC HI HF NC HL HM) as (wire & W & R).
  exists wire. unfold clientRequest. rewrite nonstream_id by assumption. split; [assumption|]. intros P. destruct (R P) as (r' & E & P').
  exists r', (mkFrame id fl (cmd mod 2 ^ 24) payload). repeat split; auto.
  destruct (C54_server_route sub pending (mkFrame id fl (cmd mod 2 ^ 24) payload)) as (A & _). apply A. assumption.
Qed.
Print Assumptions C54_push_request_not_handled.

(** And a client's reader gives up on a request without nonblocking or stream flag, and on an odd id nobody waits for. *)
Theorem C54_refuted : ~ C54_statement.
Proof.
  intros [A _]. destruct (A true (fun _ => false) (mkFrame 6 0 0 [])) as [b B]; [discriminate|reflexivity|]. discriminate.
Qed.
Print Assumptions C54_refuted.

(** ** C55 *)

(** A response nobody waits for: its id is one the receiving side gives its own requests, it is not pending, not a push.
    The full claim: it is dropped and the connection goes on. *)
Definition C55_statement : Prop := forall sub f pending, ~ pushBit (fFlags f) -> pending (fRequestID f) = false ->
  (N.Odd (fRequestID f) -> forall handler, clientRoute sub handler false pending f = DDrop) /\
  (N.Even (fRequestID f) -> serverRoute sub pending f = DDrop).

(** On a client with a Handler it ends the connection; on the server it is served as a request. *)
Theorem C55_client_quits : forall sub pending f, ~ pushBit (fFlags f) -> pending (fRequestID f) = false -> N.Odd (fRequestID f) ->
  clientRoute sub true false pending f = DQuit.
Proof. intros sub pending f H1 H2 H3. destruct (C54_client_route sub true pending f) as (_ & _ & _ & _ & A & _). apply A; auto. Qed.
Print Assumptions C55_client_quits.
Theorem C55_server_serves_it : forall sub pending f, ~ pushBit (fFlags f) -> pending (fRequestID f) = false ->
  exists block, serverRoute sub pending f = DHandler block.
Proof.
  intros sub pending f H1 H2. unfold serverRoute. destruct (C54_flag_bits (fFlags f)) as (_ & _ & _ & _ & PU & _).
  destruct (IsPush (fFlags f)); [contradiction H1; apply PU; reflexivity|]. rewrite H2, andb_false_r. eauto.
Qed.
Print Assumptions C55_server_serves_it.

Theorem C55_refuted : ~ C55_statement.
Proof.
  intros ST. destruct (ST true (mkFrame 3 0 0 []) (fun _ => false)) as [A _]; [discriminate|reflexivity|].
  specialize (A ltac:(exists 1; reflexivity) true). discriminate.
Qed.
Print Assumptions C55_refuted.

(** A client without a Handler drops it.  Missing: clients with one, and servers. *)
Theorem C55_dropped_partial : forall sub pending f, ~ pushBit (fFlags f) -> pending (fRequestID f) = false ->
  clientRoute sub false false pending f = DDrop.
Proof. intros sub pending f H1 H2. destruct (C54_client_route sub false pending f) as (_ & _ & _ & _ & _ & A). apply A; auto. Qed.
Print Assumptions C55_dropped_partial.

Example C55_example : clientRoute true true false (fun id => id =? 5) (mkFrame 3 0 1 [7]) = DQuit /\
  serverRoute true (fun id => id =? 6) (mkFrame 4 8 1 [7]) = DHandler false /\
  clientRoute true false false (fun id => id =? 5) (mkFrame 3 0 1 [7]) = DDrop.
Proof. repeat split. Qed.
