(** C13-C17: connection writer, batches, websocket overlay, read deadlines. *)
From Coq Require Import ZifyBool ZifyNat ZifyN.
From Verif Require Import Model.GoBase Model.ConnWriter Model.WsConn Model.Reader
  Proofs.ConnWriterP Proofs.WsP.
Open Scope nat_scope.

(** ** C13 *)
(** The full claim. *)
Definition C13_statement : Prop :=
  forall (timeout : Z) (bs : bytes) (its : list iter) (n : nat) (err : option werr) (delivered : bytes),
  WriterWrite tcpWrite timeout bs its = Some (n, err, delivered) ->
  n <= length bs /\ delivered = firstn n bs /\ (err = None <-> n = length bs).

(** False in one corner: writing no bytes may return the connection's error together with n = 0. *)
Theorem C13_refuted : ~ C13_statement.
Proof.
  intros H. destruct (H 0%Z [] [mkIter [EvPart 0 false] false false] 0 (Some WOther) [] eq_refl) as (_ & _ & _ & C). discriminate (C eq_refl).
Qed.
Print Assumptions C13_refuted.

(** Missing: the empty argument in the last part. *)
Theorem C13_write_exact_prefix_partial :
  forall (timeout : Z) (bs : bytes) (its : list iter) (n : nat) (err : option werr) (delivered : bytes),
  WriterWrite tcpWrite timeout bs its = Some (n, err, delivered) ->
  n <= length bs /\ delivered = firstn n bs /\
  (err = None -> n = length bs) /\ (bs <> [] -> n = length bs -> err = None).
Proof.
  intros timeout bs its n err d H.
  destruct (wLoop_spec timeout bs its 0 [] n err d ltac:(lia) eq_refl H) as (A & B & C & D).
  repeat split; try assumption. intros Hne. apply D. destruct bs; [congruence|cbn; lia].
Qed.
Print Assumptions C13_write_exact_prefix_partial.

Example C13_example :
  WriterWrite tcpWrite 5 [1;2;3;4]%N
    [mkIter [EvPart 1 true] false false; mkIter [EvPart 0 true] false false; mkIter [EvPart 2 true] true false]
  = Some (3, Some WTimeout, [1;2;3]%N) /\
  WriterWrite tcpWrite 5 [1;2;3;4]%N [mkIter [EvPart 1 true] false false; mkIter [EvAll] false false]
  = Some (4, None, [1;2;3;4]%N).
Proof. split; reflexivity. Qed.

(** ** C14
    [wv] is the vectored write: writev on a TCP connection, or one Write per buffer.  [clears]: net.Buffers overwrites
    consumed entries, which depends on the Go release; the code tells written frames by it. *)
Definition complete (frames : list bytes) (i : nat) (delivered : bytes) : Prop :=
  length (concat (firstn (S i) frames)) <= length delivered.

Definition C14_for (clears : bool) : Prop :=
  forall wv (timeout : Z) (frames : list bytes) (its : list iter) results delivered,
  wv = tcpWritev \/ wv = seqWritev tcpWrite ->
  Forall (fun f => f <> []) frames ->
  writeBatch clears wv timeout frames its = Some (results, delivered) ->
  (exists rest, concat frames = delivered ++ rest) /\
  length results = length frames /\
  forall i, i < length frames -> (nth i results None = None <-> complete frames i delivered).

(** The full claim: with every Go release. *)
Definition C14_statement : Prop := forall clears, C14_for clears.

(** Missing: Go releases that leave consumed entries in place (C14_refuted). *)
Theorem C14_batch_outcome_partial : C14_for true.
Proof.
  intros wv timeout frames its results delivered Hwv HF H. unfold writeBatch in H.
  destruct (wbLoop true wv timeout (length (concat frames)) [] frames 0 its []) as [[[cached err] sent]|] eqn:E;
    [|discriminate].
  destruct (wbLoop_spec wv timeout frames its [] frames 0 [] cached err sent) as (off & Ho & Hs & [AL AI] & HE).
  - intros v evs n d e He. destruct Hwv; subst wv; [eapply tcpWritev_ok|eapply seqWritev_tcp_ok]; eassumption.
  - exists [], frames. cbn. repeat split; try constructor; try lia; try assumption.
  - reflexivity.
  - exact E.
  - assert (Hlen : length sent = off) by (subst sent; rewrite firstn_length_le by assumption; reflexivity).
    destruct err as [e|]; inversion H; subst results delivered; clear H.
    + split; [exists (skipn off (concat frames)); rewrite Hs, firstn_skipn; reflexivity|].
      split; [rewrite map_length; assumption|].
      intros i Hi. unfold complete. rewrite Hlen, <- (AI i Hi).
      pose proof (map_nth (fun b : bytes => match b with [] => None | _ => Some e end) cached [] i) as X.
      cbn beta iota in X. unfold bytes in *. rewrite X.
      destruct (nth i cached []); split; congruence.
    + specialize (HE eq_refl). split; [exists []; rewrite Hs, HE, firstn_all, app_nil_r; reflexivity|].
      split; [rewrite map_length; assumption|].
      intros i Hi. split.
      * intros _. unfold complete. rewrite Hlen, HE. apply concat_firstn_le.
      * intros _. apply (map_nth (fun _ => @None werr) cached [] i).
Qed.
Print Assumptions C14_batch_outcome_partial.

Example C14_example :
  writeBatch true tcpWritev 0 [[1;2];[3;4];[5]]%N
     [mkIter [EvPart 1 true] false false; mkIter [EvPart 2 false] false false]
  = Some ([None; Some WOther; Some WOther], [1;2;3]%N).
Proof. reflexivity. Qed.

(** With releases that leave consumed entries in place, a delivered frame is reported as failed. *)
Theorem C14_old_go_refuted :
  exists frames its results delivered,
    writeBatch false tcpWritev 0 frames its = Some (results, delivered) /\
    complete frames 0 delivered /\ nth 0 results None <> None.
Proof.
  exists [[1;2];[3;4]]%N, [mkIter [EvPart 3 false] false false], [Some WOther; Some WOther], [1;2;3]%N.
  repeat split; [unfold complete; cbn; lia|discriminate].
Qed.
Print Assumptions C14_old_go_refuted.
Theorem C14_refuted : ~ C14_statement.
Proof.
  intros H.
  destruct (H false tcpWritev 0%Z [[1;2];[3;4]]%N [mkIter [EvPart 3 false] false false] [Some WOther; Some WOther] [1;2;3]%N) as (_ & _ & C).
  - left. reflexivity.
  - repeat constructor; discriminate.
  - reflexivity.
  - assert (X : nth 0 [Some WOther; Some WOther] None = None); [|discriminate X].
    apply (C 0); [cbn; lia|]. unfold complete. cbn. lia.
Qed.
Print Assumptions C14_refuted.

(** ** C15 *)
Theorem C15_ws_byte_stream :
  forall (ms : list (msgType * bytes)) (closeFails : bool) (sizes : list nat) c' outs,
  Forall (fun n => 0 < n) sizes ->
  wsReads (mkWs [] ms false closeFails) sizes = (c', outs) ->
  (exists rest, binary ms = concat (map data outs) ++ rest) /\
  Forall2 (fun n x => match x with inl b => b <> [] /\ length b <= n | inr _ => True end) sizes outs /\
  (closeFails = false -> In (inr WsRead) outs -> concat (map data outs) = binary ms).
Proof.
  intros ms cf sizes c' outs HS H.
  destruct (wsReads_spec sizes _ c' outs HS H) as (A & B & C).
  split; [exists (ahead c'); exact A|]. split; [exact B|]. intros. apply C; assumption.
Qed.
Print Assumptions C15_ws_byte_stream.

Example C15_example :
  snd (wsReads (mkWs [] [(MBinary, [1;2;3]); (MBinary, []); (MBinary, [4])]%N false false) [2;2;2;2])
  = [inl [1;2]; inl [3]; inl [4]; inr WsRead]%N.
Proof. reflexivity. Qed.

(** ** C16
    Full statement: no result is nil for a frame whose message was not delivered. *)
Definition C16_statement : Prop :=
  forall timeout frames its results delivered,
  Forall (fun f => f <> []) frames ->
  writeBatch true (seqWritev wsWrite) timeout frames its = Some (results, delivered) ->
  forall i, i < length frames -> nth i results None = None -> complete frames i delivered.

(** A message that failed is counted as written: its EndWrite returns nil. *)
Theorem C16_ws_write_failure_refuted : ~ C16_statement.
Proof.
  intro H.
  specialize (H 0%Z [[1;2];[3;4]]%N [mkIter [EvPart 0 false] false false] [None; Some WOther] []
                ltac:(repeat constructor; discriminate) eq_refl 0 ltac:(cbn; lia) eq_refl).
  unfold complete in H. cbn in H. lia.
Qed.
Print Assumptions C16_ws_write_failure_refuted.

(** What does hold: without a failing message everything is delivered and reported so; with a failing
    (non-timeout) message at position k in the first round, exactly the frames after k get an error. *)
Lemma seqWritev_ws : forall v evs n d err, seqWritev wsWrite v evs = (n, d, err) ->
  match err with
  | None => n = length (concat v) /\ d = concat v
  | Some e => exists k, k < length v /\ n = length (concat (firstn (S k) v)) /\ e <> WCtx
  end.
Proof.
  induction v as [|b v IH]; intros evs n d err H; cbn [seqWritev] in H.
  - inversion H; subst. split; reflexivity.
  - unfold wsWrite in H at 1. destruct (ev0 evs) as [|k t].
    + destruct (seqWritev wsWrite v (tl evs)) as [[n2 d2] e2] eqn:E2. inversion H; subst.
      apply IH in E2. destruct err as [e|].
      * destruct E2 as (k & Hk & Hn & He). exists (S k). cbn [length firstn concat].
        rewrite app_length. cbn [firstn] in Hn. split; [lia|]. split; [|exact He]. lia.
      * destruct E2 as [-> ->]. cbn [concat]. rewrite app_length. split; reflexivity.
    + inversion H; subst. exists 0. cbn [length firstn concat]. rewrite app_nil_r. repeat split; [lia|destruct t; discriminate].
Qed.


Lemma concat_firstn_lt : forall (l : list bytes) a b, Forall (fun f => f <> []) l -> a < b -> b <= length l ->
  length (concat (firstn a l)) < length (concat (firstn b l)).
Proof.
  induction l as [|x l IH]; intros a b HF Hab Hb; [cbn in Hb; lia|].
  inversion HF as [|? ? Hx HF']; subst. destruct b; [lia|]. cbn [firstn concat]. rewrite app_length.
  destruct a; [cbn; destruct x; [congruence|cbn; lia]|].
  cbn [firstn concat]. rewrite app_length. cbn in Hb. specialize (IH a b HF' ltac:(lia) ltac:(lia)). lia.
Qed.
Lemma concat_firstn_mono : forall (l : list bytes) a b, a <= b ->
  length (concat (firstn a l)) <= length (concat (firstn b l)).
Proof.
  induction l as [|x l IH]; intros a b Hab; destruct a as [|a], b as [|b]; cbn [firstn concat length]; try lia.
  rewrite !app_length. specialize (IH a b ltac:(lia)). lia.
Qed.

Lemma ws_write_failure_aux :
  forall timeout frames it its results delivered,
  Forall (fun f => f <> []) frames ->
  writeBatch true (seqWritev wsWrite) timeout frames (it :: its) = Some (results, delivered) ->
  let '(n, d, err) := seqWritev wsWrite frames (iev it) in
  match err with
  | None => delivered = concat frames /\ results = map (fun _ => None) frames
  | Some _ => True
  end.
Proof.
  intros timeout frames it its results delivered HF H. unfold writeBatch in H. cbn [wbLoop] in H.
  destruct (seqWritev wsWrite frames (iev it)) as [[n d] err] eqn:E. apply seqWritev_ws in E.
  destruct (consume true frames n) as [g v'] eqn:EC.
  destruct err as [[| |]|]; try exact I.
  destruct E as [-> ->]. cbn [Nat.add app] in H.
  rewrite Nat.leb_refl in H. inversion H; subst. split; [reflexivity|].
  pose proof (consume_concat _ _ _ _ _ EC) as [CL _]. clear - CL.
  assert (G : forall (l1 l2 : list bytes), length l1 = length l2 -> map (fun _ => @None werr) l1 = map (fun _ => None) l2).
  { induction l1; destruct l2; cbn; intros; try lia; [reflexivity|]. f_equal. apply IHl1. lia. }
  apply G. rewrite app_length. assumption.
Qed.

Lemma seqWritev_ws_ok : forall v evs, (forall j, j < length v -> nth j evs EvAll = EvAll) ->
  snd (seqWritev wsWrite v evs) = None.
Proof.
  induction v as [|b v IH]; intros evs H; cbn [seqWritev]; [reflexivity|].
  pose proof (H 0 ltac:(cbn; lia)) as H0.
  assert (E0 : ev0 evs = EvAll) by (destruct evs; [reflexivity|exact H0]).
  rewrite E0. cbn [wsWrite].
  specialize (IH (tl evs)). destruct (seqWritev wsWrite v (tl evs)) as [[n d] e]. cbn in *.
  apply IH. intros j Hj. specialize (H (S j) ltac:(lia)). destruct evs; [destruct j; reflexivity|exact H].
Qed.

Lemma seqWritev_ws_fail : forall v evs k p, k < length v ->
  nth k evs EvAll = EvPart p false -> (forall j, j < k -> nth j evs EvAll = EvAll) ->
  exists d, seqWritev wsWrite v evs = (length (concat (firstn (S k) v)), d, Some WOther).
Proof.
  induction v as [|b v IH]; intros evs k p Hk HE HB; [cbn in Hk; lia|]. cbn [seqWritev].
  destruct k as [|k].
  - destruct evs as [|e evs]; cbn in HE; [discriminate|]. subst e. cbn. rewrite app_nil_r. eexists; reflexivity.
  - assert (E0 : ev0 evs = EvAll) by (destruct evs; [reflexivity|exact (HB 0 ltac:(lia))]).
    rewrite E0. cbn [wsWrite].
    destruct (IH (tl evs) k p ltac:(cbn in Hk; lia)) as [d E].
    + destruct evs; [destruct k; discriminate|exact HE].
    + intros j Hj. specialize (HB (S j) ltac:(lia)). destruct evs; [destruct j; reflexivity|exact HB].
    + rewrite E. cbn [firstn concat]. rewrite app_length. eexists; reflexivity.
Qed.

(** no failing message: everything delivered, every result nil *)
Theorem C16_ws_write_all_ok_partial :
  forall timeout frames it its results delivered,
  Forall (fun f => f <> []) frames ->
  (forall j, j < length frames -> nth j (iev it) EvAll = EvAll) ->
  writeBatch true (seqWritev wsWrite) timeout frames (it :: its) = Some (results, delivered) ->
  delivered = concat frames /\ forall i, nth i results None = None.
Proof.
  intros timeout frames it its results delivered HF HE H.
  pose proof (ws_write_failure_aux timeout frames it its results delivered HF H) as X.
  pose proof (seqWritev_ws_ok frames (iev it) HE) as Y.
  destruct (seqWritev wsWrite frames (iev it)) as [[n d] e]. cbn in Y. subst e.
  destruct X as [-> ->]. split; [reflexivity|]. intro i. apply (map_nth (fun _ => @None werr) frames [] i).
Qed.
Print Assumptions C16_ws_write_all_ok_partial.

(** message k fails: exactly the frames after k get an error, k itself is (wrongly) reported nil *)
Theorem C16_ws_write_failure_partial :
  forall timeout frames it its results delivered k p,
  Forall (fun f => f <> []) frames ->
  k < length frames -> nth k (iev it) EvAll = EvPart p false ->
  (forall j, j < k -> nth j (iev it) EvAll = EvAll) ->
  writeBatch true (seqWritev wsWrite) timeout frames (it :: its) = Some (results, delivered) ->
  forall i, i < length frames -> (nth i results None <> None <-> k < i).
Proof.
  intros timeout frames it its results delivered k p HF Hk HE HB H i Hi.
  destruct (seqWritev_ws_fail frames (iev it) k p Hk HE HB) as [d E].
  unfold writeBatch in H. cbn [wbLoop] in H. rewrite E in H. unfold bytes in *.
  destruct (consume true frames (length (concat (firstn (S k) frames)))) as [g v'] eqn:EC.
  cbv beta iota zeta in H. cbn [app] in H. inversion H; subst results delivered; clear H.
  pose proof (consume_empty frames _ g v' HF EC i Hi) as CE.
  pose proof (map_nth (fun b : bytes => match b with [] => None | _ => Some WOther end) (g ++ v') [] i) as X.
  cbn beta iota in X. unfold bytes in *. rewrite X. clear X.
  assert (M : length (concat (firstn (S i) frames)) <= length (concat (firstn (S k) frames)) <-> i <= k).
  { split; intro X.
    - destruct (Nat.le_gt_cases i k) as [|Hgt]; [assumption|exfalso].
      pose proof (concat_firstn_lt frames (S k) (S i) HF) as Y. unfold bytes in *.
      specialize (Y ltac:(lia) ltac:(lia)). lia.
    - apply (concat_firstn_mono frames). lia. }
  rewrite <- CE in M. destruct (nth i (g ++ v') []) as [|b l] eqn:EN.
  - split; [congruence|]. intro X. assert (i <= k) by (apply M; reflexivity). lia.
  - split; [|discriminate]. intros _. destruct (Nat.le_gt_cases i k) as [Hle|]; [|assumption].
    apply M in Hle. discriminate.
Qed.
Print Assumptions C16_ws_write_failure_partial.

Example C16_example :
  writeBatch true (seqWritev wsWrite) 0 [[1;2];[3;4];[5]]%N [mkIter [EvAll; EvPart 1 false] false false]
  = Some ([None; None; Some WOther], [1;2;3]%N).
Proof. reflexivity. Qed.

(** ** C17 *)
Definition payloadReadMaxTimeoutSecond : Z := 3.  (* framereader.go:79-81 *)

Definition C17_statement : Prop :=
  forall configured, exists t, effTimeout configured payloadReadMaxTimeoutSecond = Some t /\ (0 < t <= 3)%Z.

(** Without a configured read timeout the payload read has no deadline at all. *)
Theorem C17_read_deadline_refuted : ~ C17_statement.
Proof. intro H. destruct (H 0%Z) as (t & E & _). discriminate. Qed.
Print Assumptions C17_read_deadline_refuted.

Theorem C17_read_deadline_partial :
  forall configured,
  (effTimeout configured 0 = if Z.leb configured 0 then None else Some configured) /\
  ((0 < configured)%Z -> effTimeout configured payloadReadMaxTimeoutSecond = Some (Z.min configured 3)) /\
  ((configured <= 0)%Z -> effTimeout configured payloadReadMaxTimeoutSecond = None).
Proof.
  intro t. unfold effTimeout, payloadReadMaxTimeoutSecond. cbn [Z.ltb Z.compare andb].
  destruct (Z.leb_spec t 0); destruct (Z.ltb_spec 0 t); try lia; repeat split; try lia; try reflexivity.
  - intros _. destruct (Z.ltb_spec 3 t); cbn [andb]; [lia|]. destruct (Z.ltb_spec 0 t); [lia|reflexivity].
  - intros _. destruct (Z.ltb_spec 3 t); cbn [andb].
    + cbn. f_equal. lia.
    + destruct (Z.ltb_spec 0 t); [f_equal; lia|lia].
Qed.
Print Assumptions C17_read_deadline_partial.

Example C17_example : effTimeout 10 3 = Some 3%Z /\ effTimeout 10 0 = Some 10%Z /\ effTimeout 2 3 = Some 2%Z.
Proof. repeat split. Qed.
