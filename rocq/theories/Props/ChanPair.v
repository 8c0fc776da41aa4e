(** C77: messages through a channel.Sender reach the other side's Receiver. *)
From Coq Require Import ZifyBool ZifyNat ZifyN.
From Verif Require Import Model.GoBase Model.Machine Model.Qrpc Model.FrameWriter Model.Reader Model.FrameReader Model.Ids Model.Stream Model.Pair Model.Channel Model.ChanPair
  Spec.FrameSpec Spec.StreamSpec Proofs.StreamP Proofs.StreamI Proofs.StreamQ Proofs.StreamR Proofs.PairP Proofs.CallP Proofs.ChanP Props.Stream Props.Pair.
Open Scope N_scope.

(** The messages for which Send succeeded, oldest first: cmd (24 bits of it are sent) and payload. *)
Definition msgs (log : list (hop * option Frame)) : list (Cmd * bytes) :=
  flat_map (fun e => match e with (OMsg cmd b _, Some _) => [(N.land cmd 0xffffff, b)] | _ => [] end) log.
(** no Send succeeds after one with end, after End, or after the return of the handler *)
Definition well_used (log : list (hop * option Frame)) : Prop :=
  forall a o f b, log = a ++ (o, Some f) :: b -> (match o with OMsg _ _ fin => fin = true | _ => True end) -> msgs b = [].
(** the messages that Receive returned, oldest first *)
Definition received (l : list hgot) : list (Cmd * bytes) := map (fun f => (fCmd f, fPayload f)) (taken l).

(** The claim: what one side's Sender sent under a request id arrives, in order, each message once, at the Receiver of the
    other side; and when Receive returns ErrStreamFinished, all of it has arrived.  [c], [x]: who opened the channel; [d]: the
    side that sends, [s]: the channel's stream on the other side. *)
Definition C77_statement : Prop :=
  forall lim h c x d s, sane lim -> reachable (hstep lim) hinit h -> chanOf h (negb d) s = Some (c, x) ->
  let i := sid (heap (ep (hp h) (negb d)) s) in
  well_used (hlog h d i) ->
  (exists rest, msgs (hlog h d i) = received (rlog h (negb d) s) ++ rest) /\
  (In GFin (rlog h (negb d) s) -> msgs (hlog h d i) = received (rlog h (negb d) s)).

(** The connection is lost between two messages: the second Send has succeeded, the message has not arrived.  Releasing the
    stream closes its FrameCh (stream.go:227-230), so the Receiver returns ErrStreamFinished, as at the end of a complete
    stream (channel/servetransport.go:79-83). *)
Definition loc (c : bool) (n : nat) (l : slabel) : list hlabel := repeat (HPair (PLoc c l)) n.
Definition lost : list hlabel :=
  HSend true 0 (OMsg 7 [1] false) :: loc true 2 LWStep ++ [HPair (PArrive false 100); HPair (PRead false)] ++ loc false 3 LRStep ++
  [HRecv false 0 true; HSend true 0 (OMsg 7 [2] false)] ++ loc true 2 LWStep ++
  loc false 1 LRExit ++ loc false 1 LWExit ++ loc false 1 (LRel 0) ++ [HRecv false 0 true].
Theorem C77_refuted : ~ C77_statement.
Proof.
  intro H. destruct (run (hstep (fun _ => 0%Z)) hinit lost) as [h|] eqn:E; [|vm_compute in E; discriminate].
  assert (X : match run (hstep (fun _ => 0%Z)) hinit lost with
    | Some h => chanOf h false 0 = Some (true, 0) /\ rlog h false 0 = [GMsg true (mkFrame 3 1 7 [1]); GFin] /\
        sid (heap (ep (hp h) false) 0) = 3 /\ hlog h true 3 = [(OMsg 7 [1] false, Some (mkFrame 3 1 7 [1])); (OMsg 7 [2] false, Some (mkFrame 3 1 7 [2]))]
    | None => False end) by (vm_compute; repeat split).
  rewrite E in X. destruct X as (X1 & X2 & X3 & X4).
  destruct (H (fun _ => 0%Z) h true 0 true 0) as [_ H2].
  - intro. left. reflexivity.
  - exists lost. exact E.
  - exact X1.
  - cbn [negb]. rewrite X3, X4. intros a o f b EL HE. destruct a as [|e1 [|e2 a]]; cbn in EL; injection EL as ? ?; subst; try reflexivity; try discriminate HE.
    destruct a; discriminate.
  - cbn [negb] in H2. rewrite X2, X3, X4 in H2. specialize (H2 (or_intror (or_introl eq_refl))). discriminate H2.
Qed.
Print Assumptions C77_refuted.

(** *** the frames of a channel *)
Lemma frOf_split : forall log u f v, frOf log = u ++ f :: v -> exists a o b, log = a ++ (o, Some f) :: b /\ frOf a = u /\ frOf b = v.
Proof.
  induction log as [|[o [g|]] log IH]; intros u f v E.
  - destruct u; discriminate.
  - change (frOf ((o, Some g) :: log)) with (g :: frOf log) in E. destruct u as [|y u]; cbn in E; injection E as -> E.
    + exists [], o, log. auto.
    + destruct (IH _ _ _ E) as (a & o' & b & -> & <- & <-). exists ((o, Some y) :: a), o', b. auto.
  - change (frOf ((o, None) :: log)) with (frOf log) in E. destruct (IH _ _ _ E) as (a & o' & b & -> & <- & <-). exists ((o, None) :: a), o', b. auto.
Qed.
Lemma frOf_in : forall log f, In f (frOf log) -> exists a o b, log = a ++ (o, Some f) :: b.
Proof. intros log f H. apply in_split in H. destruct H as (u & v & H). destruct (frOf_split _ _ _ _ H) as (a & o & b & E & _). eauto. Qed.
Lemma msgs_app : forall a b, msgs (a ++ b) = msgs a ++ msgs b.
Proof. intros. unfold msgs. apply flat_map_app. Qed.
Lemma msgs_in : forall log cmd b fin f, In (OMsg cmd b fin, Some f) log -> msgs log <> [].
Proof. intros log cmd b fin f H X. apply in_split in H. destruct H as (u & v & ->). rewrite msgs_app in X. apply app_eq_nil in X. destruct X as [_ X]. discriminate X. Qed.

Lemma used_conf : forall i l log, kfilter (false, i) l = frOf log -> LogOK log -> well_used log -> conforming (false, i) l.
Proof.
  intros i l log HK HL HU a f b E O D. apply on_key in O.
  rewrite E in HK. rewrite kfilter_app in HK. unfold kfilter at 2 in HK. cbn [filter] in HK. rewrite O, keqb_refl in HK. symmetry in HK.
  destruct (frOf_split _ _ _ _ HK) as (la & o & lb & EL & _ & EB).
  pose proof (HL _ _ _ _ EL) as SH.
  assert (EN : match o with OMsg _ _ fin => fin = true | _ => True end).
  { destruct o as [cmd pay fin| |]; auto. destruct SH as (_ & _ & _ & SH). destruct (SH D) as [X|(o' & g & X1 & X2)]; [assumption|exfalso].
    apply in_split in X1. destruct X1 as (u & v & ->). rewrite <- app_assoc in EL. cbn in EL.
    assert (HE : match o' with OMsg _ _ fin => fin = true | _ => True end) by (destruct o'; auto).
    pose proof (HU _ _ _ _ EL HE) as X. rewrite msgs_app in X. apply app_eq_nil in X. destruct X as [_ X]. discriminate X. }
  pose proof (HU _ _ _ _ EL EN) as NM. apply Forall_forall. intros g Hg OG. apply on_key in OG.
  assert (GI : In g (frOf lb)). { rewrite EB. unfold kfilter. apply filter_In. split; [assumption|]. rewrite OG. apply keqb_refl. }
  destruct (frOf_in _ _ GI) as (u & o' & v & EV). subst lb.
  assert (SH' : shape (la ++ (o, Some f) :: u) o' g) by (apply (HL _ _ _ v); rewrite EL, <- app_assoc; reflexivity).
  destruct o'; [|exact SH'|exact SH']. exfalso. eapply msgs_in; [|exact NM]. apply in_elt.
Qed.
Lemma frames_msgs : forall i l log, kfilter (false, i) l = frOf log -> LogOK log -> map (fun f => (fCmd f, fPayload f)) (frames_of (false, i) l) = msgs log.
Proof.
  intros i l log HK HL.
  assert (FF : frames_of (false, i) l = filter (fun f => negb (isRstF f)) (frOf log)).
  { rewrite frames_Kof, <- HK. clear. unfold Kof, kfilter. induction l as [|f l IH]; [reflexivity|]. cbn. destruct (keqb (keyOf f) (false, i)); cbn; [|assumption].
    destruct (isRstF f); cbn; congruence. }
  rewrite FF. clear FF HK l. induction log as [|[o e] log IH] using rev_ind; [reflexivity|].
  rewrite frOf_app, msgs_app, filter_app, map_app. rewrite IH.
  2:{ intros a o' f b E. apply (HL a o' f (b ++ [(o, e)])). rewrite E, <- app_assoc. reflexivity. }
  f_equal. destruct e as [f|]; [|destruct o; reflexivity]. pose proof (HL log o f [] eq_refl) as SH. unfold frOf. cbn.
  destruct o as [cmd b fin| |]; cbn in SH |- *.
  - destruct SH as (S1 & S2 & S3 & _). unfold isRstF. rewrite S3. cbn. rewrite S1, S2; reflexivity.
  - unfold isRstF. rewrite SH. reflexivity.
  - unfold isRstF. rewrite SH. reflexivity.
Qed.

Section F.
  Variable lim : bool -> Z.
  Variable h : hst.
  Variables (d : bool) (s : N) (v : bool * N).
  Hypothesis HS : sane lim.
  Hypothesis R : reachable (hstep lim) hinit h.
  Hypothesis HC : chanOf h (negb d) s = Some v.
  Let i := sid (heap (ep (hp h) (negb d)) s).
  Hypothesis HU : well_used (hlog h d i).

  Lemma f_all : conforming (false, i) (sent (hp h) d) /\ map (fun f => (fCmd f, fPayload f)) (frames_of (false, i) (sent (hp h) d)) = msgs (hlog h d i).
  Proof.
    pose proof (reach_h lim (sane_ok lim HS) h R) as I. destruct (chanOf_some _ _ _ _ HC) as (C1 & C2 & C3).
    assert (K : kfilter (false, i) (sent (hp h) d) = frOf (hlog h d i)) by (apply (n_log _ _ I); unfold i; congruence).
    split; [eapply used_conf; [exact K|apply (n_ok _ _ I)|exact HU]|]. apply frames_msgs; [exact K|apply (n_ok _ _ I)].
  Qed.
  Lemma f_got : exists rest, got (heap (ep (hp h) (negb d)) s) = taken (rlog h (negb d) s) ++ rest /\ (rlog h (negb d) s <> [] -> rest = []).
  Proof.
    pose proof (reach_h lim (sane_ok lim HS) h R) as I. destruct (chanOf_some _ _ _ _ HC) as (C1 & C2 & C3).
    destruct (n_got _ _ I (negb d) s C1 C2 ltac:(congruence)) as (rest & A & B & C). exists rest. split; [assumption|].
    intro X. apply C. intro Y. destruct (B Y) as [Z _]. contradiction.
  Qed.
End F.

Lemma c_ch : forall rv wv, forall x, sokx x false rv wv -> negb (chClosed x) || closedPeer x = true.
Proof. intros rv wv. brute_c. Qed.

(** Messages arrive in order, each once, at one stream; a Receiver that has not waited for the last one is behind.  While the
    connection lasts, ErrStreamFinished is returned only after the last message; and once everything the sender's side wrote
    has been read, a Receiver that was called has had all messages. *)
Theorem C77_in_order_partial :
  forall lim h d s v, sane lim -> reachable (hstep lim) hinit h -> chanOf h (negb d) s = Some v ->
  let i := sid (heap (ep (hp h) (negb d)) s) in let st := ep (hp h) (negb d) in
  well_used (hlog h d i) ->
  (exists rest, msgs (hlog h d i) = received (rlog h (negb d) s) ++ rest) /\
  (forall want h', hstep lim h (HRecv (negb d) s want) = Some h' -> rlog h' (negb d) s = rlog h (negb d) s ++ [GFin] -> rpc st <> RExit ->
     msgs (hlog h d i) = received (rlog h (negb d) s)) /\
  (inlog st = sent (hp h) d -> rpc st = RIdle -> rlog h (negb d) s <> [] -> msgs (hlog h d i) = received (rlog h (negb d) s)) /\
  (forall s', chanOf h (negb d) s' = Some v -> sid (heap st s') = i -> rlog h (negb d) s <> [] -> rlog h (negb d) s' <> [] -> s' = s).
Proof.
  intros lim h d s v HS R HC i st HU. pose proof (reach_h lim (sane_ok lim HS) h R) as I. pose proof (n_pair _ _ I) as RP.
  destruct (f_all lim h d s v HS R HC HU) as [CF FM]. destruct (f_got lim h d s v HS R HC) as (r0 & G1 & G2).
  destruct (chanOf_some _ _ _ _ HC) as (C1 & C2 & C3). fold st in G1, C1, C2, C3. fold i in C3, CF, FM.
  pose proof (C66_stream_crosses_partial lim (hp h) (negb d) false i HS RP) as X. rewrite negb_involutive in X. destruct (X CF) as (P1 & P2 & P3). clear X. fold st in P1, P2, P3.
  pose proof (hpair lim (sane_ok lim HS) h I) as PI. pose proof (q_reach _ _ PI (negb d)) as RS. fold st in RS. destruct (reach_pq (negb d) st RS) as (SI & PP & QI).
  assert (BG : got (heap st s) <> [] -> binded (heap st s) = true).
  { intro N. destruct (binded (heap st s)) eqn:EB; [reflexivity|]. apply (p_got _ PP s C1) in EB. contradiction. }
  assert (PRE : exists rest, frames_of (false, i) (sent (hp h) d) = taken (rlog h (negb d) s) ++ rest).
  { destruct (got (heap st s)) as [|y ys] eqn:EG.
    - symmetry in G1. apply app_eq_nil in G1. destruct G1 as [-> _]. exists (frames_of (false, i) (sent (hp h) d)). reflexivity.
    - destruct (P1 s C1 (BG ltac:(discriminate)) C2 eq_refl) as (rest & E). exists (r0 ++ rest). rewrite E. first [rewrite EG|idtac]. rewrite G1, <- app_assoc. reflexivity. }
  assert (ALL : rlog h (negb d) s <> [] -> frames_of (false, i) (sent (hp h) d) = got (heap st s) -> msgs (hlog h d i) = received (rlog h (negb d) s)).
  { intros N E. rewrite <- FM, E, G1, (G2 N), app_nil_r. reflexivity. }
  split; [|split; [|split]].
  - destruct PRE as (rest & E). exists (map (fun f => (fCmd f, fPayload f)) rest). rewrite <- FM, E, map_app. reflexivity.
  - intros want h' E EL ER. unfold hstep in E. rewrite HC in E. fold st in E. destruct (rlog h (negb d) s) as [|e0 el] eqn:EQ.
    { destruct (got (heap st s)); [discriminate|]. injection E as <-. cbn in EL. rewrite put_eq, upd_eq, EQ in EL. discriminate EL. }
    apply ALL; [discriminate|]. destruct (chClosed (heap st s)) eqn:ECC.
    2:{ exfalso. destruct (rpc st) as [| | | | | | | | | | | | | | | |f s1| |] eqn:ERP; try discriminate E.
        destruct (N.eqb s1 s); [|discriminate E]. destruct (pstep lim (hp h) (PLoc (negb d) LDeliver)); [|discriminate E]. injection E as <-.
        cbn in EL. rewrite put_eq, upd_eq, EQ in EL. injection EL as EL. apply app_inj_tail in EL. destruct EL as [_ EL]. discriminate EL. }
    clear E EL.
    assert (CP : closedPeer (heap st s) = true).
    { pose proof (i_ok st SI s C1) as OK. unfold sok in OK. rewrite isRel_false_r in OK by assumption. apply c_ch in OK. rewrite ECC in OK. exact OK. }
    assert (KS : skey (heap st s) = (false, i)) by (unfold skey; rewrite C2; reflexivity).
    assert (SE : seenEnd (false, i) (plog st)).
    { rewrite <- KS. destruct (p_end _ PP s C1 CP) as [X|X]; [|assumption]. apply isRel_true in X. destruct X. contradiction. }
    destruct (q_wire _ _ PI d) as (rest & A & _). fold st in A.
    assert (W : wfkey (false, i) (sent (hp h) d)) by (apply conf_wf; exact CF).
    assert (NB : got (heap st s) <> []).
    { intro Z. rewrite G1 in Z. apply app_eq_nil in Z. destruct Z as [Z _]. destruct (n_got _ _ I (negb d) s C1 C2 ltac:(unfold i, st in *; congruence)) as (r1 & _ & B1 & _).
      rewrite EQ in B1. destruct (B1 Z) as [B2 _]. discriminate B2. }
    assert (WI : wfkey (false, i) (inlog st)) by (rewrite A in W; eapply wfkey_prefix; exact W).
    pose proof (q_got _ _ (QI (false, i) WI) s C1 (BG NB) KS) as QG.
    assert (PN : pendOf st s = []).
    { destruct (pendOf st s) as [|y ys] eqn:EP; [reflexivity|exfalso].
      assert (CU : curFrame (rpc st) = Some y /\ keyOf y = (false, i)).
      { pose proof (i_r st SI) as RV. unfold rvalid in RV. unfold pendOf in EP. destruct (rpc st); try discriminate EP; cbn;
        match type of EP with (if ?b then _ else _) = _ => destruct b eqn:EB; [|discriminate EP] end; injection EP as -> <-; (split; [reflexivity|]).
        - apply keqb_eq in EB. congruence.
        - apply N.eqb_eq in EB. subst. destruct RV as (_ & RV & _). congruence.
        - apply N.eqb_eq in EB. subst. destruct RV as (_ & RV & _). congruence.
        - apply N.eqb_eq in EB. subst. destruct RV as (_ & RV & _). congruence.
        - apply N.eqb_eq in EB. subst. destruct RV as (_ & RV & _). congruence. }
      destruct CU as [CU1 CU2]. destruct (open_now st y (false, i) s SI PP WI CU1 CU2 C1 KS) as (X & _). congruence. }
    rewrite PN, app_nil_r in QG. rewrite frames_Kof. rewrite A, Kof_app, QG.
    assert (RN : Kof (false, i) rest = []).
    { destruct (Kof (false, i) rest) as [|y ys] eqn:EK; [reflexivity|exfalso].
      assert (Y : In y (Kof (false, i) rest)) by (rewrite EK; left; reflexivity). unfold Kof in Y. apply filter_In in Y. destruct Y as [Y1 Y2].
      apply andb_true_iff in Y2. destruct Y2 as [Y2 Y3]. apply keqb_eq in Y2. apply negb_true_iff in Y3.
      destruct SE as (g & S1 & S2 & S3). apply plog_sub in S1. apply in_split in S1. destruct S1 as (u & w & S1).
      rewrite S1 in A. rewrite <- app_assoc in A. cbn in A. specialize (W _ _ _ A S2 S3). apply Forall_app in W. destruct W as [_ W].
      rewrite Forall_forall in W. destruct (W y Y1) as [Z|Z]; congruence. }
    rewrite RN, app_nil_r. reflexivity.
  - intros EI ER N. apply ALL; [assumption|].
    assert (NG : got (heap st s) <> []).
    { intro Z. rewrite G1 in Z. apply app_eq_nil in Z. destruct Z as [Z _]. destruct (n_got _ _ I (negb d) s C1 C2 ltac:(unfold i, st in *; congruence)) as (r1 & _ & B1 & _).
      destruct (B1 Z) as [B2 _]. contradiction. }
    destruct (P1 s C1 (BG NG) C2 eq_refl) as (rest & E). destruct (P3 EI ER) as (s' & S1 & S2 & S3 & S4).
    + rewrite E. intro Z. apply app_eq_nil in Z. destruct Z. contradiction.
    + assert (X : got (heap st s') <> []). { rewrite S4, E. intro Z. apply app_eq_nil in Z. destruct Z. contradiction. }
      rewrite (P2 s s' C1 S1 NG X C2 eq_refl S2 S3). symmetry. exact S4.
  - intros s' HC' ES N N'. destruct (chanOf_some _ _ _ _ HC') as (C1' & C2' & C3'). fold st in C1', C2', C3'.
    assert (NG : forall z, z < next st -> spush (heap st z) = false -> own h (sid (heap st z)) <> None -> rlog h (negb d) z <> [] -> got (heap st z) <> []).
    { intros z Z1 Z2 Z3 Z4 Z. destruct (n_got _ _ I (negb d) z Z1 Z2 Z3) as (r1 & A1 & B1 & _). fold st in A1. rewrite Z in A1. symmetry in A1. apply app_eq_nil in A1.
      destruct A1 as [A1 _]. destruct (B1 A1) as [B2 _]. contradiction. }
    apply P2; auto; apply NG; auto; congruence.
Qed.
Print Assumptions C77_in_order_partial.

(** A message that was read from the wire is returned by the next Receive, whatever else goes on: the first one, or a later
    one that the reader holds for this stream. *)
Theorem C77_next_receive_partial :
  forall lim h d s v want, sane lim -> reachable (hstep lim) hinit h -> chanOf h d s = Some v -> panicked (ep (hp h) d) = false ->
  let st := ep (hp h) d in
  (forall f rest, rlog h d s = [] -> got (heap st s) = f :: rest -> exists h', hstep lim h (HRecv d s want) = Some h' /\ rlog h' d s = [GMsg want f]) /\
  (forall f, rlog h d s <> [] -> rpc st = RSend f s -> exists h', hstep lim h (HRecv d s want) = Some h' /\ rlog h' d s = rlog h d s ++ [GMsg want f]).
Proof.
  intros lim h d s v want HS R HC PN st. pose proof (reach_h lim (sane_ok lim HS) h R) as I. split.
  - intros f rest EL EG. exists (addGot d s (GMsg want f) h). unfold hstep. rewrite HC, EL. fold st. rewrite EG. split; [reflexivity|].
    cbn. rewrite put_eq, upd_eq, EL. reflexivity.
  - intros f EL ER. pose proof (q_reach _ _ (hpair lim (sane_ok lim HS) h I) d) as RS. fold st in RS.
    destruct (reach_pq d st RS) as (SI & _). pose proof (i_r st SI) as RV. unfold rvalid in RV. rewrite ER in RV. destruct RV as [Hs _].
    pose proof (i_ok st SI s Hs) as OK. unfold sok in OK. rewrite ER in OK. cbn [rtagOf] in OK. rewrite at_eq in OK.
    assert (X : forall rel wv, forall x, sokx x rel TSend wv -> negb (chClosed x) = true) by (intros rel wv; brute_c). apply X in OK. apply negb_true_iff in OK.
    unfold hstep. rewrite HC. fold st. destruct (rlog h d s) as [|e el] eqn:EQ; [contradiction|]. rewrite OK, ER, N.eqb_refl.
    unfold pstep. fold st. unfold sstep. fold st in PN. rewrite PN. rewrite ER, OK. cbn [option_map]. eexists. split; [reflexivity|].
    cbn. rewrite put_eq, upd_eq, EQ. reflexivity.
Qed.
Print Assumptions C77_next_receive_partial.

(** A Sender that has begun has a request id of its own: no other Sender of either side uses it. *)
Theorem C77_own_id_partial :
  forall lim h c x c' x', sane lim -> reachable (hstep lim) hinit h ->
  streamWriter (cs h c x) = true -> streamWriter (cs h c' x') = true -> cid h c x = cid h c' x' -> c = c' /\ x = x'.
Proof.
  intros lim h c x c' x' HS R H1 H2 E. pose proof (reach_h lim (sane_ok lim HS) h R) as I.
  destruct (n_cs _ _ I c x H1) as [A _]. destruct (n_cs _ _ I c' x' H2) as [B _]. rewrite E, B in A. injection A. intros; subst. auto.
Qed.
Print Assumptions C77_own_id_partial.

(** The values: with an Unmarshal that undoes Marshal, a Receive with a cmd pointer stores the cmd and the value of the
    message sent at its place, on either side. *)
Theorem C77_values_partial :
  forall (M : Type) (Marshal : M -> bytes) (Unmarshal : bytes -> option M) lim h d s v,
  (forall m, Unmarshal (Marshal m) = Some m) ->
  sane lim -> reachable (hstep lim) hinit h -> chanOf h (negb d) s = Some v ->
  let i := sid (heap (ep (hp h) (negb d)) s) in
  well_used (hlog h d i) -> forall vals, msgs (hlog h d i) = map (fun cm => (fst cm, Marshal (snd cm))) vals ->
  forall k f, nth_error (taken (rlog h (negb d) s)) k = Some f ->
  exists cmd m, nth_error vals k = Some (cmd, m) /\
    decodeTo Unmarshal true (fCmd f, fPayload f) = RMsg (Some cmd) (Some m) /\ srDeliver Unmarshal true (fCmd f, fPayload f) = RMsg (Some cmd) (Some m).
Proof.
  intros M Ma Un lim h d s v HM HS R HC i HU vals EV k f EK.
  destruct (C77_in_order_partial lim h d s v HS R HC HU) as ((rest & E) & _). fold i in E. rewrite EV in E.
  assert (X : nth_error (map (fun cm => (fst cm, Ma (snd cm))) vals) k = Some (fCmd f, fPayload f)).
  { rewrite E. unfold received. rewrite nth_error_app1.
    - rewrite nth_error_map, EK. reflexivity.
    - rewrite map_length. apply nth_error_Some. congruence. }
  rewrite nth_error_map in X. destruct (nth_error vals k) as [[cmd m]|]; [|discriminate X]. injection X as X1 X2. exists cmd, m. split; [reflexivity|].
  unfold decodeTo, srDeliver. cbn [fst snd] in *. rewrite <- X1, <- X2, HM. auto.
Qed.
Print Assumptions C77_values_partial.

(** The client's Sender sends two messages and ends; the handler receives them and ErrStreamFinished, answers and returns;
    the client's Receiver gets the answer and ErrStreamFinished. *)
Definition dialogue : list hlabel :=
  HSend true 0 (OMsg 7 [1] false) :: loc true 2 LWStep ++ [HPair (PArrive false 100); HPair (PRead false)] ++ loc false 3 LRStep ++
  [HRecv false 0 true; HSend true 0 (OMsg 7 [2] false)] ++ loc true 2 LWStep ++ [HPair (PArrive false 100); HPair (PRead false)] ++ loc false 3 LRStep ++
  [HRecv false 0 true] ++ loc false 1 LRStep ++
  [HReply false 0 (OMsg 8 [3] false)] ++ loc false 2 LWStep ++ [HPair (PArrive true 100); HPair (PRead true)] ++ loc true 3 LRStep ++
  [HRecv true 0 true; HSend true 0 OEnd] ++ loc true 3 LWStep ++ [HPair (PArrive false 100); HPair (PRead false)] ++ loc false 4 LRStep ++
  [HRecv false 0 true; HPair (PLoc false (LHEnd 0)); HPair (PLoc false LWriteRst)] ++ loc false 7 LWStep ++ [HPair (PArrive true 100); HPair (PRead true)] ++ loc true 4 LRStep ++
  [HRecv true 0 true].
Example C77_case :
  match run (hstep (fun _ => 0%Z)) hinit dialogue with
  | Some h => chanOf h false 0 = Some (true, 0) /\ sid (heap (ep (hp h) false) 0) = 3 /\ chanOf h true 0 = Some (true, 0) /\ sid (heap (ep (hp h) true) 0) = 3 /\
      streamWriter (cs h true 0) = true /\ cid h true 0 = 3 /\
      msgs (hlog h true 3) = [(7, [1]); (7, [2])] /\ received (rlog h false 0) = [(7, [1]); (7, [2])] /\ In GFin (rlog h false 0) /\
      msgs (hlog h false 3) = [(8, [3])] /\ received (rlog h true 0) = [(8, [3])] /\ In GFin (rlog h true 0)
  | None => False
  end.
Proof. vm_compute. repeat split; auto. Qed.
