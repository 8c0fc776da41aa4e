(** The invariant of the stream machine and its preservation. *)
From Coq Require Import ZifyBool ZifyNat ZifyN.
From Verif Require Import Model.GoBase Model.Machine Model.Qrpc Model.FrameReader Model.Stream Proofs.StreamP.
Open Scope N_scope.

Arguments sokx : simpl never.
Arguments IsRst : simpl never.
Arguments IsDone : simpl never.
Arguments IsPush : simpl never.
Arguments isRel : simpl never.
Arguments N.eqb : simpl never.
Arguments N.ltb : simpl never.

Definition keyOf (f : Frame) : bool * N := (IsPush (fFlags f), fRequestID f).
Definition skey (x : strm) : bool * N := (spush x, sid x).
Definition isRstF (f : Frame) : bool := IsRst (fFlags f).

(** a reset followed, later, by an ordinary frame of the same stream *)
Definition badlog (l : list Frame) : Prop :=
  exists a g b f c, l = a ++ g :: b ++ f :: c /\ isRstF g = true /\ isRstF f = false /\ keyOf g = keyOf f.

Definition rvalid (st : sst) : Prop :=
  match rpc st with
  | RIdle | RExit => True
  | RRst f => exists a, inlog st = a ++ [f] /\ isRstF f = true
  | RRbp1 s | RRbp2 s | RRbp3 s => s < next st /\ exists a f, inlog st = a ++ [f] /\ isRstF f = true /\ keyOf f = skey (heap st s)
  | RGet f => exists a, inlog st = a ++ [f] /\ isRstF f = false
  | RBind f s | RCl1 f s _ | RAddIn f s | RSend f s | RWait f s =>
      s < next st /\ keyOf f = skey (heap st s) /\ exists a, inlog st = a ++ [f] /\ isRstF f = false
  | RCl2 s _ | RCl3 s _ | RCl4 s _ | RAd1 s _ | RAd2 s _ | RAd3 s _ | RAd4 s _ =>
      s < next st /\ exists a f, inlog st = a ++ [f] /\ isRstF f = false /\ keyOf f = skey (heap st s)
  end.

Definition wvalid (st : sst) : Prop :=
  match wpc st with
  | WIdle | WExit | WLook _ _ _ => True
  | WR1 s fl | WR2 s fl _ => (s < next st /\ spush (heap st s) = IsPush fl) /\ IsRst fl = true
  | WN1 s fl => (s < next st /\ spush (heap st s) = IsPush fl) /\ IsRst fl = false
  | WN2 s fl | WN3 s fl => (s < next st /\ spush (heap st s) = IsPush fl) /\ IsRst fl = false /\ IsDone fl = true
  | WAd1 s fl _ | WAd2 s fl _ | WAd3 s fl _ | WAd4 s fl _ => (s < next st /\ spush (heap st s) = IsPush fl) /\ IsDone fl = true
  end.

(** after an ending frame only resets *)
Definition outOK (l : list FrameFlag) : Prop :=
  forall a fl b, l = a ++ fl :: b -> IsDone fl = true -> Forall (fun g => IsRst g = true) b.

(** outgoing frames accounted to stream s *)
Fixpoint outOf (l : list (N * FrameFlag * wres)) (s : N) : list FrameFlag :=
  match l with
  | [] => []
  | (_, fl, WSent (Some s')) :: l => if N.eqb s' s then fl :: outOf l s else outOf l s
  | _ :: l => outOf l s
  end.

Record SInv (st : sst) : Prop := {
  i_ok : forall s, s < next st -> sok st s;
  i_t1 : forall p id s, tbl st p id = Some s -> s < next st /\ skey (heap st s) = (p, id) /\ notified (heap st s) = 0%nat;
  i_t2 : forall s, s < next st -> notified (heap st s) = 0%nat -> tbl st (spush (heap st s)) (sid (heap st s)) = Some s;
  i_r : rvalid st;
  i_w : wvalid st;
  i_q : forall s, In s (rstq st) -> s < next st /\ spush (heap st s) = false;
  i_rs : forall s, s < next st -> rstd (heap st s) = true -> exists g, In g (inlog st) /\ isRstF g = true /\ keyOf g = skey (heap st s);
  i_pan : panicked st = true -> badlog (inlog st);
  i_o : forall s, s < next st -> outOK (out (heap st s));
  i_wl : forall s, s < next st -> out (heap st s) = outOf (wlog st) s;
  i_wl2 : forall id fl s, In (id, fl, WSent (Some s)) (wlog st) -> s < next st /\ skey (heap st s) = (IsPush fl, id);
  i_h : forall s, s < next st -> hEnded (heap st s) = true ->
        spush (heap st s) = false /\
        (closedSelf (heap st s) = false -> In s (rstq st) \/ (exists ce, wpc st = WLook (sid (heap st s)) StreamRstFlag ce) \/
           (exists fl, wpc st = WR1 s fl));
}.

Lemma outOf_app : forall a b s, outOf (a ++ b) s = outOf a s ++ outOf b s.
Proof.
  induction a as [|[[id fl] r] a IH]; intros b s; [reflexivity|]. cbn. destruct r as [[s'|]| | | |]; try apply IH.
  destruct (N.eqb s' s); [cbn; f_equal|]; apply IH.
Qed.

(** case analysis on an executed step *)
Ltac dmatch E :=
  match type of E with
  | context [match ?x with _ => _ end] =>
    match x with
    | context [match _ with _ => _ end] => fail 1
    | _ => destruct x eqn:?; try discriminate E
    end
  end.
Ltac steps E :=
  repeat dmatch E;
  repeat match type of E with Some _ = Some _ => injection E as E end;
  try match type of E with ?x = ?y => is_var y; subst y end.

Lemma at_eq : forall A s (t e : A), (if N.eqb s s then t else e) = t.
Proof. intros. rewrite N.eqb_refl. reflexivity. Qed.
Lemma at_neq : forall A s s' (t e : A), s' <> s -> (if N.eqb s s' then t else e) = e.
Proof. intros. destruct (N.eqb_spec s s'); [congruence|reflexivity]. Qed.

Lemma isRel_false_r : forall st, rpc st <> RExit -> isRel st = false.
Proof. intros st H. unfold isRel. destruct (rpc st); try reflexivity. congruence. Qed.
Lemma isRel_false_w : forall st, wpc st <> WExit -> isRel st = false.
Proof. intros st H. unfold isRel. destruct (rpc st); try reflexivity. destruct (wpc st); try reflexivity. congruence. Qed.

Ltac conc H := cbn -[sokb hasDone IsRst IsDone IsPush] in H.

Section Pres.
  Variable isClient : bool.

  (** generic frame: only stream [s0]'s record and the tags of [s0] change *)
  Lemma ok_frame : forall st st' s0,
    (forall s, s < next st -> sok st s) -> next st' = next st -> isRel st' = isRel st ->
    (forall s, s <> s0 -> heap st' s = heap st s /\ rtagOf (rpc st') s = rtagOf (rpc st) s /\ wtagOf (wpc st') s = wtagOf (wpc st) s) ->
    (s0 < next st -> sok st' s0) ->
    forall s, s < next st' -> sok st' s.
  Proof.
    intros st st' s0 H Hn Hr Hf H0 s Hs. rewrite Hn in Hs. destruct (N.eq_dec s s0) as [->|Hne]; [apply H0; assumption|].
    destruct (Hf s Hne) as (A & B & C). unfold sok. rewrite A, B, C, Hr. apply H; assumption.
  Qed.

  Lemma rstep_ok : forall st st', SInv st -> rstep st = Some st' -> forall s, s < next st' -> sok st' s.
  Proof.
    intros st st' I E. pose proof (i_ok st I) as OK. pose proof (i_r st I) as RV.
    unfold rstep in E. unfold rvalid in RV. unfold createOrGet in E.
    destruct (rpc st) eqn:ER; try discriminate E; steps E.
    all: try (apply ok_frame with (st := st) (s0 := s);
      [assumption|reflexivity|unfold isRel; cbn; rewrite ER; reflexivity
      |intros s1 Hne; cbn; rewrite ER; cbn; rewrite ?upd_neq by assumption; rewrite ?at_neq by assumption; auto
      |intro Hs; specialize (OK s Hs); unfold sok in *; cbn in *; rewrite ER in OK; rewrite ?upd_eq; cbn in OK |- *;
       rewrite ?at_eq in *; assert (HRel : isRel st = false) by (apply isRel_false_r; rewrite ER; discriminate);
       rewrite HRel in OK; try (unfold isRel; cbn)]).
    all: try (rewrite ER; cbn; rewrite ?at_eq; exact OK).
    all: try (with_strategy opaque [sokx] solve [eauto using t_rbp1b, t_rbp1c, t_rbp2, t_rbp3, t_bind1, t_bind2, t_cl1c, t_cl1d, t_cl2, t_cl3, t_cl4a, t_cl4b,
      t_rad1a, t_rad1b, t_rad2, t_rad3, t_rad4, t_addin1, t_addin2, t_wait]).
    - (* RRst, found *)
      destruct (i_t1 st I _ _ _ Heqo) as (Hn & _).
      apply ok_frame with (st := st) (s0 := n); [assumption|reflexivity| | |].
      + rewrite !isRel_false_r; [reflexivity|rewrite ER; discriminate|discriminate].
      + intros s1 Hne. cbn. rewrite ER. cbn. rewrite at_neq by assumption. auto.
      + intros _. specialize (OK n Hn). unfold sok in *. cbn. rewrite at_eq. rewrite isRel_false_r by discriminate.
        rewrite isRel_false_r in OK by (rewrite ER; discriminate). rewrite ER in OK. apply t_rbp1a. exact OK.
    - apply ok_frame with (st := st) (s0 := next st); [assumption|reflexivity| | |].
      + rewrite !isRel_false_r; [reflexivity|rewrite ER; discriminate|discriminate].
      + intros s1 Hne. cbn. rewrite ER. auto.
      + lia.
    - (* RGet, found *)
      destruct (i_t1 st I _ _ _ Heqo) as (Hn & _).
      apply ok_frame with (st := st) (s0 := n); [assumption|reflexivity| | |].
      + rewrite !isRel_false_r; [reflexivity|rewrite ER; discriminate|discriminate].
      + intros s1 Hne. cbn. rewrite ER. cbn. rewrite at_neq by assumption. auto.
      + intros _. specialize (OK n Hn). unfold sok in *. cbn. rewrite at_eq. rewrite isRel_false_r by discriminate.
        rewrite isRel_false_r in OK by (rewrite ER; discriminate). rewrite ER in OK. apply t_bind0. exact OK.
    - (* RGet, created *)
      intros s Hs. cbn in Hs. assert (HW : s = next st -> wtagOf (wpc st) s = W0).
      { intros ->. pose proof (i_w st I) as WV. unfold wvalid in WV. destruct (wpc st); cbn; try reflexivity;
          destruct WV as [[WV _] _]; rewrite at_neq by lia; reflexivity. }
      unfold sok. cbn. rewrite isRel_false_r by discriminate. destruct (N.eq_dec s (next st)) as [->|Hne].
      + rewrite upd_eq, at_eq, HW by reflexivity. apply t_new.
      + rewrite upd_neq, at_neq by assumption. specialize (OK s ltac:(lia)). unfold sok in OK. rewrite ER in OK. cbn in OK.
        rewrite isRel_false_r in OK by (rewrite ER; discriminate). exact OK.
    - apply t_cl1a; [|exact OK]. destruct RV as (_ & HK & _). unfold keyOf, skey in HK. congruence.
    - apply t_cl1b; [|exact OK]. destruct RV as (_ & HK & _). unfold keyOf, skey in HK. congruence.
  Qed.

  Lemma rst_done : forall fl, IsRst fl = true -> IsDone fl = true.
  Proof. intros fl H. unfold IsDone. unfold IsRst in H. rewrite H. rewrite orb_true_r. reflexivity. Qed.

  Lemma lookup_ok : forall st n p, SInv st -> n < next st -> wpc st <> WExit -> p <> WExit ->
    (forall s, s <> n -> wtagOf p s = wtagOf (wpc st) s) ->
    (sokx (heap st n) false (rtagOf (rpc st) n) (wtagOf (wpc st) n) -> sokx (heap st n) false (rtagOf (rpc st) n) (wtagOf p n)) ->
    forall s, s < next (w_wpc p st) -> sok (w_wpc p st) s.
  Proof.
    intros st n p I Hn H1 H2 H3 H4. pose proof (i_ok st I) as OK.
    apply ok_frame with (st := st) (s0 := n); [assumption|reflexivity| | |].
    - rewrite !isRel_false_w; [reflexivity|assumption|assumption].
    - intros s Hne. cbn. rewrite H3 by assumption. auto.
    - intros _. specialize (OK n Hn). unfold sok in *. cbn. rewrite isRel_false_w by assumption.
      rewrite isRel_false_w in OK by assumption. auto.
  Qed.

  Lemma wstep_ok : forall st st', SInv st -> wstep st = Some st' -> forall s, s < next st' -> sok st' s.
  Proof.
    intros st st' I E. pose proof (i_ok st I) as OK. pose proof (i_w st I) as WV.
    unfold wstep in E. unfold wvalid in WV. unfold createOrGet, wfin in E.
    destruct (wpc st) eqn:EW; try discriminate E; steps E.
    all: try (apply ok_frame with (st := st) (s0 := s);
      [assumption|reflexivity
      |rewrite !isRel_false_w; [reflexivity|rewrite EW; discriminate|cbn; rewrite ?EW; discriminate]
      |intros s1 Hne; cbn; rewrite EW; cbn; rewrite ?upd_neq by assumption; rewrite ?at_neq by assumption; auto
      |intro Hs; specialize (OK s Hs); unfold sok in *; cbn in *; rewrite EW in OK; rewrite ?upd_eq; cbn in OK |- *;
       rewrite ?upd_eq; cbn in OK |- *;
       rewrite ?at_eq in *;
       match goal with |- context [isRel ?st'] => rewrite (isRel_false_w st') by (cbn; rewrite ?EW; discriminate) end;
       rewrite isRel_false_w in OK by (rewrite EW; discriminate)]).
    all: try (rewrite EW; cbn; rewrite ?at_eq; exact OK).
    all: try (with_strategy opaque [sokx] solve [eauto using w_r1, w_n1b, w_n1c, w_n1d, w_n2, w_ad1b, w_ad2, w_ad3, w_ad1a', w_ad4b]).
    all: try (with_strategy opaque [sokx] solve [apply ok_frame with (st := st) (s0 := next st); [assumption|reflexivity
        |rewrite !isRel_false_w; [reflexivity|rewrite EW; discriminate|discriminate]
        |intros s1 Hne; cbn; rewrite EW; auto
        |lia]]).
    - destruct (i_t1 st I _ _ _ Heqo) as (Hn & _). apply (lookup_ok st n (WR1 n fl)); auto; cbn.
      + rewrite EW; discriminate.
      + discriminate.
      + intros s Hne. rewrite EW. cbn. rewrite at_neq by assumption. reflexivity.
      + rewrite at_eq. intros HH. apply w_r1a. rewrite EW in HH. exact HH.
    - destruct (i_t1 st I _ _ _ Heqo) as (Hn & HK & _). apply (lookup_ok st n (WN1 n fl)); auto; cbn.
      + rewrite EW; discriminate.
      + discriminate.
      + intros s Hne. rewrite EW. cbn. rewrite at_neq by assumption. reflexivity.
      + rewrite at_eq. intros HH. apply w_n1a; [unfold skey in HK; congruence|]. rewrite EW in HH. exact HH.
    - destruct (i_t1 st I _ _ _ Heqo) as (Hn & HK & _). apply (lookup_ok st n (WN1 n fl)); auto; cbn.
      + rewrite EW; discriminate.
      + discriminate.
      + intros s Hne. rewrite EW. cbn. rewrite at_neq by assumption. reflexivity.
      + rewrite at_eq. intros HH. apply w_n1a; [unfold skey in HK; congruence|]. rewrite EW in HH. exact HH.
    - intros s Hs. cbn in Hs. assert (HR : s = next st -> rtagOf (rpc st) s = R0).
      { intros ->. pose proof (i_r st I) as RV. unfold rvalid in RV. destruct (rpc st); cbn; try reflexivity;
          destruct RV as [RV _]; rewrite at_neq by lia; reflexivity. }
      unfold sok. cbn. rewrite isRel_false_w by discriminate. destruct (N.eq_dec s (next st)) as [->|Hne].
      + rewrite upd_eq, at_eq, HR by reflexivity. apply t_new. reflexivity.
      + rewrite upd_neq, at_neq by assumption. specialize (OK s ltac:(lia)). unfold sok in OK. rewrite EW in OK. cbn in OK.
        rewrite isRel_false_w in OK by (rewrite EW; discriminate). exact OK.
    - destruct WV as [_ WV]. rewrite WV. apply w_r2a; assumption.
    - destruct WV as [_ WV]. eapply w_r2b; [assumption|apply rst_done; assumption|exact OK].
    - destruct WV as (_ & WV & _). rewrite WV. apply w_n3a; assumption.
    - destruct WV as (_ & _ & WV). apply w_n3b; assumption.
    - destruct WV as [_ WV]. eapply w_ad1a; eassumption.
    - destruct WV as [_ WV]. eapply w_ad4a; eassumption.
  Qed.

  Lemma isRel_true : forall st, isRel st = true -> rpc st = RExit /\ wpc st = WExit.
  Proof. intros st H. unfold isRel in H. destruct (rpc st), (wpc st); try discriminate; auto. Qed.

  Lemma rel_mono : forall st st', (forall s, s < next st -> sok st s) -> next st' = next st ->
    (isRel st = true -> isRel st' = true) ->
    (forall s, heap st' s = heap st s /\ rtagOf (rpc st') s = rtagOf (rpc st) s /\ wtagOf (wpc st') s = wtagOf (wpc st) s) ->
    forall s, s < next st' -> sok st' s.
  Proof.
    intros st st' OK Hn Hr Hf s Hs. rewrite Hn in Hs. specialize (OK s Hs). unfold sok in *. destruct (Hf s) as (A & B & C).
    rewrite A, B, C. destruct (isRel st), (isRel st'); auto.
    - specialize (Hr eq_refl). discriminate.
    - apply t_rel. assumption.
  Qed.

  Lemma sstep_ok : forall st l st', SInv st -> sstep isClient st l = Some st' -> forall s, s < next st' -> sok st' s.
  Proof.
    intros st l st' I E. pose proof (i_ok st I) as OK. unfold sstep in E.
    destruct (panicked st) eqn:EPan; [discriminate|].
    destruct l as [f| | | | |id fl ce| | | | |s0| |s0].
    - destruct (rpc st) eqn:ER; try discriminate E. injection E as <-.
      apply rel_mono with (st := st); [assumption|reflexivity| |].
      + intro H. apply isRel_true in H. destruct H; congruence.
      + intro s. cbn. rewrite ER. destruct (IsRst (fFlags f)); auto.
    - eapply rstep_ok; eassumption.
    - destruct (rpc st) eqn:ER; try discriminate E.
      pose proof (i_r st I) as RV. unfold rvalid in RV. rewrite ER in RV. destruct RV as (Hs & _).
      assert (Hrel : isRel st = false) by (apply isRel_false_r; rewrite ER; discriminate).
      steps E.
      + apply rel_mono with (st := st); [assumption|reflexivity|auto|intros; auto].
      + apply ok_frame with (st := st) (s0 := s); [assumption|reflexivity| | |].
        * rewrite Hrel. apply isRel_false_r. discriminate.
        * intros s1 Hne. cbn. rewrite ER. cbn. rewrite upd_neq, !at_neq by assumption. auto.
        * intros _. specialize (OK s Hs). unfold sok in *. rewrite Hrel, ER in OK. cbn in OK |- *. rewrite at_eq in *. rewrite upd_eq.
          rewrite isRel_false_r by discriminate. apply t_deliver. assumption.
    - destruct (rpc st) eqn:ER; try discriminate E.
      pose proof (i_r st I) as RV. unfold rvalid in RV. rewrite ER in RV. destruct RV as (Hs & _).
      assert (Hrel : isRel st = false) by (apply isRel_false_r; rewrite ER; discriminate).
      steps E. apply ok_frame with (st := st) (s0 := s); [assumption|reflexivity| | |].
      + rewrite Hrel. apply isRel_false_r. discriminate.
      + intros s1 Hne. cbn. rewrite ER. cbn. rewrite !at_neq by assumption. auto.
      + intros _. specialize (OK s Hs). unfold sok in *. rewrite Hrel, ER in OK. cbn in OK |- *. rewrite at_eq in *.
          rewrite isRel_false_r by discriminate. apply t_ctx. assumption.
    - destruct (rpc st) eqn:ER; try discriminate E. injection E as <-.
      apply rel_mono with (st := st); [assumption|reflexivity| |].
      + intro H. apply isRel_true in H. destruct H; congruence.
      + intro s. cbn. rewrite ER. auto.
    - destruct (wpc st) eqn:EW; try discriminate E. injection E as <-.
      apply rel_mono with (st := st); [assumption|reflexivity| |].
      + intro H. apply isRel_true in H. destruct H; congruence.
      + intro s. cbn. rewrite EW. auto.
    - destruct (wpc st) eqn:EW; try discriminate E. destruct (rstq st) as [|s0 q]; [discriminate|]. injection E as <-.
      apply rel_mono with (st := st); [assumption|reflexivity| |].
      + intro H. apply isRel_true in H. destruct H; congruence.
      + intro s. cbn. rewrite EW. auto.
    - eapply wstep_ok; eassumption.
    - destruct (wpc st) eqn:EW; try discriminate E. injection E as <-.
      apply rel_mono with (st := st); [assumption|reflexivity|auto|]. intro s. cbn. auto.
    - destruct (wpc st) eqn:EW; try discriminate E. injection E as <-.
      apply rel_mono with (st := st); [assumption|reflexivity| |].
      + intro H. apply isRel_true in H. destruct H; congruence.
      + intro s. cbn. rewrite EW. auto.
    - destruct ((s0 <? next st) && binded (heap st s0) && negb (hEnded (heap st s0)) && negb (spush (heap st s0))) eqn:EC; [|discriminate].
      injection E as <-.
      assert (forall st1, st1 = modS s0 (set_hEnded true) st -> forall s, s < next st1 -> sok st1 s).
      { intros st1 -> s Hs. specialize (OK s Hs). unfold sok in *. cbn. destruct (N.eq_dec s s0) as [->|Hne];
          [rewrite upd_eq|rewrite upd_neq by assumption]; exact OK. }
      destruct (closedSelf (heap st s0)); [eapply H; reflexivity|].
      intros s Hs. apply (H _ eq_refl s Hs).
    - injection E as <-. apply rel_mono with (st := st); [assumption|reflexivity|auto|auto].
    - destruct (rpc st) eqn:ER; try discriminate E. destruct (wpc st) eqn:EW; try discriminate E.
      destruct (tbl st (spush (heap st s0)) (sid (heap st s0))) as [s1|] eqn:ET; [|discriminate].
      destruct (N.eqb_spec s1 s0); [|discriminate]. subst s1. injection E as <-.
      destruct (i_t1 st I _ _ _ ET) as (Hs0 & _).
      assert (Hrel : isRel st = true) by (unfold isRel; rewrite ER, EW; reflexivity).
      unfold relStream. destruct (fullClosed (heap st s0)) eqn:EF.
      + apply ok_frame with (st := st) (s0 := s0); [assumption|reflexivity| | |].
        * unfold isRel. cbn. rewrite ER, EW. reflexivity.
        * intros s Hne. cbn. rewrite upd_neq by assumption. auto.
        * intros _. specialize (OK s0 Hs0). unfold sok in *. rewrite Hrel, ER, EW in OK. cbn in *. rewrite upd_eq, ER, EW.
          change (isRel (modS s0 (fun x => set_cancelled true (set_chClosed true (set_closedPeer true x))) st)) with (isRel st).
          rewrite Hrel. apply t_release1; assumption.
      + apply ok_frame with (st := st) (s0 := s0); [assumption|reflexivity| | |].
        * unfold isRel. cbn. rewrite ER, EW. reflexivity.
        * intros s Hne. cbn. rewrite !upd_neq by assumption. auto.
        * intros _. specialize (OK s0 Hs0). unfold sok in *. rewrite Hrel, ER, EW in OK. cbn in *. rewrite !upd_eq, ER, EW. cbn.
          assert (X : forall st2, rpc st2 = RExit -> wpc st2 = WExit -> isRel st2 = true) by (intros st2 X1 X2; unfold isRel; rewrite X1, X2; reflexivity).
          rewrite X by (cbn; assumption). apply t_release2; assumption.
  Qed.

  (** *** tables *)
  Definition tsame (st st' : sst) : Prop :=
    tbl st' = tbl st /\ next st' = next st /\
    forall s, skey (heap st' s) = skey (heap st s) /\ notified (heap st' s) = notified (heap st s).
  Definition tcreate (st st' : sst) : Prop := exists p id,
    tbl st p id = None /\ tbl st' = tset (tbl st) p id (Some (next st)) /\ next st' = next st + 1 /\
    heap st' = upd (heap st) (next st) (newStream id p).
  Definition tnotify (st st' : sst) : Prop := exists s,
    s < next st /\ notified (heap st s) = 0%nat /\ tbl st' = tset (tbl st) (spush (heap st s)) (sid (heap st s)) None /\
    next st' = next st /\ notified (heap st' s) = 1%nat /\ skey (heap st' s) = skey (heap st s) /\
    forall s', s' <> s -> heap st' s' = heap st s'.

  Lemma phase3_r : forall x rel wv, sokx x rel TRAd3 wv -> notified x = 0%nat.
  Proof. intros x rel wv H. apply Nat.eqb_eq. revert x H. brute_c. Qed.
  Lemma phase3_w : forall x rel rv a r, sokx x rel rv (TAd3 a r) -> notified x = 0%nat.
  Proof. intros x rel rv a r H. apply Nat.eqb_eq. revert x H. brute_c. Qed.

  Ltac upd_tac z :=
    cbn; repeat (match goal with |- context [upd _ ?y _ z] => destruct (N.eq_dec z y); [subst z; rewrite ?upd_eq|rewrite ?upd_neq by assumption] end; cbn; rewrite ?upd_eq; cbn).
  Ltac tsame_tac :=
    left; split; [reflexivity|split; [reflexivity|let z := fresh "z" in intro z; upd_tac z; auto]].

  Lemma sstep_tbl : forall st l st', SInv st -> sstep isClient st l = Some st' -> tsame st st' \/ tcreate st st' \/ tnotify st st'.
  Proof.
    intros st l st' I E. pose proof (i_ok st I) as OK. pose proof (i_r st I) as RV. pose proof (i_w st I) as WV.
    unfold sstep in E. destruct (panicked st); [discriminate|].
    destruct l as [f| | | | |id fl ce| | | | |s0| |s0].
    - steps E; tsame_tac.
    - unfold rstep, createOrGet in E. unfold rvalid in RV. destruct (rpc st) eqn:ER; try discriminate E; steps E; try (solve [tsame_tac]).
      + right; left. do 2 eexists. repeat split; eassumption.
      + right; right. exists s. destruct RV as [Hs _]. assert (Hn : notified (heap st s) = 0%nat).
        { specialize (OK s Hs). unfold sok in OK. rewrite ER in OK. cbn in OK. rewrite at_eq in OK. eapply phase3_r; eassumption. }
        cbn. rewrite upd_eq. cbn. rewrite Hn. repeat split; auto. intros s' Hne. rewrite upd_neq by assumption. reflexivity.
    - steps E; tsame_tac.
    - steps E; tsame_tac.
    - steps E; tsame_tac.
    - steps E; tsame_tac.
    - steps E; tsame_tac.
    - unfold wstep, createOrGet, wfin in E. unfold wvalid in WV. destruct (wpc st) eqn:EW; try discriminate E; steps E; try (solve [tsame_tac]).
      + right; left. do 2 eexists. repeat split; eassumption.
      + right; right. exists s. destruct WV as [[Hs _] _]. assert (Hn : notified (heap st s) = 0%nat).
        { specialize (OK s Hs). unfold sok in OK. rewrite EW in OK. cbn in OK. rewrite at_eq in OK. eapply phase3_w; eassumption. }
        cbn. rewrite upd_eq. cbn. rewrite Hn. repeat split; auto. intros s' Hne. rewrite upd_neq by assumption. reflexivity.
    - steps E; tsame_tac.
    - steps E; tsame_tac.
    - destruct ((s0 <? next st) && binded (heap st s0) && negb (hEnded (heap st s0)) && negb (spush (heap st s0))); [|discriminate].
      injection E as <-. destruct (closedSelf (heap st s0)); tsame_tac.
    - steps E; tsame_tac.
    - destruct (rpc st) eqn:ER; try discriminate E. destruct (wpc st) eqn:EW; try discriminate E.
      destruct (tbl st (spush (heap st s0)) (sid (heap st s0))) as [s1|] eqn:ET; [|discriminate].
      destruct (N.eqb_spec s1 s0); [|discriminate]. subst s1. injection E as <-.
      destruct (i_t1 st I _ _ _ ET) as (Hs0 & _ & Hn0). unfold relStream. destruct (fullClosed (heap st s0)) eqn:EF.
      + tsame_tac.
      + right; right. exists s0. cbn. rewrite !upd_eq. cbn. rewrite Hn0. repeat split; auto.
        intros s' Hne. rewrite !upd_neq by assumption. reflexivity.
  Qed.

  Lemma tset_eq : forall t p id v, tset t p id v p id = v.
  Proof. intros. unfold tset. rewrite eqb_reflx. apply upd_eq. Qed.
  Lemma tset_neq : forall t p id v p' id', (p', id') <> (p, id) -> tset t p id v p' id' = t p' id'.
  Proof.
    intros t p id v p' id' H. unfold tset. destruct (Bool.eqb p' p) eqn:E; [|reflexivity].
    apply eqb_prop in E. subst p'. apply upd_neq. congruence.
  Qed.
  Lemma pdec : forall a b : bool * N, {a = b} + {a <> b}.
  Proof. intros [p i] [p' i']. destruct (Bool.bool_dec p p'), (N.eq_dec i i'); subst; auto; right; congruence. Qed.

  Lemma sstep_t1 : forall st l st', SInv st -> sstep isClient st l = Some st' ->
    forall p id s, tbl st' p id = Some s -> s < next st' /\ skey (heap st' s) = (p, id) /\ notified (heap st' s) = 0%nat.
  Proof.
    intros st l st' I E p id s HT. destruct (sstep_tbl st l st' I E) as [(A & B & C)|[(p0 & id0 & A & B & C & D)|(s0 & H1 & H2 & H3 & H4 & H5 & H6 & H7)]].
    - rewrite A in HT. destruct (i_t1 st I _ _ _ HT) as (X & Y & Z). destruct (C s) as [C1 C2]. rewrite B, C1, C2. auto.
    - rewrite B in HT. rewrite C, D. destruct (pdec (p, id) (p0, id0)) as [X|X].
      + inversion X; subst. rewrite tset_eq in HT. inversion HT; subst. rewrite upd_eq. repeat split; lia.
      + rewrite tset_neq in HT by assumption. destruct (i_t1 st I _ _ _ HT) as (X1 & Y & Z). rewrite upd_neq by lia. repeat split; auto; lia.
    - rewrite H3 in HT. destruct (pdec (p, id) (skey (heap st s0))) as [X|X].
      + unfold skey in X. inversion X; subst. rewrite tset_eq in HT. discriminate.
      + rewrite tset_neq in HT by assumption. destruct (i_t1 st I _ _ _ HT) as (X1 & Y & Z). rewrite H4.
        assert (s <> s0) by (intros ->; congruence). rewrite H7 by assumption. auto.
  Qed.

  Lemma sstep_t2 : forall st l st', SInv st -> sstep isClient st l = Some st' ->
    forall s, s < next st' -> notified (heap st' s) = 0%nat -> tbl st' (spush (heap st' s)) (sid (heap st' s)) = Some s.
  Proof.
    intros st l st' I E s Hs Hn. destruct (sstep_tbl st l st' I E) as [(A & B & C)|[(p0 & id0 & A & B & C & D)|(s0 & H1 & H2 & H3 & H4 & H5 & H6 & H7)]].
    - destruct (C s) as [C1 C2]. unfold skey in C1. inversion C1 as [[C3 C4]]. rewrite A, C3, C4. rewrite B in Hs. rewrite C2 in Hn.
      apply (i_t2 st I); assumption.
    - rewrite B, D in *. destruct (N.eq_dec s (next st)) as [->|Hne].
      + rewrite upd_eq. cbn. apply tset_eq.
      + rewrite upd_neq in * by assumption. rewrite C in Hs. pose proof (i_t2 st I s ltac:(lia) Hn) as X.
        rewrite tset_neq; [assumption|]. intros Y. inversion Y as [[Y1 Y2]]. rewrite Y1, Y2 in X. congruence.
    - assert (s <> s0) by (intros ->; congruence). rewrite H7 in * by assumption. rewrite H4 in Hs.
      pose proof (i_t2 st I s Hs Hn) as X. rewrite H3. rewrite tset_neq; [assumption|].
      intros Y. inversion Y as [[Y1 Y2]]. rewrite Y1, Y2 in X. rewrite (i_t2 st I s0 H1 H2) in X. congruence.
  Qed.

  (** keys never change *)
  Lemma sstep_key : forall st l st', SInv st -> sstep isClient st l = Some st' ->
    next st <= next st' /\ forall s, s < next st -> skey (heap st' s) = skey (heap st s).
  Proof.
    intros st l st' I E. destruct (sstep_tbl st l st' I E) as [(A & B & C)|[(p0 & id0 & A & B & C & D)|(s0 & H1 & H2 & H3 & H4 & H5 & H6 & H7)]].
    - split; [lia|]. intros s _. apply C.
    - split; [lia|]. intros s Hs. rewrite D, upd_neq by lia. reflexivity.
    - split; [lia|]. intros s _. destruct (N.eq_dec s s0) as [->|Hne]; [assumption|]. rewrite H7 by assumption. reflexivity.
  Qed.

  (** *** program counters *)
  Lemma rvalid_frame : forall st st', rvalid st -> rpc st' = rpc st -> inlog st' = inlog st -> next st <= next st' ->
    (forall s, s < next st -> skey (heap st' s) = skey (heap st s)) -> rvalid st'.
  Proof.
    intros st st' RV E1 E2 Hn HK. unfold rvalid in *. rewrite E1, E2. destruct (rpc st); auto;
      destruct RV as (A & B); (split; [lia|]); rewrite HK by assumption; assumption.
  Qed.
  Lemma wvalid_frame : forall st st', wvalid st -> wpc st' = wpc st -> next st <= next st' ->
    (forall s, s < next st -> skey (heap st' s) = skey (heap st s)) -> wvalid st'.
  Proof.
    intros st st' WV E1 Hn HK. unfold wvalid in *. rewrite E1. destruct (wpc st); auto;
      destruct WV as ((A & A') & B); specialize (HK _ A); unfold skey in HK; inversion HK as [[K1 K2]];
      (split; [split; [lia|congruence]|]); assumption.
  Qed.

  Lemma sstep_r : forall st l st', SInv st -> sstep isClient st l = Some st' -> rvalid st'.
  Proof.
    intros st l st' I E. destruct (sstep_key st l st' I E) as [Hn HK]. pose proof (i_r st I) as RV.
    unfold sstep in E. destruct (panicked st); [discriminate|].
    destruct l as [f| | | | |id fl ce| | | | |s0| |s0].
    - destruct (rpc st) eqn:ER; try discriminate E. injection E as <-. unfold rvalid. cbn.
      destruct (IsRst (fFlags f)) eqn:EF; exists (inlog st); auto.
    - unfold rstep, createOrGet in E. destruct (rpc st) eqn:ER; try discriminate E; unfold rvalid in RV; rewrite ER in RV; steps E;
        unfold rvalid; cbn in *; try rewrite ER; try exact Logic.I;
        try (destruct RV as (Hs & RV); rewrite ?(HK _ Hs); split; [assumption|]; firstorder; fail).
      + destruct (i_t1 st I _ _ _ Heqo) as (X & Y & _). split; [assumption|]. destruct RV as (a & R1 & R2). exists a, f. rewrite Y. auto.
      + destruct (i_t1 st I _ _ _ Heqo) as (X & Y & _). split; [assumption|]. rewrite Y. split; [reflexivity|assumption].
      + rewrite upd_eq. split; [lia|]. split; [reflexivity|assumption].
    - destruct (rpc st) eqn:ER; try discriminate E; unfold rvalid in RV; rewrite ER in RV. steps E; unfold rvalid; cbn in *; rewrite ?ER;
        destruct RV as (Hs & RV); rewrite ?(HK _ Hs); split; assumption.
    - destruct (rpc st) eqn:ER; try discriminate E; unfold rvalid in RV; rewrite ER in RV. steps E; unfold rvalid; cbn in *; rewrite ?ER;
        destruct RV as (Hs & RV); rewrite ?(HK _ Hs); split; assumption.
    - steps E. exact Logic.I.
    - apply rvalid_frame with (st := st); auto; steps E; reflexivity.
    - apply rvalid_frame with (st := st); auto; steps E; reflexivity.
    - apply rvalid_frame with (st := st); auto; unfold wstep, createOrGet, wfin in E; steps E; reflexivity.
    - apply rvalid_frame with (st := st); auto; steps E; reflexivity.
    - apply rvalid_frame with (st := st); auto; steps E; reflexivity.
    - apply rvalid_frame with (st := st); auto;
        destruct ((s0 <? next st) && binded (heap st s0) && negb (hEnded (heap st s0)) && negb (spush (heap st s0))); try discriminate E;
        steps E; reflexivity.
    - apply rvalid_frame with (st := st); auto; steps E; reflexivity.
    - apply rvalid_frame with (st := st); auto; unfold relStream in E; steps E; cbn; congruence.
  Qed.

  Lemma sstep_w : forall st l st', SInv st -> sstep isClient st l = Some st' -> wvalid st'.
  Proof.
    intros st l st' I E. destruct (sstep_key st l st' I E) as [Hn HK]. pose proof (i_w st I) as WV.
    assert (HK' : forall s, s < next st -> spush (heap st' s) = spush (heap st s)).
    { intros s Hs. specialize (HK s Hs). unfold skey in HK. congruence. }
    unfold sstep in E. destruct (panicked st); [discriminate|].
    destruct l as [f| | | | |id fl ce| | | | |s0| |s0].
    - apply wvalid_frame with (st := st); auto; steps E; reflexivity.
    - apply wvalid_frame with (st := st); auto; unfold rstep, createOrGet in E; steps E; reflexivity.
    - apply wvalid_frame with (st := st); auto; steps E; reflexivity.
    - apply wvalid_frame with (st := st); auto; steps E; reflexivity.
    - apply wvalid_frame with (st := st); auto; steps E; reflexivity.
    - steps E. exact Logic.I.
    - steps E. exact Logic.I.
    - unfold wstep, createOrGet, wfin in E. destruct (wpc st) eqn:EW; try discriminate E; unfold wvalid in WV; rewrite EW in WV; steps E;
        unfold wvalid; cbn in *; try rewrite EW; try exact Logic.I;
        try (match type of WV with (?a /\ ?b) /\ ?c => rewrite HK' by apply WV end; tauto).
      + destruct (i_t1 st I _ _ _ Heqo) as (X & Y & _). unfold skey in Y. inversion Y. auto.
      + destruct (i_t1 st I _ _ _ Heqo) as (X & Y & _). unfold skey in Y. inversion Y. repeat split; auto; congruence.
      + destruct (i_t1 st I _ _ _ Heqo) as (X & Y & _). unfold skey in Y. inversion Y. repeat split; auto; congruence.
      + rewrite upd_eq. cbn. repeat split; [lia|auto|auto].
      + destruct WV as [WV1 WV2]. split; [assumption|apply rst_done; assumption].
      + tauto.
      + tauto.
      + tauto.
    - steps E. unfold wvalid. cbn. assumption.
    - steps E. exact Logic.I.
    - apply wvalid_frame with (st := st); auto;
        destruct ((s0 <? next st) && binded (heap st s0) && negb (hEnded (heap st s0)) && negb (spush (heap st s0))); try discriminate E;
        steps E; reflexivity.
    - apply wvalid_frame with (st := st); auto; steps E; reflexivity.
    - apply wvalid_frame with (st := st); auto; unfold relStream in E; steps E; cbn; congruence.
  Qed.
  (** all cases of a step *)
  Ltac allcases E :=
    unfold sstep in E; destruct (panicked _) eqn:EPan; [discriminate E|];
    match type of E with context [match ?l with LFrame _ => _ | _ => _ end] =>
      destruct l as [f| | | | |id fl ce| | | | |s0| |s0] end;
    [ destruct (rpc _) eqn:ER; try discriminate E; steps E
    | unfold rstep, createOrGet in E; destruct (rpc _) eqn:ER; try discriminate E; steps E
    | destruct (rpc _) eqn:ER; try discriminate E; steps E
    | destruct (rpc _) eqn:ER; try discriminate E; steps E
    | destruct (rpc _) eqn:ER; try discriminate E; steps E
    | destruct (wpc _) eqn:EW; try discriminate E; steps E
    | destruct (wpc _) eqn:EW; try discriminate E; steps E
    | unfold wstep, createOrGet, wfin in E; destruct (wpc _) eqn:EW; try discriminate E; steps E
    | destruct (wpc _) eqn:EW; try discriminate E; steps E
    | destruct (wpc _) eqn:EW; try discriminate E; steps E
    | match type of E with (if ?c then _ else _) = _ => destruct c eqn:EC; try discriminate E end; steps E
    | steps E
    | destruct (rpc _) eqn:ER; try discriminate E; destruct (wpc _) eqn:EW; try discriminate E; unfold relStream in E; steps E ].

  Lemma sstep_rs : forall st l st', SInv st -> sstep isClient st l = Some st' ->
    forall s, s < next st' -> rstd (heap st' s) = true -> exists g, In g (inlog st') /\ isRstF g = true /\ keyOf g = skey (heap st' s).
  Proof.
    intros st l st' I E. destruct (sstep_key st l st' I E) as [_ HK].
    assert (Hlog : exists b, inlog st' = inlog st ++ b).
    { clear -E. allcases E; (exists []; rewrite app_nil_r; reflexivity) || (eexists; reflexivity). }
    assert (G : forall s, s < next st' -> rstd (heap st' s) = true ->
       (s < next st /\ rstd (heap st s) = true) \/ (s < next st /\ rpc st = RRbp1 s)).
    { clear Hlog. pose proof (i_r st I) as RV. unfold rvalid in RV. clear HK I. allcases E; intros z Hz; cbn in Hz; upd_tac z; auto.
      all: try (intro; discriminate).
      all: try (destruct RV; auto; fail).
      all: try (left; split; [lia|assumption]). }
    destruct Hlog as [b Hb]. intros s Hs HR. destruct (G s Hs HR) as [[H1 H2]|[H1 H2]].
    - destruct (i_rs st I s H1 H2) as (g & A & B & C). exists g. rewrite Hb, HK by assumption. split; [apply in_or_app; auto|auto].
    - pose proof (i_r st I) as RV. unfold rvalid in RV. rewrite H2 in RV. destruct RV as (_ & a & f & R1 & R2 & R3).
      exists f. rewrite Hb, HK, R1 by assumption. split; [|auto]. apply in_or_app. left. apply in_or_app. right. left. reflexivity.
  Qed.

  (** *** panics *)
  Lemma c_rbp2 : forall rel wv, forall x, sokx x rel TRbp2 wv -> negb (chClosed x) = true.
  Proof. intros rel wv. brute_c. Qed.
  Lemma c_cl3 : forall rel wv, forall x, chClosed x = true -> sokx x rel TCl3 wv -> rstd x = true.
  Proof. intros rel wv. brute_c. Qed.
  Lemma c_rad4 : forall rel wv, forall x, sokx x rel TRAd4 wv -> negb (fullCh x) = true.
  Proof. intros rel wv. brute_c. Qed.
  Lemma c_wad4 : forall rel rv a r, forall x, sokx x rel rv (TAd4 a r) -> negb (fullCh x) = true.
  Proof. intros rel rv a r. brute_c. Qed.
  Lemma c_send : forall rel wv, forall x, sokx x rel TSend wv -> negb (chClosed x) = true.
  Proof. intros rel wv. brute_c. Qed.

  Lemma badlog_app : forall l b, badlog l -> badlog (l ++ b).
  Proof.
    intros l b (a & g & m & f & c & -> & H). exists a, g, m, f, (c ++ b). split; [|exact H].
    rewrite <- app_assoc. cbn. rewrite <- app_assoc. reflexivity.
  Qed.

  Lemma sstep_pan : forall st l st', SInv st -> sstep isClient st l = Some st' -> panicked st' = true -> badlog (inlog st').
  Proof.
    intros st l st' I E HP. pose proof (i_ok st I) as OK. pose proof (i_r st I) as RV. pose proof (i_w st I) as WV.
    unfold rvalid in RV. unfold wvalid in WV.
    allcases E; cbn in HP; try congruence.
    - exfalso. destruct RV as (Hs & _). specialize (OK s Hs). unfold sok in OK. rewrite ER in OK. cbn in OK. rewrite at_eq in OK.
      apply c_rbp2 in OK. rewrite Heqb in OK. discriminate.
    - destruct RV as (Hs & a & f & R1 & R2 & R3). specialize (OK s Hs). unfold sok in OK. rewrite ER in OK. cbn in OK. rewrite at_eq in OK.
      apply c_cl3 in OK; [|assumption]. destruct (i_rs st I s Hs OK) as (g & G1 & G2 & G3).
      cbn. rewrite R1 in *. apply in_app_or in G1. destruct G1 as [G1|[->|[]]]; [|congruence].
      apply in_split in G1. destruct G1 as (l1 & l2 & ->). exists l1, g, l2, f, []. rewrite <- app_assoc. repeat split; auto. congruence.
    - exfalso. destruct RV as (Hs & _). specialize (OK s Hs). unfold sok in OK. rewrite ER in OK. cbn in OK. rewrite at_eq in OK.
      apply c_rad4 in OK. rewrite Heqb in OK. discriminate.
    - exfalso. destruct RV as (Hs & _). specialize (OK s Hs). unfold sok in OK. rewrite ER in OK. cbn in OK. rewrite at_eq in OK.
      apply c_send in OK. rewrite Heqb in OK. discriminate.
    - exfalso. destruct WV as ((Hs & _) & _). specialize (OK s Hs). unfold sok in OK. rewrite EW in OK. cbn in OK. rewrite at_eq in OK.
      apply c_wad4 in OK. rewrite Heqb in OK. discriminate.
  Qed.

  (** *** outgoing frames *)
  Lemma c_n1 : forall rel rv, forall x, closedSelf x = false -> sokx x rel rv TN1 -> negb (hasDone (out x)) = true.
  Proof. intros rel rv. brute_c. Qed.
  Lemma c_n3 : forall rel rv, forall x, sokx x rel rv TN3 -> negb (hasDone (out x)) = true.
  Proof. intros rel rv. brute_c. Qed.
  Lemma c_ad1 : forall rel rv r, forall x, sokx x rel rv (TAd1 true r) -> r || negb (hasDone (out x)) = true.
  Proof. intros rel rv r. brute_c. Qed.
  Lemma c_ad4 : forall rel rv r, forall x, sokx x rel rv (TAd4 true r) -> r || negb (hasDone (out x)) = true.
  Proof. intros rel rv r. brute_c. Qed.

  Lemma outOK_app : forall l fl, outOK l -> IsRst fl || negb (hasDone l) = true -> outOK (l ++ [fl]).
  Proof.
    intros l fl H HR a g b E Hg.
    destruct (exists_last (l := g :: b)) as (m & z & Hm); [discriminate|].
    assert (E' := E). rewrite Hm, app_assoc in E'. apply app_inj_tail in E'. destruct E' as [E1 E2]. subst z.
    destruct m as [|g' m].
    - cbn in Hm. inversion Hm; subst. constructor.
    - cbn in Hm. inversion Hm; subst. apply Forall_app. split.
      + eapply H; [reflexivity|assumption].
      + constructor; [|constructor]. destruct (IsRst fl); [reflexivity|]. cbn in HR.
        unfold hasDone in HR. rewrite existsb_app in HR. cbn in HR. rewrite Hg in HR. cbn in HR. rewrite orb_true_r in HR. discriminate.
  Qed.

  Lemma sstep_o : forall st l st', SInv st -> sstep isClient st l = Some st' -> forall s, s < next st' -> outOK (out (heap st' s)).
  Proof.
    intros st l st' I E. pose proof (i_o st I) as OO. pose proof (i_ok st I) as OK. pose proof (i_w st I) as WV. unfold wvalid in WV.
    allcases E; intros z Hz; cbn in Hz; upd_tac z; auto.
    all: try (apply OO; lia).
    all: try (intros a fl0 b X; destruct a; discriminate).
    all: try (destruct WV as ((Hs & _) & WV); apply outOK_app; [apply OO; assumption|]; specialize (OK s Hs); unfold sok in OK; rewrite EW in OK; cbn in OK; rewrite at_eq in OK).
    - rewrite WV. reflexivity.
    - apply c_n1 in OK; [|assumption]. rewrite OK. apply orb_true_r.
    - apply c_n3 in OK. rewrite OK. apply orb_true_r.
    - apply c_ad1 in OK. assumption.
    - apply c_ad4 in OK. assumption.
  Qed.

  Lemma sstep_wl : forall st l st', SInv st -> sstep isClient st l = Some st' -> 
    (forall s, s < next st' -> out (heap st' s) = outOf (wlog st') s) /\
    (forall id fl s, In (id, fl, WSent (Some s)) (wlog st') -> s < next st' /\ skey (heap st' s) = (IsPush fl, id)).
  Proof.
    intros st l st' I E. destruct (sstep_key st l st' I E) as [Hn HK]. pose proof (i_wl st I) as L1. pose proof (i_wl2 st I) as L2.
    assert (Hnone : forall s, next st <= s -> outOf (wlog st) s = []).
    { intros s Hs. assert (G : forall l, (forall id fl s, In (id, fl, WSent (Some s)) l -> s < next st) -> outOf l s = []).
      { clear -Hs. induction l as [|[[id fl] r] l IH]; intro H; [reflexivity|]. cbn.
        assert (Hl : outOf l s = []) by (apply IH; intros id' fl' s' Hi; eapply H; right; eassumption).
        destruct r as [[s'|]| | | |]; try assumption. destruct (N.eqb_spec s' s); [|assumption]. subst.
        specialize (H id fl s (or_introl eq_refl)). lia. }
      apply G. intros id fl s' Hi. apply (L2 id fl s' Hi). }
    pose proof (i_w st I) as WV. unfold wvalid in WV.
    split.
    - allcases E; intros z Hz; cbn in Hz; upd_tac z; auto.
      all: rewrite ?outOf_app; cbn; rewrite ?app_nil_r; auto.
      all: try (rewrite Hnone by lia; reflexivity).
      all: try (apply L1; lia).
      all: try (destruct WV as ((Hs & _) & WV); rewrite ?at_eq; rewrite (L1 s Hs); reflexivity).
      all: try (rewrite at_neq by assumption; rewrite app_nil_r; apply L1; assumption).
    - intros id1 fl1 s1 Hi. assert (G : In (id1, fl1, WSent (Some s1)) (wlog st) \/ (s1 < next st /\ skey (heap st s1) = (IsPush fl1, id1))).
      { clear HK Hn Hnone L1 L2 I. allcases E; cbn in Hi; auto; try rewrite !upd_eq in Hi; cbn in Hi;
          apply in_app_or in Hi; destruct Hi as [Hi|[Hi|[]]]; auto; try discriminate Hi;
          right; inversion Hi; subst; unfold skey; destruct WV as ((W1 & W2) & _); split; auto; congruence. }
      destruct G as [G|[G1 G2]].
      + destruct (L2 _ _ _ G) as [A B]. split; [lia|]. rewrite HK by assumption. assumption.
      + split; [lia|]. rewrite HK by assumption. assumption.
  Qed.

  (** *** handlers *)
  Lemma sstep_q : forall st l st', SInv st -> sstep isClient st l = Some st' ->
    forall s, In s (rstq st') -> s < next st' /\ spush (heap st' s) = false.
  Proof.
    intros st l st' I E. destruct (sstep_key st l st' I E) as [Hn HK]. pose proof (i_q st I) as Q. intros z Hz.
    assert (G : z < next st /\ spush (heap st z) = false).
    { clear HK Hn. allcases E; cbn in Hz; auto.
      - apply Q. right. assumption.
      - apply in_app_or in Hz. destruct Hz as [Hz|[->|[]]]; [auto|].
        rewrite !andb_true_iff, !negb_true_iff in EC. split; [apply N.ltb_lt|]; tauto. }
    destruct G as [G1 G2]. split; [lia|]. specialize (HK z G1). unfold skey in HK. congruence.
  Qed.

  Lemma c_nf : forall rv wv, forall x, closedSelf x = false -> sokx x false rv wv -> Nat.eqb (notified x) 0 = true.
  Proof. intros rv wv. brute_c. Qed.

  Lemma sstep_h : forall st l st', SInv st -> sstep isClient st l = Some st' ->
    forall s, s < next st' -> hEnded (heap st' s) = true ->
        spush (heap st' s) = false /\
        (closedSelf (heap st' s) = false -> In s (rstq st') \/ (exists ce, wpc st' = WLook (sid (heap st' s)) StreamRstFlag ce) \/
           (exists fl, wpc st' = WR1 s fl)).
  Proof.
    intros st l st' I E. destruct (sstep_key st l st' I E) as [Hn HK]. pose proof (i_h st I) as H. pose proof (i_ok st I) as OK.
    intros z Hz Hh.
    assert (G : z < next st /\ (hEnded (heap st z) = true \/ l = LHEnd z)).
    { clear HK Hn H I. allcases E; cbn in Hz; revert Hh; upd_tac z; auto; intro; try discriminate; split; auto; try lia. }
    destruct G as [Hz' G]. specialize (HK z Hz').
    assert (Hsid : sid (heap st' z) = sid (heap st z) /\ spush (heap st' z) = spush (heap st z)) by (unfold skey in HK; inversion HK; auto).
    destruct Hsid as [K1 K2]. rewrite K1, K2. clear HK K1 K2.
    assert (Hmono : closedSelf (heap st' z) = false -> closedSelf (heap st z) = false).
    { clear H Hn Hh G. clear I. allcases E; upd_tac z; auto; intro; try lia; try congruence. }
    destruct G as [G | ->].
    2:{ unfold sstep in E. destruct (panicked st); [discriminate E|].
        match type of E with (if ?c then _ else _) = _ => destruct c eqn:EC; [|discriminate E] end.
        rewrite !andb_true_iff, !negb_true_iff in EC. split; [tauto|]. intro Hcs.
        injection E as <-. destruct (closedSelf (heap st z)) eqn:EQ.
        - specialize (Hmono Hcs). discriminate.
        - left. cbn. apply in_or_app. right. left. reflexivity. }
    destruct (H z Hz' G) as [H1 H2]. split; [assumption|]. intro Hcs. specialize (Hmono Hcs). specialize (H2 Hmono). clear H.
    specialize (OK z Hz'). unfold sok in OK.
    destruct H2 as [H2|[[ce' H2]|[fl' H2]]].
    - assert (GG : In z (rstq st') \/ exists ce, wpc st' = WLook (sid (heap st z)) StreamRstFlag ce).
      { clear OK Hcs I Hh. allcases E; cbn; auto.
        - destruct H2 as [->|H2]; [right; eexists; reflexivity|left; assumption].
        - left. apply in_or_app. auto. }
      destruct GG as [GG|GG]; auto.
    - assert (Hrel : isRel st = false) by (apply isRel_false_w; rewrite H2; discriminate). rewrite Hrel in OK.
      apply c_nf in OK; [|assumption]. apply Nat.eqb_eq in OK. pose proof (i_t2 st I z Hz' OK) as HT. rewrite H1 in HT.
      clear OK Hcs I Hh. allcases E; cbn; try rewrite H2; eauto; try congruence.
      all: try discriminate H2; injection H2 as H2a H2b H2c; subst id fl ce; try discriminate.
      all: try (change (IsPush StreamRstFlag) with false in *; congruence).
      change (IsPush StreamRstFlag) with false in Heqo.
      right; right. eexists. replace n with z by congruence. reflexivity.
    - clear OK I Hh. right; right. allcases E; cbn; try rewrite H2; eauto; try congruence.
      injection H2 as H2a H2b; subst s fl. cbn in Hcs. rewrite upd_eq in Hcs. discriminate.
  Qed.

  Theorem sstep_inv : forall st l st', SInv st -> sstep isClient st l = Some st' -> SInv st'.
  Proof.
    intros st l st' I E. constructor.
    - eapply sstep_ok; eassumption.
    - eapply sstep_t1; eassumption.
    - eapply sstep_t2; eassumption.
    - eapply sstep_r; eassumption.
    - eapply sstep_w; eassumption.
    - eapply sstep_q; eassumption.
    - eapply sstep_rs; eassumption.
    - eapply sstep_pan; eassumption.
    - eapply sstep_o; eassumption.
    - eapply sstep_wl; eassumption.
    - eapply sstep_wl; eassumption.
    - eapply sstep_h; eassumption.
  Qed.

  Lemma sinit_inv : SInv sinit.
  Proof. constructor; cbn; try (intros; lia); try (intros; discriminate); try exact Logic.I; intros; contradiction. Qed.

  Lemma reach_inv : forall st, reachable (sstep isClient) sinit st -> SInv st.
  Proof. intros st H. eapply reachable_inv; [apply sinit_inv|intros; eapply sstep_inv; eassumption|exact H]. Qed.
End Pres.
