(** Inductive invariant of the stream machine (Model/Stream.v). *)
From Coq Require Import ZifyBool ZifyNat ZifyN.
From Verif Require Import Model.GoBase Model.Machine Model.Qrpc Model.FrameReader Model.Stream.
Open Scope N_scope.

(** ** Finite abstraction of one stream *)
Inductive rtag := R0 | TRbp1 | TRbp2 | TRbp3 | TBind | TCl1 | TCl2 | TCl3 | TCl4
  | TRAd1 | TRAd2 | TRAd3 | TRAd4 | TAddIn | TSend | TWait.
Inductive wtag := W0 | TR1 | TR2 (old : bool) | TN1 | TN2 | TN3
  | TAd1 (acc r : bool) | TAd2 (acc r : bool) | TAd3 (acc r : bool) | TAd4 (acc r : bool).

Definition rtagOf (p : rpc_t) (s : N) : rtag :=
  let at_ s' t := if N.eqb s' s then t else R0 in
  match p with
  | RRbp1 s' => at_ s' TRbp1 | RRbp2 s' => at_ s' TRbp2 | RRbp3 s' => at_ s' TRbp3
  | RBind _ s' => at_ s' TBind
  | RCl1 _ s' _ => at_ s' TCl1 | RCl2 s' _ => at_ s' TCl2 | RCl3 s' _ => at_ s' TCl3 | RCl4 s' _ => at_ s' TCl4
  | RAd1 s' _ => at_ s' TRAd1 | RAd2 s' _ => at_ s' TRAd2 | RAd3 s' _ => at_ s' TRAd3 | RAd4 s' _ => at_ s' TRAd4
  | RAddIn _ s' => at_ s' TAddIn | RSend _ s' => at_ s' TSend | RWait _ s' => at_ s' TWait
  | RIdle | RRst _ | RGet _ | RExit => R0
  end.
Definition wtagOf (p : wpc_t) (s : N) : wtag :=
  let at_ s' t := if N.eqb s' s then t else W0 in
  match p with
  | WR1 s' _ => at_ s' TR1 | WR2 s' _ o => at_ s' (TR2 o)
  | WN1 s' _ => at_ s' TN1 | WN2 s' _ => at_ s' TN2 | WN3 s' _ => at_ s' TN3
  | WAd1 s' fl a => at_ s' (TAd1 a (IsRst fl)) | WAd2 s' fl a => at_ s' (TAd2 a (IsRst fl))
  | WAd3 s' fl a => at_ s' (TAd3 a (IsRst fl)) | WAd4 s' fl a => at_ s' (TAd4 a (IsRst fl))
  | WIdle | WLook _ _ _ | WExit => W0
  end.

Definition rphase (r : rtag) : nat := match r with TRAd2 => 2 | TRAd3 => 3 | TRAd4 => 4 | _ => 0 end.
Definition wphase (w : wtag) : nat := match w with TAd2 _ _ => 2 | TAd3 _ _ => 3 | TAd4 _ _ => 4 | _ => 0 end.

Notation "a ==> b" := (implb a b) (at level 55, right associativity).

(** [rel]: reader and writer are gone; [od]: an ending frame was accepted *)
Definition sokb (cs cp fc bd cc fch ca lr rs pu od rel : bool) (n : nat) (rv : rtag) (wv : wtag) : bool :=
  (* full close protocol *)
  (if fc then
     (Nat.eqb (rphase rv) 0 || Nat.eqb (wphase wv) 0) &&
     match (rphase rv + wphase wv)%nat with
     | 0%nat => Nat.eqb n 1 && ca && fch
     | 2%nat => Nat.eqb n 0 && negb fch
     | 3%nat => Nat.eqb n 0 && ca && negb fch
     | 4%nat => Nat.eqb n 1 && ca && negb fch
     | _ => false
     end
   else Nat.eqb (rphase rv) 0 && Nat.eqb (wphase wv) 0 && Nat.eqb n 0 && negb fch) &&
  (fc ==> ((cs && cp) || rel)) &&
  (* closedPeer and frameCh *)
  (cc ==> cp) &&
  (cp ==> (cc || match rv with TRbp2 | TCl3 => true | _ => false end)) &&
  (ca ==> cp) &&
  ((negb bd && cp) ==> (rel || rs)) &&
  ((pu && negb bd) ==> (negb cp && match rv with TBind => true | _ => false end)) &&
  ((rs && negb (match rv with TRbp2 | TRbp3 => true | _ => false end)) ==> (cc && ca)) &&
  match rv with
  | TRbp2 => cp && negb cc
  | TRbp3 => cp && cc
  | TCl1 | TCl2 => bd && (cp ==> (rs && negb pu))
  | TCl3 => bd && cp && (cc ==> rs)
  | TCl4 => bd && cp && cc
  | TRAd1 | TRAd2 | TRAd3 | TRAd4 => bd && cp && cs
  | TAddIn | TWait => bd
  | TSend => bd && negb cp
  | R0 | TRbp1 | TBind => true
  end &&
  (* the race between the two ends *)
  ((cs && cp && negb lr && negb fc) ==>
     (match rv with TCl3 | TCl4 | TRAd1 => true | _ => false end ||
      match wv with TR2 _ | TN3 | TAd1 _ _ => true | _ => false end)) &&
  match wv with
  | W0 | TR1 => true
  | TR2 o => cs && (o ==> (od || pu))
  | TN1 => negb pu
  | TN2 => negb pu && negb cs
  | TN3 => negb pu && cs && negb od
  | TAd1 a r | TAd2 a r | TAd3 a r | TAd4 a r =>
    cs && cp && (negb a ==> (r && (od || pu))) && ((a && negb r) ==> (negb od && negb pu))
  end &&
  (* outgoing frames *)
  (od ==> cs) &&
  ((cs && negb pu) ==>
     (od || match wv with TN3 | TR2 false => true | TAd1 a _ | TAd2 a _ | TAd3 a _ | TAd4 a _ => a | _ => false end)).

Definition isRel (st : sst) : bool := match rpc st, wpc st with RExit, WExit => true | _, _ => false end.
Definition hasDone (l : list FrameFlag) : bool := existsb IsDone l.

Definition sokx (x : strm) (rel : bool) (rv : rtag) (wv : wtag) : Prop :=
  sokb (closedSelf x) (closedPeer x) (fullClosed x) (binded x) (chClosed x) (fullCh x) (cancelled x)
       (lateRst x) (rstd x) (spush x) (hasDone (out x)) rel (notified x) rv wv = true.
Definition sok (st : sst) (s : N) : Prop := sokx (heap st s) (isRel st) (rtagOf (rpc st) s) (wtagOf (wpc st) s).

(** ** brute force over the finite abstraction *)
Definition allb (P : bool -> bool) : bool := P true && P false.
Lemma allb_ok : forall P, allb P = true -> forall b, P b = true.
Proof. intros P H b. apply andb_true_iff in H. destruct H, b; assumption. Qed.
Definition allr : list rtag := [R0;TRbp1;TRbp2;TRbp3;TBind;TCl1;TCl2;TCl3;TCl4;TRAd1;TRAd2;TRAd3;TRAd4;TAddIn;TSend;TWait].
Definition allw : list wtag :=
  [W0;TR1;TR2 true;TR2 false;TN1;TN2;TN3] ++
  flat_map (fun a => flat_map (fun r => [TAd1 a r; TAd2 a r; TAd3 a r; TAd4 a r]) [true;false]) [true;false].
Lemma allr_ok : forall P, forallb P allr = true -> forall r, P r = true.
Proof. intros P H r. rewrite forallb_forall in H. apply H. destruct r; cbn; tauto. Qed.
Lemma allw_ok : forall P, forallb P allw = true -> forall r, P r = true.
Proof.
  intros P H r. rewrite forallb_forall in H. apply H.
  destruct r as [| |[]| | | |[][]|[][]|[][]|[][]]; cbn; tauto.
Qed.
Definition alln (P : nat -> bool) : bool := P 0%nat && P 1%nat && P 2%nat.
Lemma implb_use : forall a b, implb a b = true -> a = true -> b = true.
Proof. intros a b H Ha. rewrite Ha in H. exact H. Qed.

Ltac bforce :=
  repeat match goal with r : rtag |- _ => revert r; apply allr_ok end;
  repeat match goal with w : wtag |- _ => revert w; apply allw_ok end;
  repeat match goal with b : bool |- _ => revert b; apply allb_ok end;
  vm_compute; reflexivity.

Lemma sokb_n : forall cs cp fc bd cc fch ca lr rs pu od rel n rv wv,
  sokb cs cp fc bd cc fch ca lr rs pu od rel n rv wv = true -> n = 0%nat \/ n = 1%nat.
Proof.
  intros until wv. intro H. destruct n as [|[|n]]; [auto|auto|exfalso]. unfold sokb in H.
  repeat (apply andb_true_iff in H; destruct H as [H _]).
  destruct fc; [|rewrite !andb_true_iff in H; destruct H as [[_ X] _]; discriminate].
  apply andb_true_iff in H. destruct H as [_ H].
  destruct (rphase rv + wphase wv)%nat as [|[|[|[|[|m]]]]]; cbn in H; discriminate.
Qed.

(** ** Transitions of a stream's abstraction: [x] before, [x'] after *)
Ltac brute :=
  match goal with |- forall x : strm, _ => intros [si pu ca cs cp fc bd cc fch n go ou lr rs he] end;
  unfold sokx; cbn -[sokb hasDone rtagOf wtagOf];
  intros;
  repeat match goal with H : ?b = true |- _ => is_var b; subst b | H : ?b = false |- _ => is_var b; subst b end;
  repeat match goal with |- context [hasDone (?o ++ [?fl])] =>
    replace (hasDone (o ++ [fl])) with (hasDone o || IsDone fl)
      by (unfold hasDone; rewrite existsb_app; cbn [existsb]; rewrite orb_false_r; reflexivity) end;
  repeat match goal with H : IsDone ?fl = _ |- _ => rewrite H in *; clear H end;
  match goal with |- context [hasDone ?o] => generalize dependent (hasDone o) end; intro od; intros;
  match goal with H : sokb _ _ _ _ _ _ _ _ _ _ _ _ _ _ _ = true |- _ =>
    destruct (sokb_n _ _ _ _ _ _ _ _ _ _ _ _ _ _ _ H) as [-> | ->]; revert H end;
  apply implb_use; clear; bforce.

Section Trans.
  Variables (rel : bool) (wv : wtag).
  Notation sk x r := (sokx x rel r wv).
  Lemma t_rbp1a : forall x, sk x R0 -> sk x TRbp1.  Proof. brute. Qed.
  Lemma t_rbp1b : forall x, closedPeer x = true -> sk x TRbp1 -> sk (set_rstd true x) TRbp3.  Proof. brute. Qed.
  Lemma t_rbp1c : forall x, closedPeer x = false -> sk x TRbp1 ->
    sk (set_rstd true (set_lateRst (closedSelf x) (set_closedPeer true x))) TRbp2.  Proof. brute. Qed.
  Lemma t_rbp2 : forall x, sk x TRbp2 -> sk (set_chClosed true x) TRbp3.  Proof. brute. Qed.
  Lemma t_rbp3 : forall x, sk x TRbp3 -> sk (set_cancelled true x) R0.  Proof. brute. Qed.
  Lemma t_bind0 : forall x, sk x R0 -> sk x TBind.  Proof. brute. Qed.
  Lemma t_bind1 : forall x, binded x = true -> sk x TBind -> sk x TAddIn.  Proof. brute. Qed.
  Lemma t_bind2 : forall x g, binded x = false -> sk x TBind -> rel = false -> sk (set_got g (set_binded true x)) TCl1.
  Proof. brute. Qed.
  Lemma t_cl1a : forall x, spush x = true -> sk x TCl1 -> sk (set_closedSelf true x) TCl2.  Proof. brute. Qed.
  Lemma t_cl1b : forall x, spush x = true -> sk x TCl1 -> sk (set_closedSelf true x) R0.  Proof. brute. Qed.
  Lemma t_cl1c : forall x, sk x TCl1 -> sk x TCl2.  Proof. brute. Qed.
  Lemma t_cl1d : forall x, sk x TCl1 -> sk x R0.  Proof. brute. Qed.
  Lemma t_cl2 : forall x, sk x TCl2 -> sk (set_closedPeer true x) TCl3.  Proof. brute. Qed.
  Lemma t_cl3 : forall x, chClosed x = false -> sk x TCl3 -> sk (set_chClosed true x) TCl4.  Proof. brute. Qed.
  Lemma t_cl4a : forall x, closedSelf x = true -> sk x TCl4 -> sk x TRAd1.  Proof. brute. Qed.
  Lemma t_cl4b : forall x, closedSelf x = false -> sk x TCl4 -> sk x R0.  Proof. brute. Qed.
  Lemma t_rad1a : forall x, fullClosed x = true -> sk x TRAd1 -> sk x R0.  Proof. brute. Qed.
  Lemma t_rad1b : forall x, fullClosed x = false -> sk x TRAd1 -> sk (set_fullClosed true x) TRAd2.  Proof. brute. Qed.
  Lemma t_rad2 : forall x, sk x TRAd2 -> sk (set_cancelled true x) TRAd3.  Proof. brute. Qed.
  Lemma t_rad3 : forall x, sk x TRAd3 -> sk (set_notified (S (notified x)) x) TRAd4.  Proof. brute. Qed.
  Lemma t_rad4 : forall x, sk x TRAd4 -> sk (set_fullCh true x) R0.  Proof. brute. Qed.
  Lemma t_addin1 : forall x, closedPeer x = true -> sk x TAddIn -> sk x TWait.  Proof. brute. Qed.
  Lemma t_addin2 : forall x, closedPeer x = false -> sk x TAddIn -> sk x TSend.  Proof. brute. Qed.
  Lemma t_wait : forall x, sk x TWait -> sk x R0.  Proof. brute. Qed.
  Lemma t_ctx : forall x, sk x TSend -> sk x TWait.  Proof. brute. Qed.
  Lemma t_deliver : forall x g, sk x TSend -> sk (set_got g x) TCl1.  Proof. brute. Qed.
End Trans.

Section TransW.
  Variables (rel : bool) (rv : rtag).
  Notation sk x w := (sokx x rel rv w).
  Notation acc x fl := (set_out (out x ++ [fl]) x).
  Lemma w_r1a : forall x, sk x W0 -> sk x TR1.  Proof. brute. Qed.
  Lemma w_r1 : forall x, sk x TR1 -> sk (set_closedSelf true x) (TR2 (closedSelf x)).  Proof. brute. Qed.
  Lemma w_r2a : forall x o, closedPeer x = true -> sk x (TR2 o) -> sk x (TAd1 (negb o) true).  Proof. brute. Qed.
  Lemma w_r2b : forall x o fl, closedPeer x = false -> IsDone fl = true -> sk x (TR2 o) -> sk (acc x fl) W0.  Proof. brute. Qed.
  Lemma w_n1a : forall x, spush x = false -> sk x W0 -> sk x TN1.  Proof. brute. Qed.
  Lemma w_n1b : forall x, sk x TN1 -> sk x W0.  Proof. brute. Qed.
  Lemma w_n1c : forall x, closedSelf x = false -> sk x TN1 -> sk x TN2.  Proof. brute. Qed.
  Lemma w_n1d : forall x fl, IsDone fl = false -> sk x TN1 -> sk (acc x fl) W0.  Proof. brute. Qed.
  Lemma w_n2 : forall x, sk x TN2 -> sk (set_closedSelf true x) TN3.  Proof. brute. Qed.
  Lemma w_n3a : forall x, closedPeer x = true -> sk x TN3 -> sk x (TAd1 true false).  Proof. brute. Qed.
  Lemma w_n3b : forall x fl, closedPeer x = false -> IsDone fl = true -> sk x TN3 -> sk (acc x fl) W0.  Proof. brute. Qed.
  Lemma w_ad1a : forall x r fl, fullClosed x = true -> IsDone fl = true -> sk x (TAd1 true r) -> sk (acc x fl) W0.  Proof. brute. Qed.
  Lemma w_ad1a' : forall x r, fullClosed x = true -> sk x (TAd1 false r) -> sk x W0.  Proof. brute. Qed.
  Lemma w_ad1b : forall x a r, fullClosed x = false -> sk x (TAd1 a r) -> sk (set_fullClosed true x) (TAd2 a r).  Proof. brute. Qed.
  Lemma w_ad2 : forall x a r, sk x (TAd2 a r) -> sk (set_cancelled true x) (TAd3 a r).  Proof. brute. Qed.
  Lemma w_ad3 : forall x a r, sk x (TAd3 a r) -> sk (set_notified (S (notified x)) x) (TAd4 a r).  Proof. brute. Qed.
  Lemma w_ad4a : forall x r fl, IsDone fl = true -> sk x (TAd4 true r) -> sk (acc (set_fullCh true x) fl) W0.  Proof. brute. Qed.
  Lemma w_ad4b : forall x r, sk x (TAd4 false r) -> sk (set_fullCh true x) W0.  Proof. brute. Qed.
End TransW.

Lemma t_new : forall rel id p, sokx (newStream id p) rel TBind W0 /\ (p = false -> sokx (newStream id p) rel R0 TN1) /\ (p = false -> sokx (newStream id p) rel R0 W0).
Proof. intros [] id []; repeat split; intros; try discriminate; vm_compute; reflexivity. Qed.
Lemma t_rel : forall rv wv, forall x, sokx x false rv wv -> sokx x true rv wv.
Proof. intros rv wv. brute. Qed.
Lemma t_release1 : forall x, fullClosed x = true -> sokx x true R0 W0 ->
  sokx (set_cancelled true (set_chClosed true (set_closedPeer true x))) true R0 W0.
Proof. brute. Qed.
Lemma t_release2 : forall x, fullClosed x = false -> sokx x true R0 W0 ->
  sokx (set_notified (S (notified x)) (set_fullCh true (set_fullClosed true (set_cancelled true (set_chClosed true (set_closedPeer true x)))))) true R0 W0.
Proof. brute. Qed.

(** consequences of the abstraction used elsewhere *)
Ltac brute_c :=
  match goal with |- forall x : strm, _ => intros [si pu ca cs cp fc bd cc fch n go ou lr rs he] end;
  unfold sokx; cbn -[sokb hasDone rtagOf wtagOf];
  intros;
  repeat match goal with H : ?b = true |- _ => is_var b; subst b | H : ?b = false |- _ => is_var b; subst b end;
  match goal with |- context [hasDone ?o] => generalize dependent (hasDone o) | H : context [hasDone ?o] |- _ => generalize dependent (hasDone o) end; intro od; intros;
  match goal with H : sokb _ _ _ _ _ _ _ _ _ _ _ _ _ _ _ = true |- _ =>
    destruct (sokb_n _ _ _ _ _ _ _ _ _ _ _ _ _ _ _ H) as [-> | ->]; revert H end;
  apply implb_use; clear; bforce.
