(** C10-C12: ServeMux and middleware. *)
From Coq Require Import ZifyBool ZifyNat ZifyN.
From Verif Require Import Model.GoBase Model.Qrpc Model.Mux Proofs.Bits.
Open Scope N_scope.

Section P.
Context {H : Type}.

(** The registrations that did not panic, oldest first. *)
Fixpoint accepted (regs : list (Cmd * option H)) (panicked : list bool) : list (Cmd * H) :=
  match regs, panicked with
  | (c, Some h) :: regs', false :: ps => (c, h) :: accepted regs' ps
  | _ :: regs', _ :: ps => accepted regs' ps
  | _, _ => []
  end.

(** The latest registration whose low two bytes are those of [c]. *)
Definition lookup_last (acc : list (Cmd * H)) (c : Cmd) : option H :=
  fold_left (fun o x => if fst x mod 65536 =? c mod 65536 then Some (snd x) else o) acc None.

Lemma handleAll_fold : forall (regs : list (Cmd * option H)) (m : mux H) c,
  fst (handleAll m regs) (Routing c) =
  fold_left (fun o x => if fst x mod 65536 =? c mod 65536 then Some (snd x) else o)
            (accepted regs (snd (handleAll m regs))) (m (Routing c)).
Proof.
  induction regs as [|[c0 h] regs IH]; intros m c; [reflexivity|].
  cbn [handleAll].
  destruct (Handle m c0 h) as [m'|] eqn:EH.
  - specialize (IH m' c). destruct (handleAll m' regs) as [m2 ps]. cbn [fst snd] in *.
    unfold Handle in EH. destruct h as [h|]; [|discriminate].
    destruct (MaxCmd <? c0); [discriminate|]. destruct (m c0); [discriminate|].
    cbn [accepted fold_left fst snd]. rewrite IH. inversion EH as [EM]. clear EH. cbv beta.
    f_equal. unfold Routing. rewrite !land_ffff. rewrite (N.eqb_sym (c mod 65536)). reflexivity.
  - specialize (IH m c). destruct (handleAll m regs) as [m2 ps]. cbn [fst snd] in *.
    destruct h; cbn [accepted]; exact IH.
Qed.

Theorem C10_mux_routing :
  forall (regs : list (Cmd * option H)) (c : Cmd),
  let '(m, panicked) := handleAll emptyMux regs in
  ServeQRPC m c = match lookup_last (accepted regs panicked) c with
                  | Some h => Call h
                  | None => CloseConn
                  end.
Proof.
  intros regs c. pose proof (handleAll_fold regs emptyMux c) as HF.
  destruct (handleAll emptyMux regs) as [m ps]. cbn [fst snd] in HF.
  unfold ServeQRPC. rewrite HF. reflexivity.
Qed.

(** ... hence the opaque byte does not matter. *)
Theorem C10_opaque_irrelevant :
  forall (m : mux H) c o, o < 256 -> ServeQRPC m (CmdWithOpaque c o) = ServeQRPC m c.
Proof.
  intros m c o Ho. unfold ServeQRPC, Routing. rewrite !land_ffff.
  unfold CmdWithOpaque, u32. rewrite land_ffff, N.shiftl_mul_pow2. change (2^16) with 65536.
  rewrite (N.mod_small (o * 65536)) by lia.
  rewrite (N.mod_small (c mod 65536 + o * 65536)) by (pose proof (N.mod_lt c 65536); lia).
  rewrite N.mod_add, N.mod_mod by discriminate. reflexivity.
Qed.

(** ** C11 *)
Definition C11_statement : Prop :=
  forall (regs : list (Cmd * option H)) (c : Cmd) (h h' : H), c <= MaxCmd ->
  ServeQRPC (fst (handleAll emptyMux regs)) c = Call h ->
  Handle (fst (handleAll emptyMux regs)) c (Some h') = None.

(** Holds for cmds without opaque byte, whatever was registered before. *)
Theorem C11_duplicate_panics_partial :
  forall (regs : list (Cmd * option H)) (c : Cmd) (h h' : H), c <= 0xffff ->
  ServeQRPC (fst (handleAll emptyMux regs)) c = Call h ->
  Handle (fst (handleAll emptyMux regs)) c (Some h') = None.
Proof.
  intros regs c h h' Hc HS. unfold ServeQRPC, Routing in HS. rewrite land_ffff, N.mod_small in HS by lia.
  unfold Handle. destruct (MaxCmd <? c); [reflexivity|].
  destruct (fst (handleAll emptyMux regs) c); [reflexivity|discriminate].
Qed.

(** A handler is replaced only by registering a cmd with a non-zero opaque byte. *)
Theorem C11_no_silent_replace_partial :
  forall (m m' : mux H) (c c' : Cmd) (h : H) (h' : option H),
  ServeQRPC m c = Call h -> Handle m c' h' = Some m' -> c' <= 0xffff ->
  ServeQRPC m' c = Call h.
Proof.
  intros m m' c c' h h' HS HH Hc. unfold ServeQRPC, Routing in *. unfold Handle in HH.
  destruct h' as [h'|]; [|discriminate]. destruct (MaxCmd <? c'); [discriminate|].
  destruct (m c') eqn:E; [discriminate|]. inversion HH; subst m'. clear HH.
  unfold Routing. rewrite !land_ffff in *. rewrite (N.mod_small c') by lia.
  destruct (c mod 65536 =? c') eqn:EC; [|exact HS].
  apply N.eqb_eq in EC. rewrite EC, E in HS. discriminate.
Qed.
End P.
Print Assumptions C10_mux_routing.
Print Assumptions C10_opaque_irrelevant.
Print Assumptions C11_duplicate_panics_partial.
Print Assumptions C11_no_silent_replace_partial.

(** cmd 0x10001 registered after cmd 1 replaces its handler without a panic. *)
Theorem C11_duplicate_panics_refuted : ~ @C11_statement nat.
Proof.
  intro HX. specialize (HX [(1, Some 7%nat)] 0x10001 7%nat 8%nat).
  assert (E : Handle (fst (handleAll emptyMux [(1, Some 7%nat)])) 0x10001 (Some 8%nat) = None).
  { apply HX; [vm_compute; discriminate|reflexivity]. }
  vm_compute in E. discriminate.
Qed.
Print Assumptions C11_duplicate_panics_refuted.

Example C11_silent_replace :
  let regs := [(1, Some 7%nat); (0x10001, Some 8%nat); (0x10001, Some 9%nat)] in
  snd (handleAll emptyMux regs) = [false; false; false] /\
  ServeQRPC (fst (handleAll emptyMux regs)) 1 = Call 9%nat.
Proof. split; reflexivity. Qed.

Example C10_example :
  let regs := [(1, Some 7%nat); (2, None); (1, Some 5%nat); (0x1000000, Some 3%nat); (2, Some 8%nat)] in
  snd (handleAll emptyMux regs) = [false; true; true; true; false] /\
  ServeQRPC (fst (handleAll emptyMux regs)) 0xff0001 = Call 7%nat /\
  ServeQRPC (fst (handleAll emptyMux regs)) 0x000003 = CloseConn.
Proof. repeat split; reflexivity. Qed.

(** ** C12 *)
Section M.
Context {S : Type}.

(** The result of each middleware when the ones before it have been run. *)
Fixpoint mwResults (mws : list (@middleware S)) (s : S) : list (option bool) :=
  match mws with
  | [] => []
  | m :: mws' => snd (m s) :: mwResults mws' (fst (m s))
  end.

Definition okRes (r : option bool) : bool := match r with Some true => true | _ => false end.

(** length of the longest all-true prefix *)
Fixpoint trues (l : list (option bool)) : nat :=
  match l with
  | r :: l' => if okRes r then Datatypes.S (trues l') else 0%nat
  | [] => 0%nat
  end.

(** If all [n] middleware return true, exactly 0..n-1 then the handler ran; otherwise exactly
    0..k ran, where k is the first that did not return true, and the handler did not. *)
Theorem C12_middleware_chain :
  forall (mws : list (@middleware S)) (h : @handlerFn S) (s : S),
  let rs := mwResults mws s in
  let ran k := map (fun i => RanMW i (nth i rs None)) (seq 0 k) in
  snd (runMW 0 mws h s) =
    if Nat.eqb (trues rs) (length mws) then ran (length mws) ++ [RanHandler]
    else ran (Datatypes.S (trues rs)).
Proof.
  intros mws h s. cbv zeta.
  assert (G : forall mws i s, 
    snd (runMW i mws h s) =
    if Nat.eqb (trues (mwResults mws s)) (length mws)
    then map (fun j => RanMW (i + j) (nth j (mwResults mws s) None)) (seq 0 (length mws)) ++ [RanHandler]
    else map (fun j => RanMW (i + j) (nth j (mwResults mws s) None)) (seq 0 (Datatypes.S (trues (mwResults mws s))))).
  { clear mws s. induction mws as [|m mws IH]; intros i s; [reflexivity|].
    cbn [runMW mwResults]. destruct (m s) as [s1 r] eqn:Em. cbn [fst snd].
    specialize (IH (Datatypes.S i) s1).
    destruct r as [[|]|]; cbn [trues okRes length Nat.eqb].
    - destruct (runMW (Datatypes.S i) mws h s1) as [s2 t]. cbn [snd] in *. rewrite IH. 
      assert (Sh : forall k, map (fun j => RanMW (Datatypes.S i + j) (nth j (mwResults mws s1) None)) (seq 0 k)
         = map (fun j => RanMW (i + j) (nth j (Some true :: mwResults mws s1) None)) (seq 1 k)).
      { intro k. rewrite <- seq_shift, map_map. apply map_ext. intro j. cbn [nth].
        replace (i + Datatypes.S j)%nat with (Datatypes.S i + j)%nat by lia. reflexivity. }
      rewrite !Sh.
      destruct (Nat.eqb (trues (mwResults mws s1)) (length mws)); cbn [seq map app nth];
        rewrite Nat.add_0_r; reflexivity.
    - cbn [seq map nth]. rewrite Nat.add_0_r. reflexivity.
    - cbn [seq map nth]. rewrite Nat.add_0_r. reflexivity. }
  rewrite (G mws 0%nat s). reflexivity.
Qed.
End M.
Print Assumptions C12_middleware_chain.

Example C12_example :
  let t : @middleware nat := fun s => (Datatypes.S s, Some true) in
  let f : @middleware nat := fun s => (s, Some (Nat.eqb s 1)) in
  snd (runMW 0 [t; f; t] (fun s => s) 0%nat)
    = [RanMW 0 (Some true); RanMW 1 (Some true); RanMW 2 (Some true); RanHandler] /\
  snd (runMW 0 [t; t; f; t] (fun s => s) 0%nat)
    = [RanMW 0 (Some true); RanMW 1 (Some true); RanMW 2 (Some false)].
Proof. split; reflexivity. Qed.
