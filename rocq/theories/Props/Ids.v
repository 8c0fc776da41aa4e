(** C09: request ids. *)
From Coq Require Import ZifyBool ZifyNat ZifyN.
From Verif Require Import Model.GoBase Model.Ids Model.FrameReader.
Ltac Zify.zify_post_hook ::= Z.div_mod_to_equations.
Open Scope N_scope.

Definition side_eqb (a b : side) : bool :=
  match a, b with Client, Client | Server, Server => true | _, _ => false end.
Definition issued (s : side) (sched : list side) : N := N.of_nat (length (filter (side_eqb s) sched)).

Lemma idRun_spec : forall sched a b,
  a + issued Client sched < 2^63 -> b + issued Server sched < 2^63 ->
  NoDup (map snd (idRun (a, b) sched)) /\
  Forall (fun x => match fst x with
                   | Client => 2*a+1 < snd x < 2^64 /\ snd x mod 2 = 1
                   | Server => 2*b < snd x < 2^64 /\ snd x mod 2 = 0
                   end) (idRun (a, b) sched).
Proof.
  change (2^63) with 9223372036854775808. change (2^64) with 18446744073709551616.
  induction sched as [|s sched IH]; intros a b HA HB; [split; constructor|].
  cbn [idRun]. unfold idStep, clientNextID, serverNextID, issued in *. destruct s;
    cbn [filter side_eqb length fst snd] in *.
  - assert (Eg : u64 (a + 1) = a + 1) by (unfold u64; apply N.mod_small; lia). rewrite Eg.
    assert (Ei : u64 (u64 (2 * (a + 1)) + 1) = 2 * (a + 1) + 1)
      by (unfold u64; rewrite (N.mod_small (2 * (a+1))) by lia; apply N.mod_small; lia).
    rewrite Ei. destruct (IH (a + 1) b) as [IH1 IH2]; [lia|lia|].
    cbn [map snd]. split.
    + constructor; [|exact IH1]. intro HI. apply in_map_iff in HI.
      destruct HI as ([s id] & E & HI). rewrite Forall_forall in IH2. specialize (IH2 _ HI).
      cbn [fst snd] in *. destruct s; lia.
    + constructor; [cbn [fst snd]; lia|].
      eapply Forall_impl; [|exact IH2]. intros [s id]. cbn [fst snd]. destruct s; lia.
  - assert (Eg : u64 (b + 1) = b + 1) by (unfold u64; apply N.mod_small; lia). rewrite Eg.
    assert (Ei : u64 (2 * (b + 1)) = 2 * (b + 1)) by (unfold u64; apply N.mod_small; lia).
    rewrite Ei. destruct (IH a (b + 1)) as [IH1 IH2]; [lia|lia|].
    cbn [map snd]. split.
    + constructor; [|exact IH1]. intro HI. apply in_map_iff in HI.
      destruct HI as ([s id] & E & HI). rewrite Forall_forall in IH2. specialize (IH2 _ HI).
      cbn [fst snd] in *. destruct s; lia.
    + constructor; [cbn [fst snd]; lia|].
      eapply Forall_impl; [|exact IH2]. intros [s id]. cbn [fst snd]. destruct s; lia.
Qed.

(** Any interleaving of fewer than 2^63 requests per side, from the initial counters. *)
Theorem C09_ids_never_collide :
  forall sched, issued Client sched < 2^63 -> issued Server sched < 2^63 ->
  NoDup (map snd (idRun (0, 0) sched)) /\
  Forall (fun x => snd x < 2^64 /\ snd x <> 0 /\
                   FromClient (snd x) = side_eqb (fst x) Client /\
                   FromServer (snd x) = side_eqb (fst x) Server) (idRun (0, 0) sched).
Proof.
  intros sched HA HB. destruct (idRun_spec sched 0 0 HA HB) as [H1 H2]. split; [exact H1|].
  eapply Forall_impl; [|exact H2]. intros [s id]. cbn [fst snd].
  unfold FromClient, FromServer. destruct s; cbn [side_eqb]; intros [[? ?] E]; rewrite E;
    repeat split; try reflexivity; try assumption; lia.
Qed.
Print Assumptions C09_ids_never_collide.

Example C09_example :
  map snd (idRun (0,0) [Client; Server; Server; Client; Client; Server]) = [3; 2; 4; 5; 7; 6].
Proof. vm_compute. reflexivity. Qed.

(** Beyond the bound the 64-bit counters wrap: after 2^63 server requests an id is 0, so the bound of the
    theorem is tight. *)
Theorem C09_bound_is_tight : snd (serverNextID (2^63 - 1)) = 0 /\ snd (clientNextID (2^63 - 1)) = 1.
Proof. split; vm_compute; reflexivity. Qed.
Print Assumptions C09_bound_is_tight.
