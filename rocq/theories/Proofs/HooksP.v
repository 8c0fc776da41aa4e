(** Invariant of Model/Hooks.v: what the log says about each connection. *)
From Verif Require Import Model.GoBase Model.Machine Model.Serve Model.Hooks Props.Serve.
Open Scope N_scope.

(** the connection an event is about *)
Definition conOf (e : hvt) : N :=
  match e with VAccept c | VAsk c | VAnswer c _ | VHandler c _ | VSub c | VSubEnd c | VClosed c | VOnClose c => c end.
(** the events of connection c *)
Definition about (c : N) (l : list hvt) : list hvt := filter (fun e => conOf e =? c) l.
(** what may happen between OnAccept and OnClose *)
Definition inner (c : N) (e : hvt) : Prop :=
  match e with VHandler d _ | VSub d | VSubEnd d | VClosed d => d = c | _ => False end.
Definition hevs (l : list hvt) : list hev := flat_map (fun e => match e with VHandler _ h => [h] | _ => [] end) l.
Definition subs (l : list hvt) : nat := length (filter (fun e => match e with VSub _ => true | _ => false end) l).
Definition subEnds (l : list hvt) : nat := length (filter (fun e => match e with VSubEnd _ => true | _ => false end) l).

Section Inv.
Context (K : nat) (lim : option Z) (hasA hasC : bool).

Definition intro (c : N) : list hvt := VAccept c :: if hasA then [VAsk c; VAnswer c true] else [].
Definition refusal (c : N) : list hvt := [VAccept c; VAsk c; VAnswer c false].

(** a handler that was called has returned, or runs *)
Definition live (v : sst) : Prop :=
  forall n, In (EStart n) (evs v) -> In (EFinish n) (evs v) \/ In n (running v) \/ sv v = SBlk n.

Definition good (s : hst) (c : N) : Prop :=
  let h := con s c in
  match ph h with
  | PNone => nextC s <= c /\ about c (log s) = []
  | PAsk => c < nextC s /\ loop s = Some c /\ hasA = true /\ about c (log s) = [VAccept c; VAsk c]
  | PNo => c < nextC s /\ loop s = Some c /\ hasA = true /\ about c (log s) = refusal c
  | PNoClosed => c < nextC s /\ loop s = Some c /\ hasA = true /\ about c (log s) = refusal c ++ [VClosed c]
  | PServe => c < nextC s /\ loop s <> Some c /\ reachable (sstep K lim) sinit (srv h) /\ live (srv h) /\
      (insub h = true -> rd (srv h) = RRead) /\
      exists b, about c (log s) = intro c ++ b /\ Forall (inner c) b /\ hevs b = evs (srv h) /\
        subs b = (subEnds b + if insub h then 1 else 0)%nat /\ (In (VClosed c) b <-> sv (srv h) = SClosed)
  | PGone => c < nextC s /\ loop s <> Some c /\
      ((hasA = true /\ about c (log s) = refusal c ++ VClosed c :: if hasC then [VOnClose c] else []) \/
       exists b, about c (log s) = intro c ++ b ++ (if hasC then [VOnClose c] else []) /\ Forall (inner c) b /\
         In (VClosed c) b /\ (forall n, In (EStart n) (hevs b) -> In (EFinish n) (hevs b)) /\ subs b = subEnds b)
  end.

Lemma about_app : forall c l m, about c (l ++ m) = about c l ++ about c m.
Proof. intros. apply filter_app. Qed.
Lemma about_all : forall c l, Forall (fun e => conOf e = c) l -> about c l = l.
Proof. induction l as [|e l IH]; intro H; [reflexivity|]. inversion H; subst. cbn. rewrite N.eqb_refl. f_equal. auto. Qed.
Lemma about_none : forall c d l, Forall (fun e => conOf e = d) l -> d <> c -> about c l = [].
Proof. induction l as [|e l IH]; intros H N; [reflexivity|]. inversion H; subst. cbn. destruct (N.eqb_spec (conOf e) c); [contradiction|auto]. Qed.

(** a step that touches connection c only *)
Lemma others : forall s s' c d es, Forall (fun e => conOf e = c) es -> log s' = log s ++ es -> con s' d = con s d -> d <> c ->
  (nextC s' = nextC s \/ (nextC s' = nextC s + 1 /\ c = nextC s)) ->
  (loop s' = loop s \/ (loop s = None /\ loop s' = Some c) \/ (loop s = Some c /\ loop s' = None)) ->
  good s d -> good s' d.
Proof.
  intros s s' c d es E L C N X Y G. unfold good in *. rewrite C, L, about_app, (about_none d c es E ltac:(congruence)), app_nil_r.
  assert (Z : forall P, loop s = Some d /\ P -> loop s' = Some d /\ P) by (intros P [A B]; split; [|assumption]; intuition congruence).
  assert (W : loop s <> Some d -> loop s' <> Some d) by (intros A B; intuition congruence).
  destruct (ph (con s d)).
  - destruct G as [G1 G2]. split; [|assumption]. destruct X as [X|[X1 X2]]; [rewrite X; assumption|]. rewrite X1. lia.
  - destruct G as (G1 & G2 & G3). split; [lia|]. apply Z. auto.
  - destruct G as (G1 & G2 & G3). split; [lia|]. apply Z. auto.
  - destruct G as (G1 & G2 & G3). split; [lia|]. apply Z. auto.
  - destruct G as (G1 & G2 & G3). split; [lia|]. split; [apply W; assumption|assumption].
  - destruct G as (G1 & G2 & G3). split; [lia|]. split; [apply W; assumption|assumption].
Qed.

Lemma evs_grow : forall v l v', sstep K lim v l = Some v' -> exists e, evs v' = evs v ++ e.
Proof.
  intros v l v' H. destruct l; cbn in H; unfold dispatch in H;
    repeat match type of H with
    | context [match ?x with _ => _ end] => destruct x; try discriminate H
    | context [if ?x then _ else _] => destruct x; try discriminate H
    end; injection H as <-; cbn; try (exists []; rewrite app_nil_r; reflexivity); eexists; reflexivity.
Qed.

Lemma In_mem : forall n l, mem n l = true -> In n l.
Proof. intros n l H. unfold mem in H. apply existsb_exists in H. destruct H as (x & A & B). apply Nat.eqb_eq in B. congruence. Qed.

Lemma live_step : forall v l v', sstep K lim v l = Some v' -> live v -> live v'.
Proof.
  intros v l v' H L. unfold live in *. destruct l; cbn in H; unfold dispatch in H;
    repeat match type of H with
    | context [match ?x with _ => _ end] => destruct x eqn:?; try discriminate H
    | context [if ?x then _ else _] => destruct x eqn:?; try discriminate H
    end; injection H as <-; cbn [evs running sv]; intros k HK;
    try (specialize (L k HK); intuition congruence).
  all: try (apply in_app_or in HK; destruct HK as [HK|[HK|[]]];
    [specialize (L k HK); rewrite ?in_app_iff; cbn [In]; intuition congruence|
     injection HK as ->; rewrite ?in_app_iff; cbn [In]; auto 6 ]).
  all: apply in_app_or in HK; destruct HK as [HK|[HK|[]]]; [|discriminate HK]; specialize (L k HK); rewrite in_app_iff; cbn [In].
  - destruct L as [L|[L|L]]; [auto|auto|]. left. right. left. congruence.
  - destruct L as [L|[L|L]]; [auto| |auto]. destruct (Nat.eq_dec k n) as [->|N]; [auto|].
    right. left. unfold rmv. apply filter_In. split; [assumption|]. apply negb_true_iff, Nat.eqb_neq. assumption.
Qed.

Lemma hevs_app : forall a b, hevs (a ++ b) = hevs a ++ hevs b.
Proof. intros. unfold hevs. apply flat_map_app. Qed.
Lemma subs_app : forall a b, subs (a ++ b) = (subs a + subs b)%nat.
Proof. intros. unfold subs. rewrite filter_app, app_length. reflexivity. Qed.
Lemma subEnds_app : forall a b, subEnds (a ++ b) = (subEnds a + subEnds b)%nat.
Proof. intros. unfold subEnds. rewrite filter_app, app_length. reflexivity. Qed.
Lemma hevs_map : forall c l, hevs (map (VHandler c) l) = l.
Proof. induction l as [|e l IH]; [reflexivity|]. cbn. f_equal. exact IH. Qed.
Lemma subs_map : forall c l, subs (map (VHandler c) l) = 0%nat.
Proof. induction l as [|e l IH]; [reflexivity|exact IH]. Qed.
Lemma subEnds_map : forall c l, subEnds (map (VHandler c) l) = 0%nat.
Proof. induction l as [|e l IH]; [reflexivity|exact IH]. Qed.

Lemma sv_closed : forall v l v', sstep K lim v l = Some v' -> (sv v' = SClosed <-> sv v = SClosed \/ l = SLSvClose).
Proof.
  intros v l v' H. destruct l; cbn in H; unfold dispatch in H;
    repeat match type of H with
    | context [match ?x with _ => _ end] => destruct x eqn:?; try discriminate H
    | context [if ?x then _ else _] => destruct x eqn:?; try discriminate H
    end; injection H as <-; cbn [sv]; intuition (try congruence).
Qed.

Lemma rd_keep : forall v l v', sstep K lim v l = Some v' -> readerAct l = false -> rd v = RRead -> rd v' = RRead.
Proof.
  intros v l v' H A B. destruct l; cbn in H, A; try discriminate A; unfold dispatch in H; rewrite ?B in H; cbn in H; try discriminate H;
    repeat match type of H with
    | context [match ?x with _ => _ end] => destruct x eqn:?; try discriminate H
    | context [if ?x then _ else _] => destruct x eqn:?; try discriminate H
    end; injection H as <-; cbn [rd]; congruence.
Qed.

Ltac oth := cbn [put log con nextC loop];
  try assumption; try (apply upd_neq; assumption); try (repeat constructor; fail); try (destruct hasC; repeat constructor; fail);
  try (destruct hasA; repeat constructor; fail); try match goal with ok : bool |- _ => destruct ok; auto; fail end; try (destruct hasA; auto; fail); auto.

Lemma good_step : forall s l s', (forall c, good s c) -> hstep K lim hasA hasC s l = Some s' -> forall c, good s' c.
Proof.
  intros s l s' I H d. destruct l as [|ok| | |c sl|c|c|c]; cbn [hstep] in H.
  - destruct (loop s) eqn:EL; [discriminate H|]. injection H as <-. pose proof (I d) as G. pose proof (I (nextC s)) as GN.
    destruct (N.eq_dec d (nextC s)) as [->|ND].
    + unfold good. cbn [con ph loop nextC log srv insub]. rewrite upd_eq. cbn [ph srv insub].
      assert (GN' : about (nextC s) (log s) = []).
      { unfold good in GN. destruct (ph (con s (nextC s))); [tauto|exfalso; lia..]. }
      rewrite about_app, GN'. unfold intro. destruct hasA eqn:EA; cbn [ph app].
      * rewrite about_all by (repeat constructor). repeat split; lia.
      * rewrite about_all by (repeat constructor). split; [lia|]. split; [discriminate|].
        split; [exists []; reflexivity|]. split; [intros n []|]. split; [discriminate|].
        exists []. cbn. repeat split; try (apply Forall_nil); try tauto; discriminate.
    + apply (others s _ (nextC s) d (VAccept (nextC s) :: if hasA then [VAsk (nextC s)] else [])); cbn [log con nextC loop]; auto.
      * destruct hasA; repeat constructor.
      * apply upd_neq; assumption.
      * destruct hasA; auto.
  - destruct (loop s) as [c|] eqn:EL; [|discriminate H]. destruct (ph (con s c)) eqn:EP; try discriminate H. injection H as <-.
    pose proof (I c) as GC. unfold good in GC. rewrite EP in GC. destruct GC as (G1 & G2 & G3 & G4).
    destruct (N.eq_dec d c) as [->|ND].
    + unfold good. cbn [con loop nextC log]. rewrite upd_eq. cbn [ph srv insub]. rewrite about_app, G4, about_all by (repeat constructor).
      destruct ok; cbn [ph].
      * split; [lia|]. split; [discriminate|]. split; [exists []; reflexivity|]. split; [intros n []|]. split; [discriminate|].
        exists []. unfold intro. rewrite G3. cbn. repeat split; try (apply Forall_nil); try tauto; discriminate.
      * repeat split; auto.
    + apply (others s _ c d [VAnswer c ok]); oth.
  - destruct (loop s) as [c|] eqn:EL; [|discriminate H]. destruct (ph (con s c)) eqn:EP; try discriminate H. injection H as <-.
    pose proof (I c) as GC. unfold good in GC. rewrite EP in GC. destruct GC as (G1 & G2 & G3 & G4).
    destruct (N.eq_dec d c) as [->|ND].
    + unfold good, put. cbn [con loop nextC log]. rewrite upd_eq. cbn [ph srv insub]. rewrite about_app, G4, about_all by (repeat constructor). auto.
    + apply (others s _ c d [VClosed c]); oth.
  - destruct (loop s) as [c|] eqn:EL; [|discriminate H]. destruct (ph (con s c)) eqn:EP; try discriminate H. injection H as <-.
    pose proof (I c) as GC. unfold good in GC. rewrite EP in GC. destruct GC as (G1 & G2 & G3 & G4).
    destruct (N.eq_dec d c) as [->|ND].
    + unfold good. cbn [con loop nextC log]. rewrite upd_eq. cbn [ph srv insub]. split; [lia|]. split; [discriminate|]. left. split; [assumption|].
      rewrite about_app, G4, (about_all c (if hasC then _ else _)) by (destruct hasC; repeat constructor). reflexivity.
    + apply (others s _ c d (if hasC then [VOnClose c] else [])); oth.
  - destruct (ph (con s c)) eqn:EP; try discriminate H. destruct (insub (con s c) && readerAct sl) eqn:ER; [discriminate H|].
    destruct (sstep K lim (srv (con s c)) sl) as [v|] eqn:ES; [|discriminate H]. injection H as <-.
    assert (FA : Forall (fun e => conOf e = c) (news c sl (srv (con s c)) v)).
    { unfold news. apply Forall_app. split; [apply Forall_forall; intros e HE; apply in_map_iff in HE; destruct HE as (x & <- & _); reflexivity|].
      destruct sl; repeat constructor. }
    destruct (N.eq_dec d c) as [->|ND].
    + pose proof (I c) as GC. unfold good in GC. rewrite EP in GC. destruct GC as (G1 & G2 & G3 & G4 & GS & b & B1 & B2 & B3 & B4 & B5).
      unfold good, put. cbn [con loop nextC log]. rewrite upd_eq. cbn [ph srv insub].
      split; [assumption|]. split; [assumption|]. split; [eapply reachable_step; eassumption|]. split; [eapply live_step; eassumption|].
      split. { intro HI. rewrite HI in ER. cbn in ER. eapply rd_keep; eauto. }
      destruct (evs_grow _ _ _ ES) as (e & EE).
      exists (b ++ news c sl (srv (con s c)) v). rewrite about_app, B1, (about_all c _ FA), <- app_assoc. split; [reflexivity|].
      unfold news. rewrite EE, skipn_app, skipn_all, Nat.sub_diag. cbn [skipn app].
      split; [apply Forall_app; split; [assumption|]; apply Forall_app; split|].
      * apply Forall_forall. intros x HE. apply in_map_iff in HE. destruct HE as (y & <- & _). reflexivity.
      * destruct sl; repeat constructor.
      * rewrite !hevs_app, hevs_map, !subs_app, !subEnds_app, subs_map, subEnds_map, B3, B4.
        assert (Z1 : hevs (match sl with SLSvClose => [VClosed c] | _ => [] end) = []) by (destruct sl; reflexivity).
        assert (Z2 : subs (match sl with SLSvClose => [VClosed c] | _ => [] end) = 0%nat) by (destruct sl; reflexivity).
        assert (Z3 : subEnds (match sl with SLSvClose => [VClosed c] | _ => [] end) = 0%nat) by (destruct sl; reflexivity).
        rewrite Z1, Z2, Z3, app_nil_r. split; [reflexivity|]. split; [lia|].
        rewrite (sv_closed _ _ _ ES), !in_app_iff, B5.
        assert (Z4 : In (VClosed c) (match sl with SLSvClose => [VClosed c] | _ => [] end) <-> sl = SLSvClose) by (destruct sl; cbn; intuition congruence).
        rewrite Z4. split; [|tauto]. intros [A|[A|A]]; auto. apply in_map_iff in A. destruct A as (x & A & _). discriminate A.
    + apply (others s _ c d _ FA); oth.
  - destruct (ph (con s c)) eqn:EP; try discriminate H. destruct (insub (con s c)) eqn:EI; [discriminate H|]. destruct (rd (srv (con s c))) eqn:ER; try discriminate H. injection H as <-.
    destruct (N.eq_dec d c) as [->|ND].
    + pose proof (I c) as GC. unfold good in GC. rewrite EP in GC. destruct GC as (G1 & G2 & G3 & G4 & GS & b & B1 & B2 & B3 & B4 & B5).
      unfold good, put. cbn [con loop nextC log]. rewrite upd_eq. cbn [ph srv insub].
      repeat (split; [assumption|]). split; [intros _; assumption|].
      exists (b ++ [VSub c]). rewrite about_app, B1, (about_all c [VSub c]), <- app_assoc by (repeat constructor).
      rewrite hevs_app, subs_app, subEnds_app, B3, in_app_iff, B4, EI. cbn. rewrite app_nil_r. rewrite B5.
      split; [reflexivity|]. split; [apply Forall_app; split; [assumption|repeat constructor]|]. split; [reflexivity|]. split; [lia|intuition congruence].
    + apply (others s _ c d [VSub c]); oth.
  - destruct (ph (con s c)) eqn:EP; try discriminate H. destruct (insub (con s c)) eqn:EI; [|discriminate H]. injection H as <-.
    destruct (N.eq_dec d c) as [->|ND].
    + pose proof (I c) as GC. unfold good in GC. rewrite EP in GC. destruct GC as (G1 & G2 & G3 & G4 & GS & b & B1 & B2 & B3 & B4 & B5).
      unfold good, put. cbn [con loop nextC log]. rewrite upd_eq. cbn [ph srv insub].
      repeat (split; [assumption|]). split; [discriminate|].
      exists (b ++ [VSubEnd c]). rewrite about_app, B1, (about_all c [VSubEnd c]), <- app_assoc by (repeat constructor).
      rewrite hevs_app, subs_app, subEnds_app, B3, in_app_iff, B4, EI. cbn. rewrite app_nil_r. rewrite B5.
      split; [reflexivity|]. split; [apply Forall_app; split; [assumption|repeat constructor]|]. split; [reflexivity|]. split; [lia|intuition congruence].
    + apply (others s _ c d [VSubEnd c]); oth.
  - destruct (ph (con s c)) eqn:EP; try discriminate H. destruct (allBack (con s c)) eqn:EA; [|discriminate H]. injection H as <-.
    destruct (N.eq_dec d c) as [->|ND].
    + pose proof (I c) as GC. unfold good in GC. rewrite EP in GC. destruct GC as (G1 & G2 & G3 & G4 & GS & b & B1 & B2 & B3 & B4 & B5).
      unfold good, put. cbn [con loop nextC log]. rewrite upd_eq. cbn [ph srv insub].
      unfold allBack in EA. destruct (rd (srv (con s c))) eqn:E1; try discriminate EA. destruct (sv (srv (con s c))) eqn:E2; try discriminate EA.
      destruct (spawned (srv (con s c))); [|discriminate EA]. destruct (running (srv (con s c))) eqn:E3; [|discriminate EA].
      split; [assumption|]. split; [assumption|]. right. exists b. rewrite about_app, B1, (about_all c (if hasC then _ else _)) by (destruct hasC; repeat constructor).
      rewrite <- app_assoc. split; [reflexivity|]. split; [assumption|]. split; [apply B5; reflexivity|]. split.
      * intros n. rewrite B3. intro A. destruct (G4 n A) as [X|[X|X]]; [assumption| |]; rewrite ?E3 in X; [contradiction|congruence].
      * rewrite B4. destruct (insub (con s c)); [|lia]. specialize (GS eq_refl). discriminate GS.
    + apply (others s _ c d (if hasC then [VOnClose c] else [])); oth.
Qed.

Lemma good_reach : forall s, reachable (hstep K lim hasA hasC) hinit s -> forall c, good s c.
Proof.
  intros s R. refine (reachable_inv (hstep K lim hasA hasC) (fun s => forall c, good s c) hinit _ good_step s R).
  intro c. unfold good. cbn. split; [lia|reflexivity].
Qed.
End Inv.
