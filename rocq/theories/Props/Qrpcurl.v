(** C84: the command line tool qrpcurl. *)
From Coq Require Import ZifyBool ZifyNat ZifyN.
From Verif Require Import Model.GoBase Model.Qrpc Model.FrameWriter Model.FirstFrame Model.Qrpcurl Spec.FrameSpec Spec.WriterSpec Proofs.Writer Proofs.CodecP Props.Codec.
Open Scope N_scope.

(** a decimal numeral for n, as Go's Atoi takes it *)
Definition digit (b : N) : Prop := 48 <= b /\ b <= 57.
Definition value (ds : bytes) : N := fold_left (fun a b => a * 10 + (b - 48)) ds 0.
Definition numeral (c : bytes) (n : N) : Prop :=
  exists ds, ds <> [] /\ Forall digit ds /\ value ds = n /\ (c = ds \/ c = 43 :: ds \/ (c = 45 :: ds /\ n = 0)).

(** a text without / and : *)
Definition plain (t : bytes) : Prop := ~ In 47 t /\ ~ In 58 t.

(** the command line asks for cmd n, these flags and this payload at this address *)
Definition asks (args : list bytes) (flag : Z) (addr : bytes) (n fl : N) (payload : bytes) : Prop :=
  exists host port c, plain host /\ plain port /\ addr = host ++ 58 :: port /\ args = [addr ++ 47 :: c; payload] /\
    numeral c n /\ n <= 0xffffff /\ flag = Z.of_N fl /\ fl <= 255.

(** The full statement of C84: a command line of the right form (the tool has no codec) dials the address, sends one frame as asked, and
    waits for the answer; with any other nothing is dialed and nothing sent; it never panics. *)
Definition C84_statement : Prop :=
  forall args flag web dialOk,
  (forall addr n fl payload, asks args flag addr n fl payload -> IsCodec fl = false -> dialOk = true ->
     curl args flag web dialOk = mkOut (Some (addr, web)) (Some (doc_frame 3 fl n payload)) FWait) /\
  ((forall addr n fl payload, ~ asks args flag addr n fl payload) ->
     o_dial (curl args flag web dialOk) = None /\ o_wire (curl args flag web dialOk) = None) /\
  o_fin (curl args flag web dialOk) <> FPanic.

(** -f 16 h:1/2 "": the push flag *)
Theorem C84_refuted : ~ C84_statement.
Proof. intro H. destruct (H [[104; 58; 49; 47; 50]; []] 16%Z false true) as (_ & _ & X). apply X. vm_compute. reflexivity. Qed.
Print Assumptions C84_refuted.

(** ** Split and Atoi *)
Lemma split_none : forall sep l, ~ In sep l -> split sep l = [l].
Proof.
  induction l as [|b l IH]; intro H; [reflexivity|]. cbn [split]. rewrite IH by (intro; apply H; right; assumption).
  destruct (N.eqb_spec b sep) as [->|]; [contradiction H; left; reflexivity|reflexivity].
Qed.
Lemma split_one : forall sep l m, ~ In sep l -> split sep (l ++ sep :: m) = l :: split sep m.
Proof.
  induction l as [|b l IH]; intros m H; cbn [app split]; [rewrite N.eqb_refl; reflexivity|].
  rewrite IH by (intro; apply H; right; assumption). destruct (N.eqb_spec b sep) as [->|]; [contradiction H; left; reflexivity|reflexivity].
Qed.
Lemma split_len : forall sep l, split sep l <> [].
Proof. intros sep [|b l]; [discriminate|]. cbn [split]. destruct (b =? sep); [discriminate|]. destruct (split sep l); discriminate. Qed.
Lemma split_single : forall sep l p, split sep l = [p] -> l = p /\ ~ In sep l.
Proof.
  intros sep. induction l as [|b l IH]; intros p H; cbn [split] in H; [injection H as <-; split; [reflexivity|intros []]|].
  destruct (N.eqb_spec b sep) as [->|N]; [injection H as _ H; exfalso; exact (split_len _ _ H)|].
  destruct (split sep l) as [|q qs] eqn:E; [exfalso; exact (split_len _ _ E)|]. injection H as <- ->.
  destruct (IH q eq_refl) as [-> I]. split; [reflexivity|]. intros [X|X]; [congruence|contradiction].
Qed.
Lemma split_cons : forall sep l p q ps, split sep l = p :: q :: ps -> exists m, l = p ++ sep :: m /\ ~ In sep p /\ split sep m = q :: ps.
Proof.
  intros sep. induction l as [|b l IH]; intros p q ps H; cbn [split] in H; [discriminate H|].
  destruct (N.eqb_spec b sep) as [->|N]; [injection H as <- H; exists l; repeat split; [intros []|exact H]|].
  destruct (split sep l) as [|q0 qs] eqn:E; [exfalso; exact (split_len _ _ E)|]. injection H as <- ->.
  destruct (IH q0 q ps eq_refl) as (m & -> & I & S). exists m. repeat split; [|exact S]. intros [X|X]; [congruence|contradiction].
Qed.

Lemma digits_some : forall l acc, Forall digit l -> digits acc l = Some (fold_left (fun a b => a * 10 + (b - 48)) l acc).
Proof.
  induction l as [|b l IH]; intros acc H; [reflexivity|]. inversion H as [|? ? [A B] F]; subst. cbn [digits fold_left].
  rewrite (proj2 (N.leb_le _ _) A), (proj2 (N.leb_le _ _) B). apply IH. assumption.
Qed.
Lemma digits_inv : forall l acc n, digits acc l = Some n -> Forall digit l /\ n = fold_left (fun a b => a * 10 + (b - 48)) l acc.
Proof.
  induction l as [|b l IH]; intros acc n H; cbn [digits fold_left] in *; [injection H as <-; auto|].
  destruct ((48 <=? b) && (b <=? 57)) eqn:E; [|discriminate H]. apply andb_true_iff in E. destruct E as [E1 E2]. apply N.leb_le in E1, E2.
  destruct (IH _ _ H) as [F ->]. split; [constructor; [split; assumption|assumption]|reflexivity].
Qed.

Lemma atoi_numeral : forall c n, numeral c n -> n <= 0xffffff -> atoi c = Some (Z.of_N n).
Proof.
  intros c n (ds & NE & F & <- & C) L. unfold value in *. destruct ds as [|d ds]; [congruence|]. inversion F as [|? ? [D1 D2] F']; subst.
  assert (E : digits 0 (d :: ds) = Some (fold_left (fun a b => a * 10 + (b - 48)) (d :: ds) 0)) by (apply digits_some; assumption).
  set (v := fold_left (fun a b => a * 10 + (b - 48)) (d :: ds) 0) in *. unfold atoi. destruct C as [->|[->|[-> C]]].
  - rewrite (proj2 (N.eqb_neq d 43)) by lia. rewrite (proj2 (N.eqb_neq d 45)) by lia. rewrite E. rewrite (proj2 (N.ltb_lt _ _)) by lia. reflexivity.
  - cbn [N.eqb Pos.eqb]. rewrite E. rewrite (proj2 (N.ltb_lt _ _)) by lia. reflexivity.
  - cbn [N.eqb Pos.eqb]. rewrite E, C. reflexivity.
Qed.
Lemma atoi_inv : forall c z, atoi c = Some z -> (0 <= z)%Z -> numeral c (Z.to_N z).
Proof.
  intros c z H P. unfold atoi in H. destruct c as [|b r]; [discriminate H|].
  assert (X : forall ds, ds <> [] -> digits 0 ds = Some (Z.to_N z) -> ds <> [] /\ Forall digit ds /\ value ds = Z.to_N z).
  { intros ds NE D. apply digits_inv in D. destruct D as [D1 D2]. repeat split; auto. }
  destruct (N.eqb_spec b 43) as [->|N1]; [|destruct (N.eqb_spec b 45) as [->|N2]].
  - destruct r as [|d r]; [discriminate H|]. destruct (digits 0 (d :: r)) as [n|] eqn:D; [|discriminate H]. destruct (n <? 2 ^ 63); [|discriminate H]. injection H as <-.
    rewrite N2Z.id in *. exists (d :: r). destruct (X (d :: r) ltac:(discriminate) D) as (A & B & C). auto 6.
  - destruct r as [|d r]; [discriminate H|]. destruct (digits 0 (d :: r)) as [n|] eqn:D; [|discriminate H]. destruct (n <=? 2 ^ 63); [|discriminate H]. injection H as <-.
    assert (n = 0) by lia. subst n. exists (d :: r). destruct (X (d :: r) ltac:(discriminate) D) as (A & B & C). auto 8.
  - destruct (digits 0 (b :: r)) as [n|] eqn:D; [|discriminate H]. destruct (n <? 2 ^ 63); [|discriminate H]. injection H as <-.
    rewrite N2Z.id in *. exists (b :: r). destruct (X (b :: r) ltac:(discriminate) D) as (A & B & C). auto 6.
Qed.

(** ** What is sent *)
Lemma request_bytes : forall id cmd fl payload, fl <= 255 ->
  match snd (clientRequest None fresh id cmd fl payload) with
  | EwSent wire => wire = doc_frame id (ToNonCodec fl) cmd payload
  | _ => IsCodec fl = true
  end.
Proof.
  intros id cmd fl payload L. assert (F : fl < 256) by lia.
  assert (HT : ToNonStream fl = fl) by (apply N.eqb_eq; apply (flags_sweep (fun f => ToNonStream f =? f)); [vm_compute; reflexivity|assumption]).
  assert (CL : clean fresh) by (split; [reflexivity|repeat constructor]).
  pose proof (C02_wire_format_any_flags None fresh id cmd fl [payload] CL F) as H. cbn [map app wrun snd concat] in H. rewrite app_nil_r in H.
  unfold clientRequest. rewrite HT. unfold writeFirstFrame.
  change (newFrameWriter fresh) with fresh. cbn [wrun] in H. cbn in H.
  destruct (EndWrite None (WriteBytes (StartWrite fresh id cmd fl) payload)) as [w r] eqn:E. cbn [snd] in *.
  destruct r; auto. destruct H as (fl' & q & -> & [[-> ->]|(_ & _ & c & X & _)]); [reflexivity|discriminate X].
Qed.

(** the address and the cmd of a command line *)
Lemma curl_form : forall args flag web dialOk a w, o_dial (curl args flag web dialOk) = Some (a, w) ->
  w = web /\ exists host port c n payload, plain host /\ plain port /\ a = host ++ 58 :: port /\ args = [a ++ 47 :: c; payload] /\ numeral c n /\ n <= 0xffffff /\
    atoi c = Some (Z.of_N n).
Proof.
  intros args flag web dialOk a w H. unfold curl in H. destruct args as [|url [|payload [|x args]]]; try discriminate H.
  destruct (split 47 url) as [|hp [|cs [|y ys]]] eqn:S; try discriminate H. destruct (atoi cs) as [z|] eqn:A; [|discriminate H].
  destruct ((z <? 0)%Z || (Z.of_N MaxCmd <? z)%Z) eqn:Z; [discriminate H|]. apply orb_false_iff in Z. destruct Z as [Z1 Z2]. apply Z.ltb_ge in Z1, Z2.
  destruct (Nat.eqb_spec (length (split 58 hp)) 2) as [L|]; [|discriminate H]. cbn [negb] in H.
  assert (D : (a, w) = (hp, web)).
  { destruct dialOk; [|injection H as <- <-; reflexivity]. cbn [negb] in H. destruct ((flag <? 0)%Z || (255 <? flag)%Z); [injection H as <- <-; reflexivity|].
    destruct (snd (clientRequest None fresh 3 (Z.to_N z) (Z.to_N flag) payload)); injection H as <- <-; reflexivity. }
  injection D as -> ->. split; [reflexivity|].
  apply split_cons in S. destruct S as (m & -> & N1 & S). apply split_single in S. destruct S as [-> N2].
  destruct (split 58 hp) as [|host [|port [|? ?]]] eqn:S; try discriminate L. apply split_cons in S. destruct S as (m & -> & N3 & S). apply split_single in S. destruct S as [-> N4].
  exists host, port, cs, (Z.to_N z), payload. unfold plain. rewrite in_app_iff in N1. cbn in N1.
  repeat split; try tauto; try (apply atoi_inv; [assumption|lia]); unfold MaxCmd in Z2; [lia|]. rewrite Z2N.id by lia. assumption.
Qed.

Lemma curl_asked : forall args flag web addr n fl payload, asks args flag addr n fl payload ->
  curl args flag web true =
  match snd (clientRequest None fresh 3 n fl payload) with
  | EwSent wire => mkOut (Some (addr, web)) (Some wire) (if IsPush fl then FPanic else FWait)
  | _ => mkOut (Some (addr, web)) None FErr
  end.
Proof.
  intros args flag web addr n fl payload (host & port & c & [P1 P2] & [P3 P4] & -> & -> & NU & L & -> & LF).
  assert (NC : ~ In 47 c).
  { destruct NU as (ds & _ & F & _ & C). assert (X : ~ In 47 ds) by (intro X; rewrite Forall_forall in F; destruct (F _ X); lia).
    destruct C as [->|[->|[-> _]]]; cbn; intuition discriminate. }
  assert (NA : ~ In 47 (host ++ 58 :: port)) by (rewrite in_app_iff; cbn; intuition discriminate).
  unfold curl. rewrite split_one, split_none by assumption. rewrite (atoi_numeral c n NU L).
  assert (E1 : ((Z.of_N n <? 0)%Z || (Z.of_N MaxCmd <? Z.of_N n)%Z) = false) by (unfold MaxCmd; lia). rewrite E1.
  rewrite split_one, split_none by assumption. cbn [length Nat.eqb negb].
  assert (E2 : ((Z.of_N fl <? 0)%Z || (255 <? Z.of_N fl)%Z) = false) by lia. rewrite E2, !N2Z.id. reflexivity.
Qed.

(** Proved part of C84: a command line of the right form without the push flag does what it says.  Missing: with the push flag the
    Response is nil and the tool panics after it has sent the frame ([C84_refuted]). *)
Theorem C84_asked_partial : forall args flag web addr n fl payload,
  asks args flag addr n fl payload -> IsCodec fl = false -> IsPush fl = false ->
  curl args flag web true = mkOut (Some (addr, web)) (Some (doc_frame 3 fl n payload)) FWait.
Proof.
  intros args flag web addr n fl payload A C P. rewrite (curl_asked _ _ web _ _ _ _ A).
  assert (L : fl <= 255) by (destruct A as (? & ? & ? & _ & _ & _ & _ & _ & _ & _ & A); exact A).
  pose proof (request_bytes 3 n fl payload L) as R. destruct (snd (clientRequest None fresh 3 n fl payload)) as [| |wire]; [congruence|congruence|].
  rewrite R, P, ToNonCodec_id by (assumption || lia). reflexivity.
Qed.
Print Assumptions C84_asked_partial.

(** ... a frame is sent only when the command line has the right form, and it is the one asked for (without the codec flag, which is
    cleared when there is no payload) *)
Theorem C84_sent_partial : forall args flag web dialOk wire, o_wire (curl args flag web dialOk) = Some wire ->
  exists addr n fl payload, asks args flag addr n fl payload /\ o_dial (curl args flag web dialOk) = Some (addr, web) /\ wire = doc_frame 3 (ToNonCodec fl) n payload.
Proof.
  intros args flag web dialOk wire H.
  assert (D : exists aw, o_dial (curl args flag web dialOk) = Some aw /\ dialOk = true /\ (0 <= flag <= 255)%Z).
  { unfold curl in *. destruct args as [|url [|payload [|x args]]]; try discriminate H.
    destruct (split 47 url) as [|hp [|cs [|y ys]]]; try discriminate H. destruct (atoi cs) as [z|]; [|discriminate H].
    destruct ((z <? 0)%Z || (Z.of_N MaxCmd <? z)%Z); [discriminate H|]. destruct (Nat.eqb (length (split 58 hp)) 2); [|discriminate H]. cbn [negb] in *.
    destruct dialOk; [|discriminate H]. cbn [negb] in *. destruct ((flag <? 0)%Z || (255 <? flag)%Z) eqn:Z; [discriminate H|].
    destruct (snd (clientRequest None fresh 3 (Z.to_N z) (Z.to_N flag) payload)); try discriminate H. eexists. split; [reflexivity|]. split; [reflexivity|lia]. }
  destruct D as ((a & w) & D & -> & F). destruct (curl_form _ _ _ _ _ _ D) as (-> & host & port & c & n & payload & P1 & P2 & E1 & E2 & NU & L & AT).
  assert (A : asks args flag a n (Z.to_N flag) payload) by (exists host, port, c; repeat split; try assumption; try apply P1; try apply P2; lia).
  exists a, n, (Z.to_N flag), payload. split; [exact A|]. split; [exact D|].
  rewrite (curl_asked _ _ web _ _ _ _ A) in H. pose proof (request_bytes 3 n (Z.to_N flag) payload ltac:(lia)) as R.
  destruct (snd (clientRequest None fresh 3 n (Z.to_N flag) payload)); try discriminate H. injection H as <-. exact R.
Qed.
Print Assumptions C84_sent_partial.

(** ... something is dialed only when the address and the cmd have the right form.  Missing: it is dialed also when the flag is out of
    range ([C84_dials_for_nothing]). *)
Theorem C84_dialed_partial : forall args flag web dialOk a w, o_dial (curl args flag web dialOk) = Some (a, w) ->
  w = web /\ exists n payload, asks args 0 a n 0 payload.
Proof.
  intros args flag web dialOk a w D. destruct (curl_form _ _ _ _ _ _ D) as (-> & host & port & c & n & payload & P1 & P2 & E1 & E2 & NU & L & AT).
  split; [reflexivity|]. exists n, payload, host, port, c. repeat split; try assumption; try apply P1; try apply P2. lia.
Qed.
Print Assumptions C84_dialed_partial.

(** ... and it panics only with the push flag *)
Theorem C84_no_panic_partial : forall args flag web dialOk, o_fin (curl args flag web dialOk) = FPanic -> IsPush (Z.to_N flag) = true.
Proof.
  intros args flag web dialOk H. destruct (IsPush (Z.to_N flag)) eqn:P; [reflexivity|exfalso]. unfold curl in H. rewrite P in H.
  destruct args as [|url [|payload [|x args]]]; try discriminate H.
  destruct (split 47 url) as [|hp [|cs [|y ys]]]; try discriminate H. destruct (atoi cs) as [z|]; [|discriminate H].
  destruct ((z <? 0)%Z || (Z.of_N MaxCmd <? z)%Z); [discriminate H|]. destruct (negb (Nat.eqb (length (split 58 hp)) 2)); [discriminate H|].
  destruct (negb dialOk); [discriminate H|]. destruct ((flag <? 0)%Z || (255 <? flag)%Z); [discriminate H|].
  destruct (snd (clientRequest None fresh 3 (Z.to_N z) (Z.to_N flag) payload)); discriminate H.
Qed.
Print Assumptions C84_no_panic_partial.

Theorem C84_dials_for_nothing : curl [[104; 58; 49; 47; 50]; []] 256 false true = mkOut (Some ([104; 58; 49], false)) None FMsg.
Proof. vm_compute. reflexivity. Qed.
Print Assumptions C84_dials_for_nothing.

(** -f 8 -w h:1/+07 "x" *)
Example C84_case : asks [[104; 58; 49; 47; 43; 48; 55]; [120]] 8 [104; 58; 49] 7 8 [120] /\
  curl [[104; 58; 49; 47; 43; 48; 55]; [120]] 8 true true = mkOut (Some ([104; 58; 49], true)) (Some [0; 0; 0; 13; 0; 0; 0; 0; 0; 0; 0; 3; 8; 0; 0; 7; 120]) FWait.
Proof.
  split; [|vm_compute; reflexivity]. exists [104], [49], [43; 48; 55]. unfold plain. cbn. repeat split; try (intuition discriminate); try lia.
  exists [48; 55]. repeat split; try discriminate; auto. repeat constructor; cbn; discriminate.
Qed.
