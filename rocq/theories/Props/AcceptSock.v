(** C91: accepted sockets are prepared, then checked, then served. *)
From Verif Require Import Model.GoBase Model.Accept Model.AcceptSock.
Open Scope N_scope.

(** *** Specification *)

(** the socket an action is about *)
Definition about (a : sockAct) : option N :=
  match a with
  | SKeepAlive c | SPeriod c _ | SWriteBuf c _ | SReadBuf c _ | STLS c | SCheck c => Some c
  | SDo (ACloseConn c) | SDo (AOnClose c) | SDo (AServe c) => Some c
  | SDo (ASleep _) | SDo AReturn => None
  end.
(** socket c is closed by the accept loop or handed to a goroutine that serves it *)
Definition settles (c : N) (a : sockAct) : bool :=
  match a with SDo (ACloseConn d) | SDo (AServe d) => d =? c | _ => false end.
(** the sockets the listener handed out *)
Definition socks (rs : list (bool * raw)) : list N := flat_map (fun x => match snd x with RSock c _ _ => [c] | _ => [] end) rs.

(** the rounds that were run: Serve returns only at the last one *)
Definition done_ (cf : lconf) (rs : list (bool * raw)) : list (bool * raw) := firstn (length (serveSocks cf rs)) rs.

(** *** Lemmas *)

Lemma settles_about : forall c a, settles c a = true -> about a = Some c.
Proof. intros c [| | | | | |[]]; cbn; intro H; try discriminate H; apply N.eqb_eq in H; congruence. Qed.

Lemma options_about : forall cf c a, In a (options cf c) -> about a = Some c.
Proof.
  intros cf c a H. unfold options in H. rewrite !in_app_iff in H. destruct (0 <? keepMs cf), (0 <? wbufSize cf), (0 <? rbufSize cf); cbn in H; intuition (subst; reflexivity).
Qed.

(** one round *)
Definition oneRound (cf : lconf) (d : N) (done : bool) (r : raw) : list sockAct :=
  let '(pre, o) := kalAccept cf done r in let '(_, acts, _) := acceptRound (onAccept cf) (onClose cf) d o in pre ++ checkOf cf o ++ map SDo acts.

Lemma round_about : forall cf d done r a c, In a (oneRound cf d done r) -> about a = Some c -> exists t u, r = RSock c t u.
Proof.
  intros cf d done r a c H A. unfold oneRound in H. destruct r as [| |e [] u]; cbn [kalAccept] in H.
  - destruct done; cbn in H; (destruct H as [<-|[]]; discriminate A).
  - destruct done; cbn in H; (destruct H as [<-|[]]; discriminate A).
  - exists true, u. cbn [acceptRound checkOf] in H. destruct (onAccept cf && u); cbn [map] in H; rewrite !in_app_iff in H.
    + destruct H as [[H|H]|[H|H]].
      * apply options_about in H. congruence.
      * destruct (useTLS cf); [destruct H as [<-|[]]; cbn in A; congruence|contradiction].
      * destruct (onAccept cf); [destruct H as [<-|[]]; cbn in A; congruence|contradiction].
      * destruct H as [<-|H]; [cbn in A; congruence|]. destruct (onClose cf); cbn in H; [destruct H as [<-|[]]; cbn in A; congruence|contradiction].
    + destruct H as [[H|H]|[H|H]].
      * apply options_about in H. congruence.
      * destruct (useTLS cf); [destruct H as [<-|[]]; cbn in A; congruence|contradiction].
      * destruct (onAccept cf); [destruct H as [<-|[]]; cbn in A; congruence|contradiction].
      * destruct H as [<-|[]]; cbn in A; congruence.
  - destruct done; cbn in H; (destruct H as [<-|[]]; discriminate A).
Qed.

Lemma loop_cons : forall cf d done r rs, exists d' (go : bool),
  sockLoop cf d ((done, r) :: rs) = oneRound cf d done r :: (if go then sockLoop cf d' rs else []).
Proof.
  intros cf d done r rs. cbn [sockLoop]. unfold oneRound. destruct (kalAccept cf done r) as [pre o]. destruct (acceptRound (onAccept cf) (onClose cf) d o) as [[d' acts] go].
  exists d', go. reflexivity.
Qed.

(** only sockets that came out of the listener are touched *)
Lemma loop_about : forall cf rs d a c, In a (concat (sockLoop cf d rs)) -> about a = Some c -> In c (socks (firstn (length (sockLoop cf d rs)) rs)).
Proof.
  intros cf rs. induction rs as [|[done r] rs IH]; intros d a c H A; [contradiction|]. destruct (loop_cons cf d done r rs) as (d' & go & E). rewrite E in *.
  cbn [concat length firstn] in *. unfold socks. cbn [flat_map snd]. apply in_or_app. apply in_app_or in H. destruct H as [H|H].
  - left. destruct (round_about cf d done r a c H A) as (t & u & ->). left. reflexivity.
  - right. destruct go; [|contradiction]. apply (IH d' a c H A).
Qed.

Lemma filter_none : forall c l, (forall a, In a l -> about a <> Some c) -> filter (settles c) l = [].
Proof.
  intros c l. induction l as [|a l IH]; intro H; [reflexivity|]. cbn. destruct (settles c a) eqn:E.
  - exfalso. apply (H a (or_introl eq_refl)). apply settles_about. exact E.
  - apply IH. intros b HB. apply H. right. exact HB.
Qed.

Lemma opts_none : forall cf c, filter (settles c) (options cf c) = [].
Proof. intros. unfold options. destruct (0 <? keepMs cf), (0 <? wbufSize cf), (0 <? rbufSize cf); reflexivity. Qed.

Lemma round_tcp : forall cf d done c u, length (filter (settles c) (oneRound cf d done (RSock c true u))) = 1%nat.
Proof.
  intros. unfold oneRound. cbn [kalAccept acceptRound checkOf]. destruct (onAccept cf && u); cbn [map]; rewrite !filter_app, !opts_none;
    destruct (useTLS cf), (onAccept cf), (onClose cf); cbn; rewrite N.eqb_refl; reflexivity.
Qed.

Lemma socks_in : forall rs c, In c (socks rs) <-> exists done t u, In (done, RSock c t u) rs.
Proof.
  intros rs c. unfold socks. rewrite in_flat_map. split.
  - intros ([done r] & A & B). destruct r; cbn in B; try contradiction. destruct B as [<-|[]]. eauto.
  - intros (done & t & u & H). exists (done, RSock c t u). split; [exact H|left; reflexivity].
Qed.

Lemma firstn_in : forall (A : Type) n (l : list A) x, In x (firstn n l) -> In x l.
Proof. intros A n l x H. rewrite <- (firstn_skipn n l). apply in_or_app. left. exact H. Qed.

(** *** Theorems *)

(** Each socket with the methods of TCPConn is served or closed, exactly once, and closed exactly if OnAccept is set and refuses it
    (what becomes of sockets without them: C62_wrong_type_lost). *)
Theorem C91_settled :
  forall cf rs done c u, NoDup (socks rs) -> In (done, RSock c true u) (done_ cf rs) ->
  length (filter (settles c) (concat (serveSocks cf rs))) = 1%nat /\
  In (SDo (if onAccept cf && u then ACloseConn c else AServe c)) (concat (serveSocks cf rs)).
Proof.
  intros cf rs done c u ND H. unfold done_, serveSocks in *. revert H. generalize 0 as d. induction rs as [|[dn r] rs IH]; intros d H; [contradiction|].
  destruct (loop_cons cf d dn r rs) as (d' & go & E). rewrite E in *. cbn [length firstn concat] in *. rewrite filter_app, app_length.
  unfold socks in ND. cbn [flat_map snd] in ND. fold (socks rs) in ND.
  destruct H as [H|H].
  - inversion H; subst dn r. rewrite round_tcp. cbn [app] in ND. inversion ND as [|? ? NI _]; subst. split.
    + rewrite filter_none; [reflexivity|]. intros a HA AB. apply NI. destruct go; [|contradiction]. apply loop_about with (c := c) in HA; [|exact AB].
      apply socks_in in HA. destruct HA as (x & t & w & HA). apply socks_in. exists x, t, w. eapply firstn_in. exact HA.
    + apply in_or_app. left. unfold oneRound. cbn [kalAccept acceptRound]. destruct (onAccept cf && u); cbn [map]; rewrite !in_app_iff; right; right; left; reflexivity.
  - destruct go; [|contradiction]. assert (ND' : NoDup (socks rs)) by (destruct r; cbn in ND; [exact ND|exact ND|inversion ND; assumption]).
    destruct (IH ND' d' H) as [A B]. rewrite A. split; [|apply in_or_app; right; exact B]. rewrite filter_none; [reflexivity|].
    intros a HA AB. destruct (round_about cf d dn r a c HA AB) as (t & w & ->). cbn in ND. inversion ND as [|? ? NI _]; subst. apply NI.
    apply socks_in. exists done, true, u. eapply firstn_in. exact H.
Qed.
Print Assumptions C91_settled.

(** By the time OnAccept is called, and by the time the socket is served, the socket options of the configuration have been set and TLS put on it; OnAccept,
    if set, comes before serving. *)
Definition prepared (cf : lconf) (c : N) (l : list sockAct) : Prop :=
  (0 < keepMs cf -> In (SKeepAlive c) l /\ In (SPeriod c (keepMs cf)) l) /\ (0 < wbufSize cf -> In (SWriteBuf c (wbufSize cf)) l) /\
  (0 < rbufSize cf -> In (SReadBuf c (rbufSize cf)) l) /\ (useTLS cf = true -> In (STLS c) l).

Lemma prepared_mono : forall cf c l l', prepared cf c l -> (forall a, In a l -> In a l') -> prepared cf c l'.
Proof. intros cf c l l' (A & B & C & D) H. repeat split; intros; apply H; try (apply A; assumption); auto. Qed.

Lemma options_prepared : forall cf c, prepared cf c (options cf c ++ (if useTLS cf then [STLS c] else [])).
Proof.
  intros cf c. unfold prepared, options. split; [|split; [|split]]; intro H; rewrite ?in_app_iff; try (apply N.ltb_lt in H); rewrite H; cbn; tauto.
Qed.

Lemma split_out : forall (x : sockAct) P R pre p2, ~ In x P -> P ++ R = pre ++ x :: p2 -> exists q, pre = P ++ q.
Proof.
  intros x P. induction P as [|a P IH]; intros R pre p2 NI E; [exists pre; reflexivity|]. destruct pre as [|b pre]; cbn in E; inversion E; subst.
  - exfalso. apply NI. left. reflexivity.
  - destruct (IH R pre p2) as (q & ->); [intro; apply NI; right; assumption|assumption|]. exists q. reflexivity.
Qed.

Lemma round_split : forall cf rs c x, about x = Some c -> forall d pre post, concat (sockLoop cf d rs) = pre ++ x :: post ->
  exists d' dn t u p1 p2 q, oneRound cf d' dn (RSock c t u) = p1 ++ x :: p2 /\ pre = q ++ p1.
Proof.
  intros cf rs c x AB. induction rs as [|[dn r] rs IH]; intros d pre post H; [destruct pre; discriminate H|].
  destruct (loop_cons cf d dn r rs) as (d' & go & E). rewrite E in H. cbn [concat] in H.
  assert (T : (exists p2, oneRound cf d dn r = pre ++ x :: p2) \/ exists q, pre = oneRound cf d dn r ++ q /\ concat (if go then sockLoop cf d' rs else []) = q ++ x :: post).
  { clear E IH. generalize dependent (concat (if go then sockLoop cf d' rs else [])). generalize (oneRound cf d dn r). clear. intros l. revert pre.
    induction l as [|a l IH]; intros pre k H; [right; exists pre; auto|]. destruct pre as [|b pre]; cbn in H; inversion H; subst; [left; exists l; reflexivity|].
    destruct (IH pre k H2) as [(p2 & ->)|(q & -> & X)]; [left; exists p2; reflexivity|right; exists q; auto]. }
  destruct T as [(p2 & T)|(q & -> & T)].
  - destruct (round_about cf d dn r x c) as (t & u & ->); [rewrite T; apply in_or_app; right; left; reflexivity|exact AB|].
    exists d, dn, t, u, pre, p2, []. auto.
  - destruct go; [|destruct q; discriminate T]. destruct (IH d' q post T) as (d1 & dn1 & t & u & p1 & p2 & q1 & A & ->).
    exists d1, dn1, t, u, p1, p2, (oneRound cf d dn r ++ q1). rewrite app_assoc. auto.
Qed.

Lemma opts_not : forall cf c x, (x = SCheck c \/ x = SDo (AServe c) \/ x = SDo (ACloseConn c)) -> ~ In x (options cf c ++ (if useTLS cf then [STLS c] else [])).
Proof.
  intros cf c x H HI. unfold options in HI. rewrite !in_app_iff in HI.
  destruct (0 <? keepMs cf), (0 <? wbufSize cf), (0 <? rbufSize cf), (useTLS cf); cbn in HI; intuition congruence.
Qed.

Theorem C91_prepared :
  forall cf rs c x pre post, x = SCheck c \/ x = SDo (AServe c) ->
  concat (serveSocks cf rs) = pre ++ x :: post ->
  prepared cf c pre /\ (x = SDo (AServe c) -> onAccept cf = true -> In (SCheck c) pre).
Proof.
  intros cf rs c x pre post HX H.
  destruct (round_split cf rs c x) with (d := 0) (pre := pre) (post := post) as (d & dn & t & u & p1 & p2 & q & T & ->); [destruct HX; subst; reflexivity|exact H|]. clear H.
  unfold oneRound in T. destruct t; cbn [kalAccept] in T.
  2: { exfalso. destruct dn; cbn in T; destruct p1 as [|? [|]]; destruct HX; subst; discriminate T. }
  destruct (acceptRound (onAccept cf) (onClose cf) d (AConn c u)) as [[d' acts] go]. cbn [checkOf] in T. split.
  - destruct (split_out _ _ _ _ _ (opts_not cf c x ltac:(tauto)) T) as (q' & ->). eapply prepared_mono; [apply options_prepared|].
    intros a HA. apply in_or_app. right. apply in_or_app. left. exact HA.
  - intros -> O. rewrite O in T. rewrite app_assoc in T.
    destruct (split_out (SDo (AServe c)) ((options cf c ++ (if useTLS cf then [STLS c] else [])) ++ [SCheck c]) (map SDo acts) p1 p2) as (q' & ->); [|exact T|].
    + intro HI. apply in_app_or in HI. destruct HI as [HI|[HI|[]]]; [|discriminate HI]. apply (opts_not cf c (SDo (AServe c))) in HI; [exact HI|tauto].
    + rewrite !in_app_iff. right. left. right. left. reflexivity.
Qed.
Print Assumptions C91_prepared.

(** Nothing is done with a socket that the listener did not hand out. *)
Theorem C91_own_sockets :
  forall cf rs a c, In a (concat (serveSocks cf rs)) -> about a = Some c -> In c (socks (done_ cf rs)).
Proof. intros. eapply loop_about; eassumption. Qed.
Print Assumptions C91_own_sockets.

(** Only what is configured is done. *)
Definition asConfigured (cf : lconf) (a : sockAct) : Prop :=
  match a with
  | SKeepAlive _ => 0 < keepMs cf
  | SPeriod _ n => n = keepMs cf /\ 0 < n
  | SWriteBuf _ n => n = wbufSize cf /\ 0 < n
  | SReadBuf _ n => n = rbufSize cf /\ 0 < n
  | STLS _ => useTLS cf = true
  | SCheck _ => onAccept cf = true
  | SDo (ACloseConn _) => onAccept cf = true
  | SDo (AOnClose _) => onAccept cf = true /\ onClose cf = true
  | SDo _ => True
  end.

Theorem C91_as_configured : forall cf rs a, In a (concat (serveSocks cf rs)) -> asConfigured cf a.
Proof.
  intros cf rs a. unfold serveSocks. generalize 0 as d. induction rs as [|[dn r] rs IH]; intros d H; [contradiction|].
  destruct (loop_cons cf d dn r rs) as (d' & go & E). rewrite E in H. cbn [concat] in H. apply in_app_or in H. destruct H as [H|H].
  2: { destruct go; [apply (IH d' H)|contradiction]. }
  clear E IH. unfold oneRound in H. destruct r as [| |c [] u]; cbn [kalAccept] in H; try (destruct dn; cbn in H; destruct H as [<-|[]]; exact I).
  cbn [acceptRound checkOf] in H. unfold options in H.
  destruct (N.ltb_spec 0 (keepMs cf)), (N.ltb_spec 0 (wbufSize cf)), (N.ltb_spec 0 (rbufSize cf)), (useTLS cf) eqn:ET, (onAccept cf) eqn:EA, u, (onClose cf) eqn:EC;
    cbn in H; intuition (subst; cbn; auto).
Qed.
Print Assumptions C91_as_configured.

(** TLS, a write buffer size and OnAccept configured; socket 1 is served, socket 2 refused, socket 3 is no TCPConn, then the server is shut down. *)
Example C91_case :
  serveSocks (mkLc 20000 4096 0 true true true)
    [(false, RSock 1 true false); (false, RTemp); (false, RSock 2 true true); (false, RSock 3 false false); (true, RFatal); (false, RSock 4 true false)] =
  [ [SKeepAlive 1; SPeriod 1 20000; SWriteBuf 1 4096; STLS 1; SCheck 1; SDo (AServe 1)];
    [SDo (ASleep 5)];
    [SKeepAlive 2; SPeriod 2 20000; SWriteBuf 2 4096; STLS 2; SCheck 2; SDo (ACloseConn 2); SDo (AOnClose 2)];
    [SDo (ASleep 1000)];
    [SDo AReturn] ].
Proof. reflexivity. Qed.
