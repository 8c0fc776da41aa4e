(** C26, C27, C28: the serve loop of a server connection. *)
From Coq Require Import ZifyBool ZifyNat.
From Verif Require Import Model.GoBase Model.Machine Model.Serve.
Open Scope nat_scope.

(** *** C28: inbound rate limit *)

(** [m + 1] consecutive frames read in the same clock second *)
Definition hasRun (m : nat) (ts : list Z) : Prop := exists pre t post, ts = pre ++ repeat t (S m) ++ post.

Lemma hasRun_cons : forall m t ts, hasRun m ts -> hasRun m (t :: ts).
Proof. intros m t ts (pre & u & post & ->). exists (t :: pre), u, post. reflexivity. Qed.

Lemma repeat_snoc : forall (t : Z) n l, repeat t n ++ t :: l = repeat t (S n) ++ l.
Proof. induction n; intro l; [reflexivity|]. cbn. f_equal. apply IHn. Qed.

Lemma nth_repeat_in : forall (u d : Z) n i, i < n -> nth i (repeat u n) d = u.
Proof. induction n as [|n IH]; intros [|i] H; cbn; try lia. apply IH. lia. Qed.

Lemma no_cross : forall m last t ts c, c <= m -> t <> last -> hasRun m (repeat last c ++ t :: ts) -> hasRun m (t :: ts).
Proof.
  induction c as [|c IH]; intros HC NE H; [exact H|].
  destruct H as (pre & u & post & E). destruct pre as [|x pre].
  - exfalso. cbn [app] in E. assert (X : nth (S c) (repeat u (S m) ++ post) 0%Z = u).
    { rewrite app_nth1 by (rewrite repeat_length; lia). apply nth_repeat_in. lia. }
    assert (Y : nth 0 (repeat u (S m) ++ post) 0%Z = u) by reflexivity.
    rewrite <- E in X, Y. cbn [repeat app nth] in X, Y. rewrite app_nth2 in X by (rewrite repeat_length; lia).
    rewrite repeat_length, Nat.sub_diag in X. cbn in X. congruence.
  - cbn in E. inversion E; subst. apply IH; [lia|assumption|]. exists pre, u, post. assumption.
Qed.

Lemma rateRun_spec : forall m ts last c acc, 1 <= m -> c <= m ->
  (rateRun m last c acc ts = None <-> ~ hasRun m (repeat last c ++ ts)).
Proof.
  induction ts as [|t ts IH]; intros last c acc HM HC; cbn [rateRun].
  - split; [|reflexivity]. intros _ (pre & u & post & E). apply (f_equal (@length Z)) in E.
    rewrite !app_length, !repeat_length in E. cbn in E. lia.
  - destruct (Z.eqb_spec t last) as [->|NE].
    + destruct (Nat.ltb_spec m (S c)).
      * split; [discriminate|]. intro H0. exfalso. apply H0. exists [], last, ts. cbn [app]. rewrite repeat_snoc. f_equal. f_equal. lia.
      * rewrite IH by lia. rewrite repeat_snoc. reflexivity.
    + destruct (Nat.ltb_spec m 1); [lia|]. rewrite IH by lia. cbn [repeat app]. split; intros H0 H1; apply H0.
      * exact (no_cross m last t ts c HC NE H1).
      * clear - H1. induction c; [assumption|]. cbn. apply hasRun_cons. assumption.
Qed.

Lemma rateRun_some : forall m ts last c acc k, rateRun m last c acc ts = Some k ->
  acc <= k < acc + length ts /\ rateRun m last c acc (firstn (k - acc) ts) = None /\
  rateRun m last c acc (firstn (S (k - acc)) ts) <> None.
Proof.
  induction ts as [|t ts IH]; intros last c acc k H; [discriminate|]. cbn [rateRun] in H. cbn [length].
  remember (if (t =? last)%Z then S c else 1) as c'. destruct (m <? c') eqn:E.
  - inversion H; subst k. rewrite Nat.sub_diag. split; [lia|]. split; [reflexivity|].
    cbn [firstn rateRun]. rewrite <- Heqc', E. discriminate.
  - destruct (IH _ _ _ _ H) as (A & B & C). split; [lia|].
    replace (k - acc) with (S (k - S acc)) by lia. cbn [firstn rateRun] in *. rewrite <- Heqc', E. split; assumption.
Qed.

(** The connection is closed exactly by the first frame that is the (m+1)-st in a row read in one clock
    second; the frames before it are accepted. *)
Theorem C28_closed_iff :
  forall m ts, 1 <= m ->
  (rateLimit m ts = None <-> ~ hasRun m ts) /\
  (forall k, rateLimit m ts = Some k -> k < length ts /\ ~ hasRun m (firstn k ts) /\ hasRun m (firstn (S k) ts)).
Proof.
  intros m ts HM. assert (G : forall l, rateLimit m l = None <-> ~ hasRun m l).
  { intro l. unfold rateLimit. rewrite (rateRun_spec m l 0%Z 0 0) by lia. reflexivity. }
  split; [apply G|]. intros k H. destruct (rateRun_some _ _ _ _ _ _ H) as (A & B & C). rewrite Nat.sub_0_r in *.
  split; [lia|]. split; [apply G; assumption|].
  destruct (rateLimit m (firstn (S k) ts)) as [j|] eqn:E.
  2:{ exfalso. apply C. exact E. }
  (* the run is there: otherwise the limit would not have struck *)
  clear - E HM. assert (X : forall l last c acc j, c <= m -> rateRun m last c acc l = Some j -> hasRun m (repeat last c ++ l)).
  { induction l as [|t l IH]; intros last c acc k0 HC H; [discriminate|]. cbn [rateRun] in H.
    destruct (Z.eqb_spec t last) as [->|NE].
    - destruct (Nat.ltb_spec m (S c)).
      + exists [], last, l. cbn [app]. rewrite repeat_snoc. f_equal. f_equal. lia.
      + rewrite repeat_snoc. eapply IH; [|eassumption]. lia.
    - destruct (Nat.ltb_spec m 1); [lia|]. specialize (IH t 1 (S acc) k0 HM H). cbn [repeat app] in IH.
      clear - IH. induction c; [assumption|]. cbn. apply hasRun_cons. assumption. }
  exact (X _ 0%Z 0 0 j (Nat.le_0_l m) E).
Qed.
Print Assumptions C28_closed_iff.

(** A connection that reads at most m frames in every clock second is never closed by the limit. *)
Theorem C28_below_limit_never_closed :
  forall m ts, 1 <= m -> (forall t, count_occ Z.eq_dec ts t <= m) -> rateLimit m ts = None.
Proof.
  intros m ts HM H. apply (proj1 (C28_closed_iff m ts HM)). intros (pre & t & post & ->). specialize (H t).
  rewrite !count_occ_app in H. assert (count_occ Z.eq_dec (repeat t (S m)) t = S m).
  { clear. induction (S m) as [|n IH]; [reflexivity|]. cbn. destruct (Z.eq_dec t t); [lia|congruence]. }
  lia.
Qed.
Print Assumptions C28_below_limit_never_closed.

Example C28_example :
  rateLimit 2 [5; 5; 6; 6; 7; 7; 7; 8]%Z = Some 6 /\ rateLimit 3 [5; 5; 6; 6; 7; 7; 7; 8]%Z = None /\
  hasRun 2 (firstn 7 [5; 5; 6; 6; 7; 7; 7; 8]%Z).
Proof. repeat split. exists [5; 5; 6; 6]%Z, 7%Z, []. reflexivity. Qed.

(** *** The invariant of the serve loop *)

Definition startCnt (e : list hev) (n : nat) : nat :=
  length (filter (fun x => match x with EStart k => k =? n | _ => false end) e).
Definition cnt (l : list nat) (n : nat) : nat := length (filter (fun k => k =? n) l).
Definition rdCnt (p : rdpc) (n : nat) : nat := match p with RSend k _ => if k =? n then 1 else 0 | _ => 0 end.
Definition nblk (l : list (nat * bool)) : nat := length (filter snd l).
Definition svTok (p : svpc) : nat := match p with SBlk _ | SDefer _ | SDone => 1 | _ => 0 end.
Definition gTok (b : bool) : nat := if b then 1 else 0.
Arguments startCnt : simpl never. Arguments cnt : simpl never. Arguments nblk : simpl never.
Arguments rmv : simpl never. Arguments mem : simpl never.

Lemma startCnt_snoc : forall e x n, startCnt (e ++ [x]) n = startCnt e n + match x with EStart k => if k =? n then 1 else 0 | _ => 0 end.
Proof. intros. unfold startCnt. rewrite filter_app, app_length. cbn. destruct x as [k|k]; [destruct (k =? n)|]; reflexivity. Qed.
Lemma cnt_snoc : forall l k n, cnt (l ++ [k]) n = cnt l n + if k =? n then 1 else 0.
Proof. intros. unfold cnt. rewrite filter_app, app_length. cbn. destruct (k =? n); reflexivity. Qed.
Lemma cnt_cons : forall l k n, cnt (k :: l) n = (if k =? n then 1 else 0) + cnt l n.
Proof. intros. unfold cnt. cbn. destruct (k =? n); reflexivity. Qed.
Lemma cnt_rmv : forall l k n, cnt (rmv k l) n = if k =? n then 0 else cnt l n.
Proof.
  intros. unfold cnt, rmv. induction l as [|a l IH]; cbn; [destruct (k =? n); reflexivity|].
  destruct (Nat.eqb_spec a k) as [->|]; cbn.
  - rewrite IH. destruct (Nat.eqb_spec k n); reflexivity.
  - destruct (Nat.eqb_spec a n); cbn; rewrite IH; destruct (Nat.eqb_spec k n); try reflexivity; congruence.
Qed.
Lemma cnt_mem : forall l n, mem n l = true -> 1 <= cnt l n.
Proof.
  intros l n. unfold mem, cnt. induction l as [|a l IH]; cbn; [discriminate|]. destruct (a =? n); cbn; [lia|assumption].
Qed.
Lemma cnt_In : forall l n, 1 <= cnt l n <-> In n l.
Proof.
  intros l n. unfold cnt. induction l as [|a l IH]; cbn; [lia|]. destruct (Nat.eqb_spec a n); cbn.
  - split; [auto|lia].
  - rewrite IH. split; [auto|intros [|]; [congruence|assumption]].
Qed.
Lemma rmv_length : forall l n, cnt l n = 1 -> S (length (rmv n l)) = length l.
Proof.
  intros l n. unfold cnt, rmv. induction l as [|a l IH]; cbn; [discriminate|]. destruct (Nat.eqb_spec a n) as [->|]; cbn.
  - intro H. f_equal. assert (X : forall q, length (filter (fun k => k =? n) q) = 0 -> filter (fun m => negb (m =? n)) q = q).
    { induction q as [|b q IHq]; cbn; [reflexivity|]. destruct (b =? n); cbn; [discriminate|]. intro Y. f_equal. apply IHq. assumption. }
    rewrite X; [reflexivity|]. lia.
  - intro H. f_equal. apply IH. assumption.
Qed.
Lemma In_rmv : forall l n k, In k (rmv n l) -> In k l.
Proof. intros l n k H. apply filter_In in H. apply H. Qed.
Lemma nblk_snoc : forall l n b, nblk (l ++ [(n, b)]) = nblk l + if b then 1 else 0.
Proof. intros. unfold nblk. rewrite filter_app, app_length. destruct b; reflexivity. Qed.
Lemma nblk_cons : forall l n b, nblk ((n, b) :: l) = (if b then 1 else 0) + nblk l.
Proof. intros. unfold nblk. cbn. destruct b; reflexivity. Qed.
Lemma nblk_0 : forall l n, nblk l = 0 -> ~ In (n, true) l.
Proof.
  induction l as [|[k b] l IH]; intros n H HI; [contradiction|]. rewrite nblk_cons in H. destruct HI as [E|HI].
  - inversion E; subst. lia.
  - apply (IH n); [lia|assumption].
Qed.
Lemma startCnt_In : forall e n, 1 <= startCnt e n <-> In (EStart n) e.
Proof.
  intros e n. unfold startCnt. induction e as [|x e IH]; cbn; [lia|]. destruct x as [k|k].
  - destruct (Nat.eqb_spec k n) as [->|]; cbn; [split; [auto|lia]|]. rewrite IH. split; [auto|intros [E|]; [congruence|assumption]].
  - rewrite IH. split; [auto|intros [E|]; [congruence|assumption]].
Qed.

(** The specification of C26 on the sequence of handler starts and returns: when request m starts, every
    blocking request that arrived before it has returned. *)
Definition ordered (kd : nat -> bool) (e : list hev) : Prop :=
  forall a m b, e = a ++ EStart m :: b -> forall n, n < m -> kd n = true -> In (EFinish n) a.

Lemma snoc_split : forall (e a b : list hev) x y, e ++ [x] = a ++ y :: b -> (b = [] /\ a = e /\ x = y) \/ exists b', b = b' ++ [x] /\ e = a ++ y :: b'.
Proof.
  intros e a b x y H. destruct (exists_last (l := y :: b)) as (q & z & E); [discriminate|]. rewrite E, app_assoc in H.
  apply app_inj_tail in H. destruct H as [H ->]. destruct q as [|w q]; cbn in E.
  - inversion E; subst. left. rewrite app_nil_r. repeat split; reflexivity.
  - inversion E; subst. right. exists q. split; reflexivity.
Qed.

(** [air]: a request that was taken out of the channel (or received directly) and is not yet dispatched. *)
Definition airCnt (air : option (nat * bool)) (n : nat) : nat :=
  match air with Some (k, _) => if k =? n then 1 else 0 | None => 0 end.
Definition airTok (air : option (nat * bool)) : nat := match air with Some (_, true) => 1 | _ => 0 end.

Record sinvG (lim : option Z) (air : option (nat * bool)) (s : sst) : Prop := {
  v_send : forall n b, rd s = RSend n b -> S n = narr s /\ kind s n = b;
  v_ch : forall n b, In (n, b) (ch s) \/ air = Some (n, b) -> n < narr s /\ kind s n = b;
  v_sp : forall n, In n (spawned s) -> n < narr s /\ kind s n = false;
  v_run : forall n, In n (running s) -> In (EStart n) (evs s);
  v_tok : airTok air + nblk (ch s) + svTok (sv s) + gTok (gateFull s) <= 1;
  v_rd : 1 <= airTok air + nblk (ch s) + svTok (sv s) + gTok (gateFull s) -> rd s = RGate \/ rd s = RExit;
  v_chl : forall n, In (n, true) (ch s) \/ air = Some (n, true) -> S n = narr s;
  v_svl : forall n, sv s = SBlk n \/ sv s = SDefer n -> S n = narr s /\ kind s n = true /\ In (EStart n) (evs s);
  v_fin : forall n, n < narr s -> kind s n = true -> In (EFinish n) (evs s) \/
            (S n = narr s /\ (air = Some (n, true) \/ rd s = RSend n true \/ In (n, true) (ch s) \/ sv s = SBlk n \/ rd s = RExit));
  v_ord : ordered (kind s) (evs s);
  v_lt : forall n, In (EStart n) (evs s) -> n < narr s;
  v_fs : forall a n b, evs s = a ++ EFinish n :: b -> In (EStart n) a;
  v_cnt : forall n, startCnt (evs s) n + cnt (spawned s) n + cnt (map fst (ch s)) n + rdCnt (rd s) n + airCnt air n <= 1;
  v_cntr : forall n, cnt (running s) n <= startCnt (evs s) n;
  v_lim : forall m, lim = Some m -> (Z.of_nat (length (spawned s) + length (running s)) <= m + Z.of_nat (blkDone s) /\
     Z.of_nat (length (spawned s) + length (running s)) <= counter s + Z.of_nat (blkDone s) <=
       Z.of_nat (length (spawned s) + length (running s)) + match sv s with SExit | SClosed => 1 | _ => 0 end)%Z;
  v_bd : 0 < blkDone s -> exists n, n < narr s /\ kind s n = true }.
Definition sinv lim s := sinvG lim None s.

Lemma sinv_init : forall lim, (match lim with Some m => (0 < m)%Z | None => True end) -> sinv lim sinit.
Proof.
  intros lim HL. split; cbn.
  - discriminate.
  - intros n b [H|H]; [contradiction|discriminate].
  - contradiction.
  - contradiction.
  - unfold nblk. cbn. lia.
  - unfold nblk. cbn. lia.
  - intros n [H|H]; [contradiction|discriminate].
  - intros n [H|H]; discriminate.
  - intros n H. lia.
  - intros a m b E. destruct a; discriminate.
  - contradiction.
  - intros a n b E. destruct a; discriminate.
  - intro n. unfold startCnt, cnt. cbn. lia.
  - intro n. unfold startCnt, cnt. cbn. lia.
  - intros m ->. lia.
  - lia.
Qed.

Lemma ordered_start : forall kd e m, ordered kd e -> (forall n, n < m -> kd n = true -> In (EFinish n) e) -> ordered kd (e ++ [EStart m]).
Proof.
  intros kd e m H HM a k b E. destruct (snoc_split _ _ _ _ _ E) as [(-> & -> & X)|(b' & -> & ->)].
  - inversion X; subst. assumption.
  - eapply H. reflexivity.
Qed.
Lemma ordered_finish : forall kd e m, ordered kd e -> ordered kd (e ++ [EFinish m]).
Proof.
  intros kd e m H a k b E. destruct (snoc_split _ _ _ _ _ E) as [(-> & -> & X)|(b' & -> & ->)]; [discriminate|].
  eapply H. reflexivity.
Qed.
Lemma fs_start : forall e m, (forall a n b, e = a ++ EFinish n :: b -> In (EStart n) a) ->
  forall a n b, e ++ [EStart m] = a ++ EFinish n :: b -> In (EStart n) a.
Proof. intros e m H a n b E. destruct (snoc_split _ _ _ _ _ E) as [(-> & -> & X)|(b' & -> & ->)]; [discriminate|]. eapply H. reflexivity. Qed.
Lemma fs_finish : forall e m, (forall a n b, e = a ++ EFinish n :: b -> In (EStart n) a) -> In (EStart m) e ->
  forall a n b, e ++ [EFinish m] = a ++ EFinish n :: b -> In (EStart n) a.
Proof. intros e m H HI a n b E. destruct (snoc_split _ _ _ _ _ E) as [(-> & -> & X)|(b' & -> & ->)]; [inversion X; subst; assumption|]. eapply H. reflexivity. Qed.

(** every blocking request that arrived before m has returned, if m has arrived *)
Lemma before_done : forall lim air s m n, sinvG lim air s -> m < narr s -> n < m -> kind s n = true -> In (EFinish n) (evs s).
Proof. intros lim air s m n I HM HN HK. destruct (v_fin _ _ _ I n) as [|[E _]]; [lia|assumption|assumption|lia]. Qed.

Lemma in_ev_snoc : forall (e : list hev) x y, In x e -> In x (e ++ [y]).
Proof. intros. apply in_or_app. auto. Qed.

Lemma dispatch_inv : forall lim s n b,
  sinvG lim (Some (n, b)) s -> sv s = SLoop -> sinv lim (dispatch lim n b s).
Proof.
  intros lim s n b I HS. pose proof (fun k => before_done lim (Some (n, b)) s n k I) as BD.
  destruct I as [SE CH SP RU TO RD CL SL FI OR LT FS CN CR LI BO]. rewrite HS in *. cbn [svTok airTok airCnt] in *.
  destruct (CH n b (or_intror eq_refl)) as [HN HK].
  unfold dispatch. destruct b.
  - pose proof (CL n (or_intror eq_refl)) as HL. split; cbn; auto.
    + intros k c [H|H]; [apply CH; auto|discriminate].
    + intros k H. apply in_ev_snoc. auto.
    + lia.
    + intros _. apply RD. lia.
    + intros k [H|H]; [apply CL; auto|discriminate].
    + intros k [H|H]; [|discriminate]. inversion H; subst. repeat split; [assumption..|apply in_or_app; right; left; reflexivity].
    + intros k Hk Hb. destruct (FI k Hk Hb) as [F|[E F]]; [left; apply in_ev_snoc; assumption|].
      right. split; [assumption|]. assert (k = n) by lia. subst k. auto.
    + apply ordered_start; [assumption|]. intros k Hk Hb. apply BD; assumption.
    + intros k H. apply in_app_or in H. destruct H as [H|[H|[]]]; [auto|]. inversion H; subst. assumption.
    + apply fs_start. assumption.
    + intro k. specialize (CN k). rewrite startCnt_snoc. lia.
    + intro k. specialize (CR k). rewrite startCnt_snoc. lia.
  - assert (G : forall c v, (v = SLoop \/ v = SExit) -> 
      (forall m, lim = Some m -> (Z.of_nat (length (if match v with SLoop => true | _ => false end then spawned s ++ [n] else spawned s) + length (running s)) <= m + Z.of_nat (blkDone s) /\
     Z.of_nat (length (if match v with SLoop => true | _ => false end then spawned s ++ [n] else spawned s) + length (running s)) <= c + Z.of_nat (blkDone s) <=
       Z.of_nat (length (if match v with SLoop => true | _ => false end then spawned s ++ [n] else spawned s) + length (running s)) + match v with SExit | SClosed => 1 | _ => 0 end)%Z) ->
      sinv lim (mkS (rd s) v (ch s) (gateFull s) (cancelled s) (if match v with SLoop => true | _ => false end then spawned s ++ [n] else spawned s) (running s) c (narr s) (kind s) (evs s) (blkDone s))).
    { intros c v HV HL. split; cbn; auto.
      - intros k b [H|H]; [apply CH; auto|discriminate].
      - intros k H. destruct HV; subst v; [|auto]. apply in_app_or in H. destruct H as [H|[H|[]]]; [auto|]. subst k. auto.
      - destruct HV; subst v; cbn; lia.
      - intro H. apply RD. destruct HV; subst v; cbn in H; lia.
      - intros k [H|H]; [apply CL; auto|discriminate].
      - intros k H. destruct HV; subst v; destruct H; discriminate.
      - intros k Hk Hb. destruct (FI k Hk Hb) as [F|[E F]]; [auto|]. right. split; [assumption|].
        destruct F as [F|[F|[F|[F|F]]]]; try discriminate; auto.
      - intro k. specialize (CN k). destruct HV; subst v; [rewrite cnt_snoc; lia|lia]. }
    destruct lim as [m|].
    + destruct (Z.gtb_spec (counter s + 1) m).
      * apply (G (counter s + 1)%Z SExit); [auto|]. intros m' E. inversion E; subst m'. specialize (LI m eq_refl). cbn. lia.
      * apply (G (counter s + 1)%Z SLoop); [auto|]. intros m' E. inversion E; subst m'. specialize (LI m eq_refl). cbn. rewrite app_length. cbn. lia.
    + apply (G (counter s) SLoop); [auto|]. intros m' E. discriminate.
Qed.

Lemma sinv_step : forall K lim s l s', sinv lim s -> sstep K lim s l = Some s' -> sinv lim s'.
Proof.
  intros K lim s l s' I H. pose proof (fun m k => before_done lim None s m k I) as BD. unfold sinv in *. 
  destruct I as [SE CH SP RU TO RD CL SL FI OR LT FS CN CR LI BO]. cbn [airTok airCnt Nat.add] in *.
  destruct l; cbn [sstep] in H.
  - (* read *)
    destruct (rd s) eqn:R; try discriminate. inversion H; subst s'; clear H.
    assert (Z0 : nblk (ch s) = 0 /\ svTok (sv s) = 0 /\ gateFull s = false).
    { destruct (nblk (ch s) + svTok (sv s) + gTok (gateFull s)) eqn:E; [destruct (gateFull s); cbn in E; repeat split; lia|].
      destruct RD as [RD|RD]; [lia|discriminate|discriminate]. }
    destruct Z0 as (Z1 & Z2 & Z3).
    split; cbn.
    + intros n b0 E. inversion E; subst. rewrite Nat.eqb_refl. auto.
    + intros n b0 [E|E]; [|discriminate]. destruct (CH n b0 (or_introl E)). split; [lia|]. destruct (Nat.eqb_spec n (narr s)); [lia|assumption].
    + intros n E. destruct (SP n E). split; [lia|]. destruct (Nat.eqb_spec n (narr s)); [lia|assumption].
    + assumption.
    + lia.
    + rewrite Z3; cbn [gTok]; lia.
    + intros n [E|E]; [|discriminate]. exfalso. exact (nblk_0 _ n Z1 E).
    + intros n [E|E]; rewrite E in Z2; discriminate.
    + intros n Hn. destruct (Nat.eqb_spec n (narr s)) as [->|NE].
      * intros ->. right. auto.
      * intro Hk. destruct (FI n ltac:(lia) Hk) as [F|[F1 F2]]; [auto|]. exfalso.
        destruct F2 as [F2|[F2|[F2|[F2|F2]]]]; try discriminate.
        -- exact (nblk_0 _ n Z1 F2).
        -- rewrite F2 in Z2. discriminate.
    + intros a m b0 E n Hn. assert (X : m < narr s). { apply LT. rewrite E. apply in_or_app. right. left. reflexivity. }
      destruct (Nat.eqb_spec n (narr s)); [lia|]. intro Hk. eapply OR; eassumption.
    + intros n E. specialize (LT n E). lia.
    + assumption.
    + intro n. specialize (CN n). destruct (Nat.eqb_spec (narr s) n) as [<-|]; [|lia].
      assert (A1 : startCnt (evs s) (narr s) = 0).
      { destruct (startCnt (evs s) (narr s)) eqn:E; [reflexivity|]. assert (In (EStart (narr s)) (evs s)) as X by (apply startCnt_In; lia). specialize (LT _ X). lia. }
      assert (A2 : cnt (spawned s) (narr s) = 0).
      { destruct (cnt (spawned s) (narr s)) eqn:E; [reflexivity|]. assert (In (narr s) (spawned s)) as X by (apply cnt_In; lia). destruct (SP _ X). lia. }
      assert (A3 : cnt (map fst (ch s)) (narr s) = 0).
      { destruct (cnt (map fst (ch s)) (narr s)) eqn:E; [reflexivity|]. assert (In (narr s) (map fst (ch s))) as X by (apply cnt_In; lia).
        apply in_map_iff in X. destruct X as ([k c] & X1 & X2). cbn in X1. subst k. destruct (CH _ _ (or_introl X2)). lia. }
      lia.
    + assumption.
    + assumption.
    + intro E. destruct (BO E) as (n & A & B). exists n. split; [lia|]. destruct (Nat.eqb_spec n (narr s)); [lia|assumption].
  - (* read error *)
    destruct (rd s) eqn:R; try discriminate. inversion H; subst s'; clear H. split; cbn; auto.
    + discriminate.
    + intros n Hn Hk. destruct (FI n Hn Hk) as [F|[F1 F2]]; [auto|]. right. split; [assumption|]. auto.
  - (* enqueue *)
    destruct (rd s) as [|n b| |] eqn:R; try discriminate. destruct (length (ch s) <? K); [|discriminate]. inversion H; subst s'; clear H.
    destruct (SE n b eq_refl) as [S1 S2].
    assert (Z0 : nblk (ch s) = 0 /\ svTok (sv s) = 0 /\ gTok (gateFull s) = 0).
    { destruct (nblk (ch s) + svTok (sv s) + gTok (gateFull s)) eqn:E; [repeat split; lia|].
      destruct RD as [RD|RD]; [lia|discriminate|discriminate]. }
    destruct Z0 as (Z1 & Z2 & Z3).
    split; cbn; auto.
    + intros k c E. destruct b; discriminate.
    + intros k c [E|E]; [|discriminate]. apply in_app_or in E. destruct E as [E|[E|[]]]; [apply CH; auto|]. inversion E; subst. split; [lia|reflexivity].
    + rewrite nblk_snoc. destruct b; lia.
    + rewrite nblk_snoc. destruct b; cbn; [auto|lia].
    + intros k [E|E]; [|discriminate]. apply in_app_or in E. destruct E as [E|[E|[]]]; [apply CL; auto|]. inversion E; subst. assumption.
    + intros k Hk Hb. destruct (FI k Hk Hb) as [F|[F1 F2]]; [auto|]. right. split; [assumption|].
      destruct F2 as [F2|[F2|[F2|[F2|F2]]]]; try discriminate; auto.
      * inversion F2; subst. right. right. left. apply in_or_app. right. left. reflexivity.
      * right. right. left. apply in_or_app. auto.
    + intro k. specialize (CN k). rewrite map_app. cbn [map fst]. rewrite cnt_snoc. destruct b; cbn [afterSend rdCnt] in *; lia.
  - (* hand *)
    destruct (rd s) as [|n b| |] eqn:R; try discriminate. destruct (sv s) eqn:V; try discriminate. destruct (ch s) eqn:C; try discriminate.
    inversion H; subst s'; clear H. destruct (SE n b eq_refl) as [S1 S2]. apply dispatch_inv; [|reflexivity].
    assert (Z3 : gTok (gateFull s) = 0). { destruct (gTok (gateFull s)) eqn:E; [reflexivity|]. cbn in RD. destruct RD as [RD|RD]; [lia|discriminate|discriminate]. }
    change (nblk []) with 0 in *. split; cbn; auto.
    + intros k c E. destruct b; discriminate.
    + intros k c [E|E]; [contradiction|]. inversion E; subst. split; [lia|reflexivity].
    + change (nblk []) with 0. destruct b; lia.
    + change (nblk []) with 0. destruct b; cbn; [auto|lia].
    + intros k [E|E]; [contradiction|]. inversion E; subst. assumption.
    + intros k Hk Hb. destruct (FI k Hk Hb) as [F|[F1 F2]]; [auto|]. right. split; [assumption|].
      destruct F2 as [F2|[F2|[F2|[F2|F2]]]]; try discriminate; try contradiction; auto. inversion F2; subst. auto.
    + intro k. specialize (CN k). destruct b; cbn [afterSend rdCnt map] in *; lia.
  - (* receive *)
    destruct (sv s) eqn:V; try discriminate. destruct (ch s) as [|[n b] rest] eqn:C; [discriminate|]. inversion H; subst s'; clear H.
    apply dispatch_inv; [|reflexivity]. rewrite nblk_cons in *. cbn [svTok] in *. split; cbn; auto.
    + intros k c [E|E]; [apply CH; left; right; assumption|]. inversion E; subst. apply CH. left. left. reflexivity.
    + intros k [E|E]; [apply CL; left; right; assumption|]. inversion E; subst. apply CL. left. left. reflexivity.
    + intros k Hk Hb. destruct (FI k Hk Hb) as [F|[F1 F2]]; [auto|]. right. split; [assumption|].
      destruct F2 as [F2|[F2|[[F2|F2]|[F2|F2]]]]; try discriminate; auto. inversion F2; subst. auto.
    + intro k. specialize (CN k). cbn [map fst] in CN. rewrite cnt_cons in CN. lia.
  - (* gate *)
    destruct (rd s) eqn:R; try discriminate. destruct (gateFull s) eqn:G; [|discriminate]. inversion H; subst s'; clear H. cbn [gTok] in *.
    assert (Z0 : nblk (ch s) = 0 /\ svTok (sv s) = 0) by lia. destruct Z0 as (Z1 & Z2).
    split; cbn; auto; try (intros; discriminate).
    + lia.
    + lia.
    + intros k Hk Hb. destruct (FI k Hk Hb) as [F|[F1 F2]]; [auto|]. right. split; [assumption|]. 
      destruct F2 as [F2|[F2|[F2|[F2|F2]]]]; try discriminate; auto.
  - (* reader sees done *)
    assert (G : sinvG lim None (mkS RExit (sv s) (ch s) (gateFull s) (cancelled s) (spawned s) (running s) (counter s) (narr s) (kind s) (evs s) (blkDone s))).
    { split; cbn; auto; try (intros; discriminate).
      - intros k Hk Hb. destruct (FI k Hk Hb) as [F|[F1 F2]]; [auto|]. right. split; [assumption|]. auto.
      - intro k. specialize (CN k). lia. }
    destruct (rd s); try discriminate; destruct (cancelled s); try discriminate; inversion H; subst s'; exact G.
  - (* blocking handler returns *)
    destruct (sv s) as [|n|n| | |] eqn:V; try discriminate. inversion H; subst s'; clear H. destruct (SL n (or_introl eq_refl)) as (S1 & S2 & S3).
    split; cbn; auto.
    + intros k E. apply in_ev_snoc. auto.
    + intros k [E|E]; [discriminate|]. inversion E; subst. repeat split; try assumption. apply in_ev_snoc. assumption.
    + intros k Hk Hb. destruct (FI k Hk Hb) as [F|[F1 F2]]; [left; apply in_ev_snoc; assumption|]. left.
      assert (k = n) by lia. subst k. apply in_or_app. right. left. reflexivity.
    + apply ordered_finish. assumption.
    + intros k E. apply in_app_or in E. destruct E as [E|[E|[]]]; [auto|discriminate].
    + apply fs_finish; assumption.
    + intro k. specialize (CN k). rewrite startCnt_snoc. lia.
    + intro k. specialize (CR k). rewrite startCnt_snoc. lia.
  - (* defer *)
    destruct (sv s) as [|n|n| | |] eqn:V; try discriminate. inversion H; subst s'; clear H. destruct (SL n (or_intror eq_refl)) as (S1 & S2 & S3).
    split; cbn; auto.
    + intros k [E|E]; discriminate.
    + intros k Hk Hb. destruct (FI k Hk Hb) as [F|[F1 F2]]; [auto|]. right. split; [assumption|].
      destruct F2 as [F2|[F2|[F2|[F2|F2]]]]; try discriminate; auto.
    + intros m E. specialize (LI m E). subst lim. cbn [decr]. lia.
    + intros _. exists n. split; [lia|assumption].
  - (* readMore *)
    destruct (sv s) as [|n|n| | |] eqn:V; try discriminate. destruct (gateFull s) eqn:G; [discriminate|]. inversion H; subst s'; clear H.
    cbn [svTok gTok] in *. split; cbn; auto.
    + lia.
    + intro E. apply RD. lia.
    + intros k [E|E]; discriminate.
    + intros k Hk Hb. destruct (FI k Hk Hb) as [F|[F1 F2]]; [auto|]. right. split; [assumption|].
      destruct F2 as [F2|[F2|[F2|[F2|F2]]]]; try discriminate; auto.
  - (* serve sees done *)
    destruct (sv s) eqn:V; try discriminate. destruct (cancelled s); [|discriminate]. inversion H; subst s'; clear H. split; cbn; auto.
    + intros k [E|E]; discriminate.
    + intros k Hk Hb. destruct (FI k Hk Hb) as [F|[F1 F2]]; [auto|]. right. split; [assumption|].
      destruct F2 as [F2|[F2|[F2|[F2|F2]]]]; try discriminate; auto.
    + intros m E. specialize (LI m E). lia.
  - destruct (sv s) eqn:V; try discriminate. inversion H; subst s'; clear H. split; cbn; auto.
    + intros k [E|E]; discriminate.
    + intros k Hk Hb. destruct (FI k Hk Hb) as [F|[F1 F2]]; [auto|]. right. split; [assumption|].
      destruct F2 as [F2|[F2|[F2|[F2|F2]]]]; try discriminate; auto.
  - inversion H; subst s'; clear H. split; cbn; auto.
  - (* start *)
    destruct (mem n (spawned s)) eqn:M; [|discriminate]. inversion H; subst s'; clear H. pose proof (cnt_mem _ _ M) as M1.
    assert (M2 : In n (spawned s)) by (apply cnt_In; assumption). destruct (SP n M2) as [N1 N2].
    assert (M3 : cnt (spawned s) n = 1) by (specialize (CN n); lia).
    split; cbn; auto.
    + intros k E. apply SP. eapply In_rmv. eassumption.
    + intros k E. apply in_app_or in E. apply in_or_app. destruct E as [E|[E|[]]]; [auto|]. subst k. right. left. reflexivity.
    + intros k E. destruct (SL k E) as (A & B & C). repeat split; try assumption. apply in_ev_snoc. assumption.
    + intros k Hk Hb. destruct (FI k Hk Hb) as [F|F]; [left; apply in_ev_snoc; assumption|auto].
    + apply ordered_start; [assumption|]. intros k Hk Hb. eapply BD; eassumption.
    + intros k E. apply in_app_or in E. destruct E as [E|[E|[]]]; [auto|]. inversion E; subst. assumption.
    + apply fs_start. assumption.
    + intro k. specialize (CN k). rewrite startCnt_snoc, cnt_rmv. destruct (Nat.eqb_spec n k); [subst k; lia|lia].
    + intro k. specialize (CR k). rewrite startCnt_snoc, cnt_snoc. lia.
    + intros m E. specialize (LI m E). pose proof (rmv_length _ _ M3). rewrite app_length. cbn [length].
      replace (length (rmv n (spawned s)) + (length (running s) + 1)) with (length (spawned s) + length (running s)) by lia. assumption.
  - (* finish *)
    destruct (mem n (running s)) eqn:M; [|discriminate]. inversion H; subst s'; clear H. pose proof (cnt_mem _ _ M) as M1.
    assert (M2 : In n (running s)) by (apply cnt_In; assumption).
    assert (M3 : cnt (running s) n = 1) by (specialize (CN n); specialize (CR n); lia).
    split; cbn; auto.
    + intros k E. apply in_ev_snoc. apply RU. eapply In_rmv. eassumption.
    + intros k E. destruct (SL k E) as (A & B & C). repeat split; try assumption. apply in_ev_snoc. assumption.
    + intros k Hk Hb. destruct (FI k Hk Hb) as [F|F]; [left; apply in_ev_snoc; assumption|auto].
    + apply ordered_finish. assumption.
    + intros k E. apply in_app_or in E. destruct E as [E|[E|[]]]; [auto|discriminate].
    + apply fs_finish; [assumption|apply RU; assumption].
    + intro k. specialize (CN k). rewrite startCnt_snoc. lia.
    + intro k. specialize (CR k). rewrite startCnt_snoc, cnt_rmv. destruct (n =? k); lia.
    + intros m E. specialize (LI m E). pose proof (rmv_length _ _ M3). subst lim. cbn [decr]. destruct (sv s); lia.
Qed.

Definition limOk (lim : option Z) : Prop := match lim with Some m => (0 < m)%Z | None => True end.

Lemma sreach : forall K lim s, limOk lim -> reachable (sstep K lim) sinit s -> sinv lim s.
Proof. intros K lim s HL R. exact (reachable_inv (sstep K lim) (sinv lim) _ (sinv_init lim HL) (fun s l s' => sinv_step K lim s l s') s R). Qed.

(** *** C26 *)

(** When a request starts, every blocking request that arrived before it has returned (by panic or not). *)
Theorem C26_blocking_order :
  forall K lim s, limOk lim -> reachable (sstep K lim) sinit s ->
  forall before m after, evs s = before ++ EStart m :: after ->
  forall n, n < m -> kind s n = true -> In (EFinish n) before.
Proof. intros K lim s HL R. exact (v_ord _ _ _ (sreach K lim s HL R)). Qed.
Print Assumptions C26_blocking_order.

(** A handler starts at most once per request, returns only after it started, and only requests that were
    read start. *)
Theorem C26_once :
  forall K lim s, limOk lim -> reachable (sstep K lim) sinit s ->
  (forall n, startCnt (evs s) n <= 1) /\
  (forall n, In (EStart n) (evs s) -> n < narr s) /\
  (forall before n after, evs s = before ++ EFinish n :: after -> In (EStart n) before).
Proof.
  intros K lim s HL R. destruct (sreach K lim s HL R) as [SE CH SP RU TO RD CL SL FI OR LT FS CN CR LI BO].
  split; [|split; assumption]. intro n. specialize (CN n). lia.
Qed.
Print Assumptions C26_once.

(** Two blocking handlers never overlap: when one starts, every other one that has started has returned. *)
Theorem C26_no_overlap :
  forall K lim s, limOk lim -> reachable (sstep K lim) sinit s ->
  forall before m after, evs s = before ++ EStart m :: after -> kind s m = true ->
  forall n, n <> m -> kind s n = true -> In (EStart n) before -> In (EFinish n) before.
Proof.
  intros K lim s HL R a m b E HM n NE HN HI.
  destruct (Nat.lt_trichotomy n m) as [H|[H|H]]; [|contradiction|].
  - eapply C26_blocking_order; eassumption.
  - exfalso. apply in_split in HI. destruct HI as (a1 & a2 & ->). rewrite <- app_assoc in E. cbn in E.
    pose proof (C26_blocking_order K lim s HL R a1 n _ E m H HM) as X.
    apply in_split in X. destruct X as (c1 & c2 & ->).
    destruct (C26_once K lim s HL R) as (O1 & _ & O3). rewrite <- !app_assoc in E. cbn in E.
    pose proof (O3 c1 m _ E) as Y. apply in_split in Y. destruct Y as (d1 & d2 & ->).
    specialize (O1 m). rewrite E in O1. unfold startCnt in O1. rewrite <- !app_assoc in O1. cbn in O1.
    rewrite filter_app, app_length in O1. cbn in O1. rewrite Nat.eqb_refl in O1. cbn in O1.
    rewrite filter_app, app_length in O1. cbn in O1. rewrite filter_app, app_length in O1. cbn in O1.
    destruct (n =? m); cbn in O1; rewrite filter_app, app_length in O1; cbn in O1; rewrite Nat.eqb_refl in O1; cbn in O1; lia.
Qed.
Print Assumptions C26_no_overlap.

(** The reader waits at the gate only while a blocking request is queued, runs, or has just returned. *)
Lemma gate_step : forall K lim s l s', (rd s = RGate -> 1 <= nblk (ch s) + svTok (sv s) + gTok (gateFull s)) ->
  sstep K lim s l = Some s' -> (rd s' = RGate -> 1 <= nblk (ch s') + svTok (sv s') + gTok (gateFull s')).
Proof.
  intros K lim s l s' I H. destruct l; cbn [sstep] in H.
  - destruct (rd s); inversion H; subst; cbn; discriminate.
  - destruct (rd s); inversion H; subst; cbn; discriminate.
  - destruct (rd s) as [|n b| |]; try discriminate. destruct (length (ch s) <? K); inversion H; subst; cbn.
    destruct b; cbn; [|discriminate]. rewrite nblk_snoc. lia.
  - destruct (rd s) as [|n b| |]; try discriminate. destruct (sv s); try discriminate. destruct (ch s); inversion H; subst.
    unfold dispatch. destruct b; cbn; [lia|]. destruct lim; [destruct (counter s + 1 >? z)%Z|]; cbn; discriminate.
  - destruct (sv s) eqn:V; try discriminate. destruct (ch s) as [|[n b] r]; inversion H; subst. rewrite nblk_cons in I.
    unfold dispatch. destruct b; cbn in *; [lia|]. destruct lim; [destruct (counter s + 1 >? z)%Z|]; cbn; assumption.
  - destruct (rd s); try discriminate. destruct (gateFull s); inversion H; subst; cbn. discriminate.
  - destruct (rd s); try discriminate; destruct (cancelled s); inversion H; subst; cbn; discriminate.
  - destruct (sv s); inversion H; subst; cbn in *; assumption.
  - destruct (sv s); inversion H; subst; cbn in *; assumption.
  - destruct (sv s); try discriminate; destruct (gateFull s); inversion H; subst; cbn in *; lia.
  - destruct (sv s); try discriminate; destruct (cancelled s); inversion H; subst; cbn in *; assumption.
  - destruct (sv s); inversion H; subst; cbn in *; assumption.
  - inversion H; subst; cbn in *; assumption.
  - destruct (mem n (spawned s)); inversion H; subst; cbn in *; assumption.
  - destruct (mem n (running s)); inversion H; subst; cbn in *; assumption.
Qed.

(** The serve loop does not get stuck: while the connection is up and serve has not returned, either the
    reader waits for the network, or a blocking handler runs, or one of the two goroutines can go on, whatever the
    nonblocking handlers do and even if a blocking handler panicked. *)
Theorem C26_progress :
  forall K lim s, limOk lim -> reachable (sstep K lim) sinit s ->
  sv s <> SExit -> sv s <> SClosed -> rd s <> RExit ->
  rd s = RRead \/ (exists n, sv s = SBlk n) \/
  exists l, In l [SLEnq; SLHand; SLRecv; SLGate; SLDefer; SLReadMore] /\ sstep K lim s l <> None.
Proof.
  intros K lim s HL R V1 V2 D1. pose proof (sreach K lim s HL R) as I.
  assert (G : rd s = RGate -> 1 <= nblk (ch s) + svTok (sv s) + gTok (gateFull s)).
  { refine (reachable_inv (sstep K lim) (fun s => rd s = RGate -> 1 <= nblk (ch s) + svTok (sv s) + gTok (gateFull s)) sinit _ (fun s l s' => gate_step K lim s l s') s R).
    discriminate. }
  pose proof (v_tok _ _ _ I) as TO. cbn [airTok Nat.add] in TO.
  destruct (sv s) eqn:V; try congruence.
  - destruct (ch s) as [|[n b] r] eqn:C.
    + destruct (rd s) as [|n b| |] eqn:RE; [auto| | |congruence].
      * right. right. exists SLHand. split; [cbn; auto|]. cbn. rewrite RE, V, C. discriminate.
      * specialize (G eq_refl). unfold nblk in G. cbn in G. destruct (gateFull s) eqn:GF; [|cbn in G; lia].
        right. right. exists SLGate. split; [cbn; auto 8|]. cbn. rewrite RE, GF. discriminate.
    + right. right. exists SLRecv. split; [cbn; auto|]. cbn. rewrite V, C. discriminate.
  - right. left. exists n. reflexivity.
  - right. right. exists SLDefer. split; [cbn; auto 8|]. cbn. rewrite V. discriminate.
  - right. right. exists SLReadMore. split; [cbn; auto 8|]. cbn. rewrite V. cbn [svTok] in TO.
    destruct (gateFull s); [cbn in TO; lia|]. discriminate.
Qed.
Print Assumptions C26_progress.

(** nonblocking 0, blocking 1 and 2, nonblocking 3: capacity 2; request 0 overlaps 1 and 2 *)
Example C26_example :
  match run (sstep 2 None) sinit
    [SLRead false; SLEnq; SLRead true; SLEnq; SLRecv; SLStart 0; SLRecv; SLBlkRet; SLDefer; SLReadMore; SLGate;
     SLRead true; SLHand; SLBlkRet; SLDefer; SLReadMore; SLGate; SLRead false; SLEnq; SLFinish 0; SLRecv; SLStart 3] with
  | Some s => evs s = [EStart 0; EStart 1; EFinish 1; EStart 2; EFinish 2; EFinish 0; EStart 3] /\
              map (kind s) [0;1;2;3] = [false;true;true;false]
  | None => False
  end.
Proof. vm_compute. split; reflexivity. Qed.

(** *** C27 *)

Definition C27_statement : Prop :=
  forall K m s, (0 < m)%Z -> reachable (sstep K (Some m)) sinit s -> (Z.of_nat (length (running s)) <= m)%Z.

(** The deferred function of a blocking request decrements the counter that only nonblocking requests
    increment: with limit 1, after one blocking request two nonblocking handlers run together. *)
Theorem C27_refuted : ~ C27_statement.
Proof.
  intro H. assert (X : exists s, reachable (sstep 0 (Some 1%Z)) sinit s /\ length (running s) = 2).
  { eexists. split.
    - exists [SLRead true; SLHand; SLBlkRet; SLDefer; SLReadMore; SLGate; SLRead false; SLHand; SLRead false; SLHand; SLStart 1; SLStart 2].
      vm_compute. reflexivity.
    - reflexivity. }
  destruct X as (s & R & E). specialize (H 0 1%Z s ltac:(lia) R). rewrite E in H. lia.
Qed.
Print Assumptions C27_refuted.

(** What holds: the number of nonblocking handlers exceeds m by at most the number of blocking requests
    served so far; so the limit holds on connections that never sent a blocking request. *)
Theorem C27_bound_partial :
  forall K m s, (0 < m)%Z -> reachable (sstep K (Some m)) sinit s ->
  (Z.of_nat (length (spawned s) + length (running s)) <= m + Z.of_nat (blkDone s))%Z.
Proof. intros K m s HM R. apply (v_lim _ _ _ (sreach K (Some m) s HM R) m eq_refl). Qed.
Print Assumptions C27_bound_partial.

Theorem C27_nonblocking_only_partial :
  forall K m s, (0 < m)%Z -> reachable (sstep K (Some m)) sinit s -> (forall n, n < narr s -> kind s n = false) ->
  (Z.of_nat (length (running s)) <= m)%Z.
Proof.
  intros K m s HM R HK. pose proof (C27_bound_partial K m s HM R) as B.
  assert (E : blkDone s = 0).
  { destruct (blkDone s) eqn:E; [reflexivity|]. destruct (v_bd _ _ _ (sreach K (Some m) s HM R)) as (k & A & C); [lia|].
    rewrite HK in C by assumption. discriminate. }
  lia.
Qed.
Print Assumptions C27_nonblocking_only_partial.

(** On such a connection: a request that finds fewer than m handlers is accepted, one that finds m of them ends
    serve without starting its handler, and what serve does next is close the connection. *)
Theorem C27_excess_closes_partial :
  forall K m s n rest, (0 < m)%Z -> reachable (sstep K (Some m)) sinit s -> (forall k, k < narr s -> kind s k = false) ->
  sv s = SLoop -> ch s = (n, false) :: rest ->
  exists s', sstep K (Some m) s SLRecv = Some s' /\
  ((Z.of_nat (length (spawned s) + length (running s)) < m)%Z -> sv s' = SLoop /\ spawned s' = spawned s ++ [n]) /\
  ((Z.of_nat (length (spawned s) + length (running s)) = m)%Z ->
     sv s' = SExit /\ spawned s' = spawned s /\ evs s' = evs s /\
     exists s2, sstep K (Some m) s' SLSvClose = Some s2 /\ cancelled s2 = true).
Proof.
  intros K m s n rest HM R HK HV HC. pose proof (sreach K (Some m) s HM R) as I.
  pose proof (v_lim _ _ _ I m eq_refl) as L. rewrite HV in L.
  assert (E : blkDone s = 0).
  { destruct (blkDone s) eqn:E; [reflexivity|]. destruct (v_bd _ _ _ I) as (k & A & C); [lia|].
    rewrite HK in C by assumption. discriminate. }
  cbn [sstep]. rewrite HV, HC. eexists. split; [reflexivity|]. unfold dispatch. cbn [counter].
  split; intro H; destruct (Z.gtb_spec (counter s + 1) m) as [G|G]; try lia; cbn.
  - split; reflexivity.
  - repeat split. eexists. split; reflexivity.
Qed.
Print Assumptions C27_excess_closes_partial.

(** after serve returned no handler is started for a request it did not accept *)
Theorem C27_nothing_accepted_after_exit :
  forall K lim s l s', sv s = SExit \/ sv s = SClosed -> sstep K lim s l = Some s' ->
  (sv s' = SExit \/ sv s' = SClosed) /\ forall n, In n (spawned s') -> In n (spawned s).
Proof.
  intros K lim s l s' V H. destruct l; cbn [sstep] in H;
  repeat match type of H with
  | context [match rd s with _ => _ end] => destruct (rd s)
  | context [match sv s with _ => _ end] => destruct (sv s) eqn:?
  | context [match ch s with _ => _ end] => destruct (ch s)
  | context [if ?b then _ else _] => destruct b eqn:?
  end; inversion H; subst; cbn; try (split; [assumption || (destruct V; congruence) || auto|auto]; fail); try (destruct V; discriminate).
  split; [assumption|]. intros k HI. eapply In_rmv. eassumption.
Qed.
Print Assumptions C27_nothing_accepted_after_exit.

Example C27_example :
  match run (sstep 3 (Some 2%Z)) sinit
    [SLRead false; SLEnq; SLRead false; SLEnq; SLRead false; SLEnq; SLRecv; SLRecv; SLStart 1; SLStart 0] with
  | Some s => length (running s) = 2 /\ ch s = [(2, false)] /\ sv s = SLoop /\
      match run (sstep 3 (Some 2%Z)) s [SLRecv; SLSvClose] with
      | Some s' => cancelled s' = true /\ evs s' = [EStart 1; EStart 0] /\ spawned s' = []
      | None => False
      end /\
      match run (sstep 3 (Some 2%Z)) s [SLFinish 1; SLRecv; SLStart 2] with
      | Some s' => cancelled s' = false /\ running s' = [0; 2]
      | None => False
      end
  | None => False
  end.
Proof. vm_compute. repeat split. Qed.
