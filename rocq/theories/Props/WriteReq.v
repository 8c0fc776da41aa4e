(** C88: recycled write requests. *)
From Verif Require Import Model.GoBase Model.Machine Model.WriteReq.
Open Scope N_scope.

(** call f holds request p *)
Definition holds (s : wst) (f p : N) : Prop :=
  exists c, pcs s f = WGot c p \/ pcs s f = WHas c p \/ pcs s f = WSent c p \/ exists v, pcs s f = WRecv c p v.
(** the requests the batcher of c has to do with *)
Definition refs (s : wst) (c : N) : list N := queue s c ++ map fst (batch s c).

Record winv (s : wst) : Prop := {
  v_one : forall f g p, holds s f p -> holds s g p -> f = g;
  v_out : forall f p, holds s f p -> ~ In p (pool s) /\ p < made s;
  v_pool : NoDup (pool s) /\ forall p, In p (pool s) -> p < made s;
  v_ref : forall c p, In p (refs s c) -> ~ In p (pool s) /\ p < made s /\ w_res (heap s p) = None /\
            exists f, w_dfw (heap s p) = Some f /\ (pcs s f = WSent c p \/ pcs s f = WGone);
  v_bat : forall c p f, In (p, f) (batch s c) -> w_dfw (heap s p) = Some f;
  v_nd : forall c, NoDup (refs s c);
  v_dis : forall c d p, In p (refs s c) -> In p (refs s d) -> c = d;
  v_got : forall f c p, pcs s f = WGot c p \/ pcs s f = WHas c p \/ (exists v, pcs s f = WRecv c p v) -> forall d, ~ In p (refs s d);
  v_has : forall f c p, pcs s f = WHas c p -> w_dfw (heap s p) = Some f /\ w_res (heap s p) = None;
  v_sent : forall f c p, pcs s f = WSent c p -> w_dfw (heap s p) = Some f /\
            (In p (refs s c) \/ (exists v, w_res (heap s p) = Some v /\ fate s f = Some v) /\ forall d, ~ In p (refs s d));
  v_end : forall f v, (exists c p, pcs s f = WRecv c p v) \/ pcs s f = WEnd v -> fate s f = Some v;
  v_fifo : forall c, exists rest, map (fun p => w_dfw (heap s p)) (queue s c) = map Some rest /\ enq s c = coll s c ++ rest }.

Lemma winv_init : winv winit.
Proof.
  split; cbn; try tauto.
  - intros f g p (c & [H|[H|[H|[v H]]]]); discriminate H.
  - intros f p (c & [H|[H|[H|[v H]]]]); discriminate H.
  - split; [constructor|intros p []].
  - intros. constructor.
  - intros f c p H. discriminate H.
  - intros f c p H. discriminate H.
  - intros f v [(c & p & H)|H]; discriminate H.
  - intro c. exists []. auto.
Qed.

Lemma remove_nodup : forall (l : list N) t, NoDup l -> NoDup (remove N.eq_dec t l).
Proof.
  induction l as [|a l IH]; intros t D; cbn; [constructor|]. inversion D as [|x y N D']; subst. destruct (N.eq_dec t a); [auto|].
  constructor; [intro X; apply in_remove in X; tauto|auto].
Qed.

(** a call goes to q: who holds what then *)
Definition holdsBy (q : wpc) (p : N) : Prop := exists c, q = WGot c p \/ q = WHas c p \/ q = WSent c p \/ exists v, q = WRecv c p v.
Lemma holds_upd : forall s s' f q g p, holds s' g p -> pcs s' = upd (pcs s) f q -> g = f /\ holdsBy q p \/ g <> f /\ holds s g p.
Proof.
  intros s s' f q g p H E. unfold holds in H. rewrite E in H. destruct (N.eq_dec g f) as [->|N]; [left; rewrite upd_eq in H; auto|right; rewrite upd_neq in H by assumption; auto].
Qed.

(** uniqueness and the pool, for a call that goes on with the request it has, or without *)
Lemma keep_one : forall s s' f q, winv s -> pcs s' = upd (pcs s) f q -> (forall p, holdsBy q p -> holds s f p) ->
  forall g h p, holds s' g p -> holds s' h p -> g = h.
Proof.
  intros s s' f q I E K g h p A B.
  assert (T : forall x, holds s' x p -> holds s x p).
  { intros x X. apply (holds_upd s s' f q) in X; [|exact E]. destruct X as [[-> X]|[_ X]]; auto. }
  apply (v_one _ I g h p); auto.
Qed.
Lemma keep_out : forall s s' f q, winv s -> pcs s' = upd (pcs s) f q -> (forall p, holdsBy q p -> holds s f p) -> pool s' = pool s -> made s' = made s ->
  forall g p, holds s' g p -> ~ In p (pool s') /\ p < made s'.
Proof.
  intros s s' f q I E K P M g p A. rewrite P, M. apply (v_out _ I g).
  apply (holds_upd s s' f q) in A; [|exact E]. destruct A as [[-> X]|[_ X]]; auto.
Qed.

Lemma frameIn_In : forall p b f, frameIn p b = Some f -> In (p, f) b.
Proof.
  intros p b f. induction b as [|[q g] b IH]; cbn; intro H; [discriminate H|]. destruct (N.eqb_spec q p) as [->|]; [injection H as ->; auto|auto].
Qed.
Lemma without_In : forall p b x, In x (without p b) <-> In x b /\ fst x <> p.
Proof. intros p b x. unfold without. rewrite filter_In, negb_true_iff, N.eqb_neq. tauto. Qed.
Lemma without_nodup : forall p l b, NoDup (l ++ map fst b) -> NoDup (l ++ map fst (without p b)).
Proof.
  intros p l b. induction l as [|a l IH]; cbn; intro D.
  - induction b as [|x b IH]; cbn; [constructor|]. cbn in D. inversion D as [|y m N D']; subst. destruct (negb (fst x =? p)); cbn; [|auto].
    constructor; [|auto]. intro X. apply N. apply in_map_iff in X. destruct X as (z & Z & X). apply without_In in X. rewrite <- Z. apply in_map. tauto.
  - inversion D as [|y m N D']; subst. constructor; [|auto]. intro X. apply N. apply in_app_iff in X. apply in_app_iff. destruct X as [X|X]; [auto|right].
    apply in_map_iff in X. destruct X as (z & Z & X). apply without_In in X. rewrite <- Z. apply in_map. tauto.
Qed.

(** the only call that holds p changes it, and no batcher has to do with p *)
Lemma winv_local : forall s s' f p q w, winv s -> holds s f p -> (forall d, ~ In p (refs s d)) ->
  heap s' = upd (heap s) p w -> pcs s' = upd (pcs s) f q -> queue s' = queue s -> batch s' = batch s -> made s' = made s -> fate s' = fate s -> enq s' = enq s -> coll s' = coll s ->
  (pool s' = pool s \/ pool s' = p :: pool s /\ forall r, ~ holdsBy q r) -> (forall r, holdsBy q r -> r = p) ->
  (forall d r, q = WHas d r -> w = mkW (Some f) None) -> (forall d r, q <> WSent d r) -> (forall v, (exists d r, q = WRecv d r v) \/ q = WEnd v -> fate s f = Some v) -> winv s'.
Proof.
  intros s s' f p q w I HP NR EH EP EQ EB EM EF EE EC PO HQ Q1 Q2 Q3. pose proof I as [V1 V2 [V3 V4] V5 V6 V7 V8 V9 V10 V11 V12 V13].
  assert (RE : forall d, refs s' d = refs s d) by (intro d; unfold refs; rewrite EQ, EB; reflexivity).
  assert (NP : ~ In p (pool s) /\ p < made s) by (apply (V2 f), HP).
  assert (OLD : forall g r, holds s' g r -> holds s g r).
  { intros g r A. apply (holds_upd s s' f q) in A; [|exact EP]. destruct A as [[-> A]|[_ A]]; [apply HQ in A; subst r; exact HP|exact A]. }
  assert (OTHER : forall g r, g <> f -> holds s g r -> r <> p) by (intros g r N A ->; apply N, (V1 _ _ _ A HP)).
  assert (INR : forall d r, In r (refs s d) -> r <> p) by (intros d r A ->; apply (NR d A)).
  split.
  - intros g h r A B. apply (V1 g h r); auto.
  - intros g r A. destruct (V2 g r (OLD _ _ A)) as [X Y]. rewrite EM. split; [|exact Y]. destruct PO as [->|[-> PO]]; [exact X|]. intros [->|Z]; [|contradiction].
    apply (holds_upd s s' f q) in A; [|exact EP]. destruct A as [[-> A]|[N A]]; [apply (PO _ A)|apply (OTHER g r N A); reflexivity].
  - rewrite EM. destruct PO as [->|[-> PO]]; [auto|]. split; [constructor; tauto|]. intros r [<-|X]; [tauto|auto].
  - intros d r A. rewrite RE in A. destruct (V5 d r A) as (X & Y & Z & g & T & U). rewrite EM, EH, upd_neq by (apply (INR d), A).
    split; [destruct PO as [->|[-> PO]]; [exact X|intros [->|W]; [apply (NR d A)|contradiction]]|]. split; [exact Y|]. split; [exact Z|]. exists g. split; [exact T|].
    rewrite EP, upd_neq; [exact U|]. intros ->. destruct U as [U|U].
    + destruct HP as (c & [B|[B|[B|[v B]]]]); rewrite U in B; try discriminate B. injection B as _ ->. apply (NR d A).
    + destruct HP as (c & [B|[B|[B|[v B]]]]); rewrite U in B; discriminate B.
  - intros d r g A. rewrite EB in A. rewrite EH, upd_neq; [apply (V6 d r g A)|]. apply (INR d). apply in_or_app. right. apply (in_map fst) in A. exact A.
  - intro d. rewrite RE. apply V7.
  - intros d e r A B. rewrite RE in A, B. apply (V8 _ _ _ A B).
  - intros g d r A e. rewrite RE. rewrite EP in A. destruct (N.eq_dec g f) as [->|N].
    + rewrite upd_eq in A. assert (r = p) as ->; [|apply NR]. apply HQ. exists d. tauto.
    + rewrite upd_neq in A by assumption. apply (V9 g d r A).
  - intros g d r A. rewrite EP in A. destruct (N.eq_dec g f) as [->|N].
    + rewrite upd_eq in A. rewrite EH. assert (r = p) as -> by (apply HQ; exists d; auto). rewrite upd_eq, (Q1 d p A). auto.
    + rewrite upd_neq in A by assumption. rewrite EH, upd_neq; [apply (V10 g d r A)|]. apply (OTHER g r N). exists d. auto.
  - intros g d r A. rewrite EP in A. destruct (N.eq_dec g f) as [->|N].
    + rewrite upd_eq in A. destruct (Q2 d r A).
    + rewrite upd_neq in A by assumption. rewrite EH, EF, upd_neq; [|apply (OTHER g r N); exists d; auto]. rewrite RE. destruct (V11 g d r A) as [X [Y|[Y Z]]]; (split; [exact X|]); [left; exact Y|right].
      split; [exact Y|]. intro e. rewrite RE. apply Z.
  - intros g v A. rewrite EP in A. rewrite EF. destruct (N.eq_dec g f) as [->|N]; [rewrite upd_eq in A; auto|rewrite upd_neq in A by assumption; auto].
  - intro d. rewrite EQ, EE, EC. destruct (V13 d) as (rest & A & B). exists rest. split; [|exact B]. rewrite <- A. apply map_ext_in. intros r Y. rewrite EH, upd_neq; [reflexivity|].
    apply (INR d). apply in_or_app. left. exact Y.
Qed.

Lemma winv_step : forall s l s', winv s -> wstep s l = Some s' -> winv s'.
Proof.
  intros s l s' I H. pose proof I as [V1 V2 [V3 V4] V5 V6 V7 V8 V9 V10 V11 V12 V13]. destruct l as [f c o|f|f|f|c|c p v|f|f|p]; cbn [wstep] in H.
  - (* Get *)
    destruct (pcs s f) eqn:P; try discriminate H. destruct o as [p|].
    + destruct (existsb (N.eqb p) (pool s)) eqn:X; [|discriminate H]. injection H as <-.
      apply existsb_exists in X. destruct X as (x & X & E). apply N.eqb_eq in E. subst x.
      assert (NH : forall g, ~ holds s g p) by (intros g A; apply V2 in A; tauto).
      assert (NR : forall d, ~ In p (refs s d)) by (intros d A; apply V5 in A; tauto).
      assert (HB : forall q, holdsBy (WGot c p) q -> q = p) by (intros q (c' & [A|[A|[A|[v A]]]]); [injection A as <- <-; reflexivity|discriminate A..]).
      split; cbn.
      * intros g h q A B. apply (holds_upd s _ f (WGot c p)) in A; [|reflexivity]. apply (holds_upd s _ f (WGot c p)) in B; [|reflexivity].
        destruct A as [[-> A]|[NA A]], B as [[-> B]|[NB B]]; auto.
        -- apply HB in A. subst q. destruct (NH _ B).
        -- apply HB in B. subst q. destruct (NH _ A).
        -- apply (V1 _ _ _ A B).
      * intros g q A. apply (holds_upd s _ f (WGot c p)) in A; [|reflexivity]. destruct A as [[-> A]|[NA A]].
        -- apply HB in A. subst q. split; [apply remove_In|apply V4, X].
        -- destruct (V2 _ _ A) as [Q R]. split; [intro Y; apply in_remove in Y; tauto|exact R].
      * split; [apply remove_nodup; exact V3|]. intros q Y. apply in_remove in Y. apply V4, Y.
      * intros d q A. destruct (V5 d q A) as (Q & R & S & g & T & U). split; [intro Y; apply in_remove in Y; tauto|]. split; [exact R|]. split; [exact S|].
        exists g. split; [exact T|]. rewrite upd_neq; [exact U|]. intros ->. rewrite P in U. destruct U as [U|U]; discriminate U.
      * exact V6.
      * exact V7.
      * exact V8.
      * intros g d q A e. destruct (N.eq_dec g f) as [->|N].
        -- rewrite upd_eq in A. destruct A as [A|[A|[v A]]]; [injection A as <- <-; apply NR|discriminate A..].
        -- rewrite upd_neq in A by assumption. apply (V9 g d q A).
      * intros g d q A. destruct (N.eq_dec g f) as [->|N]; [rewrite upd_eq in A; discriminate A|rewrite upd_neq in A by assumption; apply (V10 g d q A)].
      * intros g d q A. destruct (N.eq_dec g f) as [->|N]; [rewrite upd_eq in A; discriminate A|rewrite upd_neq in A by assumption; apply (V11 g d q A)].
      * intros g v A. destruct (N.eq_dec g f) as [->|N]; [rewrite upd_eq in A; destruct A as [(d & q & A)|A]; discriminate A|rewrite upd_neq in A by assumption; apply V12, A].
      * exact V13.
    + injection H as <-. set (p := made s) in *.
      assert (NH : forall g, ~ holds s g p) by (intros g A; apply V2 in A; unfold p in A; lia).
      assert (NR : forall d q, In q (refs s d) -> q <> p) by (intros d q A; apply V5 in A; unfold p; lia).
      assert (HB : forall q, holdsBy (WGot c p) q -> q = p) by (intros q (c' & [A|[A|[A|[v A]]]]); [injection A as <- <-; reflexivity|discriminate A..]).
      assert (HN : forall g q, holds s g q -> q <> p) by (intros g q A ->; apply (NH g A)).
      split; cbn.
      * intros g h q A B. apply (holds_upd s _ f (WGot c p)) in A; [|reflexivity]. apply (holds_upd s _ f (WGot c p)) in B; [|reflexivity].
        destruct A as [[-> A]|[NA A]], B as [[-> B]|[NB B]]; auto.
        -- apply HB in A. subst q. destruct (NH _ B).
        -- apply HB in B. subst q. destruct (NH _ A).
        -- apply (V1 _ _ _ A B).
      * intros g q A. apply (holds_upd s _ f (WGot c p)) in A; [|reflexivity]. destruct A as [[-> A]|[NA A]].
        -- apply HB in A. subst q. split; [intro Y; apply V4 in Y; unfold p in Y; lia|unfold p; lia].
        -- destruct (V2 _ _ A) as [Q R]. split; [exact Q|lia].
      * split; [exact V3|]. intros q Y. apply V4 in Y. lia.
      * intros d q A. pose proof (NR _ _ A) as Z. destruct (V5 d q A) as (Q & R & S & g & T & U). rewrite upd_neq by exact Z. split; [exact Q|]. split; [lia|]. split; [exact S|].
        exists g. split; [exact T|]. rewrite upd_neq; [exact U|]. intros ->. rewrite P in U. destruct U as [U|U]; discriminate U.
      * intros d q g A. rewrite upd_neq; [apply (V6 d q g A)|]. apply (NR d). apply in_or_app. right. apply (in_map fst) in A. exact A.
      * exact V7.
      * exact V8.
      * intros g d q A e. destruct (N.eq_dec g f) as [->|N].
        -- rewrite upd_eq in A. destruct A as [A|[A|[v A]]]; [injection A as <- <-; intro Y; apply (NR _ _ Y); reflexivity|discriminate A..].
        -- rewrite upd_neq in A by assumption. apply (V9 g d q A).
      * intros g d q A. destruct (N.eq_dec g f) as [->|N]; [rewrite upd_eq in A; discriminate A|rewrite upd_neq in A by assumption].
        rewrite upd_neq; [apply (V10 g d q A)|]. apply (HN g). exists d. auto.
      * intros g d q A. destruct (N.eq_dec g f) as [->|N]; [rewrite upd_eq in A; discriminate A|rewrite upd_neq in A by assumption].
        rewrite upd_neq; [apply (V11 g d q A)|]. apply (HN g). exists d. auto.
      * intros g v A. destruct (N.eq_dec g f) as [->|N]; [rewrite upd_eq in A; destruct A as [(d & q & A)|A]; discriminate A|rewrite upd_neq in A by assumption; apply V12, A].
      * intro d. destruct (V13 d) as (rest & A & B). exists rest. split; [|exact B]. rewrite <- A. apply map_ext_in. intros q Y. rewrite upd_neq; [reflexivity|].
        apply (NR d). apply in_or_app. left. exact Y.
  - (* Init *) destruct (pcs s f) as [|c p| | | | |] eqn:P; try discriminate H. injection H as <-.
    apply (winv_local s _ f p (WHas c p) (mkW (Some f) None)); auto; cbn.
    + exists c. auto.
    + apply (V9 f c p). auto.
    + intros r (d & [A|[A|[A|[v A]]]]); try discriminate A. injection A as <- <-. reflexivity.
    + intros d r A. discriminate A.
    + intros v [(d & r & A)|A]; discriminate A.
  - (* Enq *) destruct (pcs s f) as [| |c p| | | |] eqn:P; try discriminate H. injection H as <-. destruct (V10 f c p P) as [D W].
    assert (HP : holds s f p) by (exists c; auto). assert (NR : forall d, ~ In p (refs s d)) by (apply (V9 f c p); auto).
    match goal with |- winv ?X => set (s' := X) end.
    assert (RE : forall d r, In r (refs s' d) <-> In r (refs s d) \/ (d = c /\ r = p)).
    { intros d r. unfold refs, s'. cbn. rewrite !in_app_iff. destruct (N.eq_dec d c) as [->|N].
      - rewrite upd_eq, in_app_iff. cbn. intuition congruence.
      - rewrite upd_neq by assumption. intuition congruence. }
    assert (HB : forall r, holdsBy (WSent c p) r -> r = p) by (intros r (d & [A|[A|[A|[v A]]]]); try discriminate A; injection A as <- <-; reflexivity).
    split.
    + apply (keep_one s s' f (WSent c p) I); [reflexivity|]. intros r A. apply HB in A. subst r. exact HP.
    + apply (keep_out s s' f (WSent c p) I); try reflexivity. intros r A. apply HB in A. subst r. exact HP.
    + cbn. auto.
    + intros d r A. apply RE in A. cbn. destruct A as [A|[-> ->]].
      * destruct (V5 d r A) as (X & Y & Z & g & T & U). split; [exact X|]. split; [exact Y|]. split; [exact Z|]. exists g. split; [exact T|].
        rewrite upd_neq; [exact U|]. intros ->. rewrite P in U. destruct U as [U|U]; discriminate U.
      * destruct (V2 _ _ HP) as [X Y]. split; [exact X|]. split; [exact Y|]. split; [exact W|]. exists f. split; [exact D|]. left. apply upd_eq.
    + exact V6.
    + intro d. specialize (V7 d). unfold refs, s' in *. cbn. destruct (N.eq_dec d c) as [->|N]; [|rewrite upd_neq by assumption; exact V7].
      rewrite upd_eq, <- app_assoc. apply NoDup_Add with (a := p) (l := queue s c ++ map fst (batch s c)); [apply Add_app|]. split; [exact V7|apply (NR c)].
    + intros d e r A B. apply RE in A, B. destruct A as [A|[-> ->]], B as [B|[-> B]]; auto.
      * apply (V8 _ _ _ A B).
      * subst r. destruct (NR _ A).
      * destruct (NR _ B).
    + intros g d r A e B. apply RE in B. cbn in A. destruct (N.eq_dec g f) as [->|N].
      * rewrite upd_eq in A. destruct A as [A|[A|[v A]]]; discriminate A.
      * rewrite upd_neq in A by assumption. destruct B as [B|[-> ->]]; [apply (V9 g d r A e B)|]. apply N. apply (V1 g f p); [|exact HP]. exists d. tauto.
    + intros g d r A. cbn in *. destruct (N.eq_dec g f) as [->|N]; [rewrite upd_eq in A; discriminate A|rewrite upd_neq in A by assumption; apply (V10 g d r A)].
    + intros g d r A. cbn in A. cbn [heap fate s']. destruct (N.eq_dec g f) as [->|N].
      * rewrite upd_eq in A. injection A as <- <-. split; [exact D|left]. apply RE. auto.
      * rewrite upd_neq in A by assumption. destruct (V11 g d r A) as [X [Y|[Y Z]]]; (split; [exact X|]); [left; apply RE; auto|right]. split; [exact Y|].
        intros e B. apply RE in B. destruct B as [B|[-> ->]]; [apply (Z e B)|]. apply N. apply (V1 g f p); [|exact HP]. exists d. auto.
    + intros g v A. cbn in *. destruct (N.eq_dec g f) as [->|N]; [rewrite upd_eq in A; destruct A as [(d & q & A)|A]; discriminate A|rewrite upd_neq in A by assumption; apply V12, A].
    + intro d. cbn. destruct (V13 d) as (rest & A & B). destruct (N.eq_dec d c) as [->|N]; [|rewrite !upd_neq by assumption; exists rest; auto].
      rewrite !upd_eq, B. exists (rest ++ [f]). rewrite !map_app, A, app_assoc. cbn. rewrite D. auto.
  - (* GiveUp *) assert (G : s' = wgo s f WGone /\ ((exists c p, pcs s f = WHas c p) \/ (exists c p, pcs s f = WSent c p))).
    { destruct (pcs s f) as [| |c p|c p| | |] eqn:P; try discriminate H; injection H as <-; split; eauto 6. }
    destruct G as [-> G]. clear H.
    assert (HB : forall r, ~ holdsBy WGone r) by (intros r (d & [A|[A|[A|[v A]]]]); discriminate A).
    split; cbn; auto.
    + apply (keep_one s (wgo s f WGone) f WGone I); [reflexivity|]. intros r A. destruct (HB r A).
    + apply (keep_out s (wgo s f WGone) f WGone I); try reflexivity. intros r A. destruct (HB r A).
    + intros d r A. destruct (V5 d r A) as (X & Y & Z & g & T & U). split; [exact X|]. split; [exact Y|]. split; [exact Z|]. exists g. split; [exact T|].
      destruct (N.eq_dec g f) as [->|N]; [right; apply upd_eq|rewrite upd_neq by assumption; exact U].
    + intros g d r A e. destruct (N.eq_dec g f) as [->|N]; [rewrite upd_eq in A; destruct A as [A|[A|[v A]]]; discriminate A|rewrite upd_neq in A by assumption; apply (V9 g d r A)].
    + intros g d r A. destruct (N.eq_dec g f) as [->|N]; [rewrite upd_eq in A; discriminate A|rewrite upd_neq in A by assumption; apply (V10 g d r A)].
    + intros g d r A. destruct (N.eq_dec g f) as [->|N]; [rewrite upd_eq in A; discriminate A|rewrite upd_neq in A by assumption; apply (V11 g d r A)].
    + intros g v A. destruct (N.eq_dec g f) as [->|N]; [rewrite upd_eq in A; destruct A as [(d & q & A)|A]; discriminate A|rewrite upd_neq in A by assumption; apply V12, A].
  - (* Collect *) destruct (queue s c) as [|p r] eqn:Q; [discriminate H|]. destruct (w_dfw (heap s p)) as [f|] eqn:D; [|discriminate H]. injection H as <-.
    match goal with |- winv ?X => set (s' := X) end.
    assert (RE : forall d x, In x (refs s' d) <-> In x (refs s d)).
    { intros d x. unfold refs, s'. cbn. destruct (N.eq_dec d c) as [->|N]; [|rewrite !upd_neq by assumption; tauto].
      rewrite !upd_eq, Q, map_app, !in_app_iff. cbn. tauto. }
    split; cbn; auto.
    + intros d x A. apply RE in A. apply V5, A.
    + intros d x g A. destruct (N.eq_dec d c) as [->|N]; [rewrite upd_eq in A|rewrite upd_neq in A by assumption; apply (V6 _ _ _ A)].
      apply in_app_iff in A. destruct A as [A|[A|[]]]; [apply (V6 _ _ _ A)|injection A as <- <-; exact D].
    + intro d. specialize (V7 d). unfold refs, s' in *. cbn. destruct (N.eq_dec d c) as [->|N]; [|rewrite !upd_neq by assumption; exact V7].
      rewrite !upd_eq, map_app, app_assoc. rewrite Q in V7. cbn in V7 |- *. inversion V7 as [|y m N D']; subst.
      apply NoDup_Add with (a := p) (l := r ++ map fst (batch s c)); [rewrite <- (app_nil_r (r ++ map fst (batch s c))) at 1; apply Add_app|]. split; assumption.
    + intros d e x A B. apply RE in A, B. apply (V8 _ _ _ A B).
    + intros g d x A e B. apply RE in B. apply (V9 g d x A e B).
    + intros g d x A. destruct (V11 g d x A) as [X [Y|[Y Z]]]; (split; [exact X|]); [left; apply RE; exact Y|right]. split; [exact Y|]. intros e B. apply RE in B. apply (Z e B).
    + intro d. destruct (V13 d) as (rest & A & B). destruct (N.eq_dec d c) as [->|N]; [|rewrite !upd_neq by assumption; exists rest; auto].
      rewrite !upd_eq. rewrite Q in A. cbn in A. rewrite D in A. destruct rest as [|g rest]; cbn in A; [discriminate A|]. injection A as A0 A. subst g. exists rest. split; [exact A|].
      rewrite B, <- app_assoc. reflexivity.
  - (* Answer *) destruct (frameIn p (batch s c)) as [f|] eqn:F; [|discriminate H]. destruct (w_res (heap s p)) eqn:W; [discriminate H|]. injection H as <-.
    apply frameIn_In in F. pose proof (V6 _ _ _ F) as D.
    assert (IN : In p (refs s c)) by (apply in_or_app; right; apply (in_map fst) in F; exact F).
    destruct (V5 c p IN) as (X & Y & _ & g & T & U). rewrite D in T. injection T as <-.
    match goal with |- winv ?X => set (s' := X) end.
    assert (RE : forall d x, In x (refs s' d) <-> In x (refs s d) /\ x <> p).
    { intros d x. unfold refs, s'. cbn. destruct (N.eq_dec d c) as [->|N].
      - rewrite upd_eq, !in_app_iff. split.
        + intros [A|A].
          * split; [auto|]. intros ->. pose proof (V7 c) as ND. unfold refs in ND. apply (in_map fst) in F. cbn in F. clear - ND A F. induction (queue s c) as [|a l IH]; [destruct A|]. cbn in ND.
            inversion ND as [|y m N D']; subst. destruct A as [->|A]; [apply N; apply in_or_app; auto|apply IH; assumption].
          * apply in_map_iff in A. destruct A as (z & <- & A). apply without_In in A. split; [right; apply in_map|]; tauto.
        + intros [[A|A] N]; [auto|right]. apply in_map_iff in A. destruct A as (z & <- & A). apply in_map. apply without_In. auto.
      - rewrite upd_neq by assumption. split; [|tauto]. intro A. split; [exact A|]. intros ->. apply N. apply (V8 _ _ p); assumption. }
    assert (NW : forall e, ~ In p (refs s' e)) by (intros e A; apply RE in A; tauto).
    split.
    + exact V1.
    + exact V2.
    + cbn. auto.
    + intros d x A. apply RE in A. destruct A as [A N]. cbn. rewrite upd_neq by exact N. apply V5, A.
    + intros d x g A. cbn in A |- *. assert (B : In (x, g) (batch s d)) by (destruct (N.eq_dec d c) as [->|N]; [rewrite upd_eq in A; apply without_In in A; tauto|rewrite upd_neq in A; assumption]).
      destruct (N.eq_dec x p) as [->|N]; [rewrite upd_eq; cbn|rewrite upd_neq by assumption]; apply (V6 _ _ _ B).
    + intro d. specialize (V7 d). unfold refs, s' in *. cbn. destruct (N.eq_dec d c) as [->|N]; [|rewrite upd_neq by assumption; exact V7]. rewrite upd_eq. apply without_nodup, V7.
    + intros d e x A B. apply RE in A, B. apply (V8 _ _ x); tauto.
    + intros h d x A e B. apply RE in B. apply (V9 h d x A e). tauto.
    + intros h d x A. cbn in A |- *. rewrite upd_neq; [apply (V10 h d x A)|]. intros ->. apply (V9 h d p (or_intror (or_introl A)) c IN).
    + intros h d x A. cbn in A. cbn [heap fate s']. destruct (V11 h d x A) as [B C]. destruct (N.eq_dec x p) as [->|N].
      * rewrite D in B. injection B as <-. rewrite !upd_eq. cbn. split; [exact D|right]. split; [eauto|exact NW].
      * rewrite (upd_neq _ (heap s)) by exact N. split; [exact B|]. destruct C as [C|[C Z]]; [left; apply RE; auto|right]. split; [|intros e E; apply RE in E; apply (Z e); tauto].
        rewrite upd_neq; [exact C|]. intros ->. destruct U as [U|U]; rewrite A in U; [injection U as <- <-; destruct (N eq_refl)|discriminate U].
    + intros h u A. cbn in A |- *. rewrite upd_neq; [apply V12, A|]. intros ->. destruct A as [(d & x & A)|A]; destruct U as [U|U]; rewrite A in U; discriminate U.
    + intro d. cbn. destruct (V13 d) as (rest & A & B). exists rest. split; [|exact B]. rewrite <- A. apply map_ext. intro x. destruct (N.eq_dec x p) as [->|N]; [rewrite upd_eq; reflexivity|rewrite upd_neq by assumption; reflexivity].
  - (* Recv *) destruct (pcs s f) as [| | |c p| | |] eqn:P; try discriminate H. destruct (w_res (heap s p)) as [v|] eqn:W; [|discriminate H]. injection H as <-.
    destruct (V11 f c p P) as [D [X|[(u & X & Y) Z]]]; [apply V5 in X; destruct X as (_ & _ & X & _); rewrite X in W; discriminate W|]. rewrite W in X. injection X as <-.
    apply (winv_local s _ f p (WRecv c p v) (mkW (w_dfw (heap s p)) None)); auto; cbn.
    + exists c. auto.
    + intros r (d & [A|[A|[A|[u A]]]]); try discriminate A. injection A as <- <- <-. reflexivity.
    + intros d r A. discriminate A.
    + intros d r A. discriminate A.
    + intros u [(d & r & A)|A]; [injection A as <- <- <-; exact Y|discriminate A].
  - (* Put *) destruct (pcs s f) as [| | | |c p v| |] eqn:P; try discriminate H. injection H as <-.
    assert (HB : forall r, ~ holdsBy (WEnd v) r) by (intros r (d & [A|[A|[A|[u A]]]]); discriminate A).
    apply (winv_local s _ f p (WEnd v) (mkW None (w_res (heap s p)))); auto; cbn.
    + exists c. eauto.
    + apply (V9 f c p). eauto.
    + intros r A. destruct (HB r A).
    + intros d r A. discriminate A.
    + intros d r A. discriminate A.
    + intros u [(d & r & A)|A]; [discriminate A|injection A as <-; apply V12; eauto].
  - (* Drop *) injection H as <-. split; cbn; auto.
    + intros f q A. destruct (V2 _ _ A) as [Q R]. split; [intro X; apply in_remove in X; tauto|exact R].
    + split; [apply remove_nodup; exact V3|]. intros q X. apply in_remove in X. apply V4, X.
    + intros c q A. destruct (V5 c q A) as (X & Y). split; [intro Z; apply in_remove in Z; tauto|exact Y].
Qed.

Lemma winv_run : forall ls s, run wstep winit ls = Some s -> winv s.
Proof. intros ls s R. eapply (@run_inv _ _ wstep winv); [apply winv_step|apply winv_init|exact R]. Qed.

(** A call returns the result that was decided for its own frame *)
Theorem C88_own_result : forall ls s f v, run wstep winit ls = Some s -> pcs s f = WEnd v -> fate s f = Some v.
Proof. intros ls s f v R P. apply (v_end _ (winv_run _ _ R)). auto. Qed.
Print Assumptions C88_own_result.

(** What is taken to be written on a connection are the frames that were queued on it, in this order, each once *)
Theorem C88_own_frames : forall ls s c, run wstep winit ls = Some s -> exists rest, enq s c = coll s c ++ rest.
Proof. intros ls s c R. destruct (v_fifo _ (winv_run _ _ R) c) as (rest & _ & H). eauto. Qed.
Print Assumptions C88_own_frames.

(** Answering a request never blocks: the channel of a request that is queued or in a batch is empty; and a queued request has its frame *)
Theorem C88_no_block : forall ls s c, run wstep winit ls = Some s ->
  (forall p f v, In (p, f) (batch s c) -> wstep s (LAnswer c p v) <> None) /\ (queue s c <> [] -> wstep s (LCollect c) <> None).
Proof.
  intros ls s c R. pose proof (winv_run _ _ R) as I. split.
  - intros p f v A. assert (IN : In p (refs s c)) by (apply in_or_app; right; apply (in_map fst) in A; exact A).
    destruct (v_ref _ I c p IN) as (_ & _ & W & _). cbn [wstep]. rewrite W. destruct (frameIn p (batch s c)) as [g|] eqn:F; [intro X; discriminate X|].
    exfalso. clear - A F. induction (batch s c) as [|[q g] b IH]; [destruct A|]. cbn in F. destruct A as [A|A]; [injection A as -> ->; rewrite N.eqb_refl in F; discriminate F|].
    destruct (q =? p); [discriminate F|auto].
  - intro Q. cbn [wstep]. destruct (queue s c) as [|p r] eqn:E; [congruence|]. assert (IN : In p (refs s c)) by (apply in_or_app; left; rewrite E; left; reflexivity).
    destruct (v_ref _ I c p IN) as (_ & _ & _ & f & D & _). rewrite D. intro X. discriminate X.
Qed.
Print Assumptions C88_no_block.

(** A call that waits has its result ready, or its request still is with the batcher of its connection, as its own frame *)
Theorem C88_none_lost : forall ls s f c p, run wstep winit ls = Some s -> pcs s f = WSent c p ->
  (exists s', wstep s (LRecv f) = Some s') \/ In p (queue s c) \/ In (p, f) (batch s c).
Proof.
  intros ls s f c p R P. pose proof (winv_run _ _ R) as I. destruct (v_sent _ I f c p P) as [D [X|[(v & X & _) _]]].
  - right. apply in_app_or in X. destruct X as [X|X]; [auto|right]. apply in_map_iff in X. destruct X as ([q g] & E & X). cbn in E. subst q.
    pose proof (v_bat _ I _ _ _ X) as D'. rewrite D in D'. injection D' as <-. exact X.
  - left. cbn [wstep]. rewrite P, X. eauto.
Qed.
Print Assumptions C88_none_lost.

(** The hypotheses are met: request 0 serves frame 10 on connection 0, which fails, and then frame 11 on connection 1, which is written *)
Example C88_case :
  option_map (fun s => (pcs s 10, pcs s 11, coll s 1)) (run wstep winit
    [LGet 10 0 None; LInit 10; LEnq 10; LCollect 0; LAnswer 0 0 5; LRecv 10; LPut 10;
     LGet 11 1 (Some 0); LInit 11; LEnq 11; LCollect 1; LAnswer 1 0 0; LRecv 11; LPut 11]) = Some (WEnd 5, WEnd 0, [11]).
Proof. vm_compute. reflexivity. Qed.
(** ... and a call that waits while another one has given up *)
Example C88_case_waiting :
  option_map (fun s => (pcs s 10, pcs s 11, batch s 0)) (run wstep winit
    [LGet 10 0 None; LInit 10; LEnq 10; LGet 11 0 None; LInit 11; LEnq 11; LGiveUp 10; LCollect 0; LCollect 0]) = Some (WGone, WSent 0 1, [(0, 10); (1, 11)]).
Proof. vm_compute. reflexivity. Qed.
