(** Proofs about Model/ServerCall.v, after Proofs/CallP.v. *)
From Coq Require Import ZifyBool ZifyNat ZifyN.
From Verif Require Import Model.GoBase Model.Machine Model.Qrpc Model.FrameWriter Model.Reader Model.FrameReader Model.Ids Model.Stream Model.Pair Model.Call
  Spec.FrameSpec Proofs.StreamP Proofs.StreamI Proofs.StreamQ Proofs.StreamR Proofs.PairP Proofs.CallP Model.ServerCall Props.Stream.
From Verif Require Model.Response Proofs.ResponseP Props.Response.
Open Scope N_scope.

(** no handler of the server answers a frame that came under one of the server's own ids *)
Definition quiet (l : clabel) : bool := match l with JEcho _ _ _ _ => false | _ => true end.
Definition cstepQ (lim : bool -> Z) (j : cst) (l : clabel) : option cst := if quiet l then cstep lim j l else None.

Definition load (id : N) (p : pst) : nat := (nfr id (sent p false) + nfr id (opt (cand p false)))%nat.

Section P.
  Variable lim : bool -> Z.

  Lemma load_step : forall p l p', PairInv lim p -> pstep lim p l = Some p' -> forall id,
    (load id p' <= load id p + match l with PWrite false i _ _ _ _ => if N.eqb i id then 1 else 0 | _ => 0 end)%nat.
  Proof.
    intros p l p' I E id. unfold load. destruct l as [c l|c i cmd fl ce payload|c n|c].
    - rewrite Nat.add_0_r. pose proof (reach_inv c _ (q_reach _ _ I c)) as SI.
      destruct (sstep c (ep p c) l) as [st'|] eqn:ES; [|unfold pstep in E; destruct l; try discriminate E; rewrite ES in E; discriminate E].
      assert (A : (forall id fl ce, l <> LWrite id fl ce) -> l <> LWriteRst -> p' = advance c st' p ->
        (nfr id (sent p' false) + nfr id (opt (cand p' false)) <= nfr id (sent p false) + nfr id (opt (cand p false)))%nat).
      { intros N1 N2 ->. destruct (Bool.bool_dec false c) as [<-|ND].
        2:{ unfold cand. destruct (adv_ep c st' p) as [-> ->]. rewrite put_neq by assumption.
            unfold advance. destruct (accepted _ _) as [[? ?]|]; [destruct (cur p c); cbn [sent]; rewrite put_neq by assumption; lia|cbn [sent]; lia]. }
        unfold cand. destruct (adv_ep false st' p) as [-> ->]. rewrite put_eq.
        destruct (log_step false _ l st' ES) as [L|(i & fl & r & L & W)].
        - unfold advance, accepted. rewrite L, skipn_all2 by lia. cbn [sent].
          destruct (wid_step false _ l st' SI ES N1 N2) as [W|W]; rewrite W; [lia|]. cbn. lia.
        - rewrite W. rewrite (wid_accept false _ l st' ES) by (rewrite L; intro X; apply (f_equal (@length _)) in X; rewrite app_length in X; cbn in X; lia).
          unfold advance, accepted. rewrite L, skipn_app, skipn_all2, Nat.sub_diag by lia. cbn [skipn app].
          destruct r; cbn [sent opt]; try (change (nfr id []) with 0%nat; lia). destruct (cur p false) as [cmd pay]. cbn [sent fst snd]. rewrite put_eq, nfr_app. change (nfr id []) with 0%nat. lia. }
      unfold pstep in E. destruct l; try discriminate E; rewrite ES in E; injection E as <-; try (apply A; [discriminate|discriminate|reflexivity]).
      cbn [sent]. unfold cand. cbn [ep cur]. destruct (Bool.bool_dec false c) as [<-|ND]; [|rewrite !put_neq by assumption; lia].
      rewrite !put_eq. destruct (wid_rst false _ _ SI ES) as (s & _ & ->). cbn [opt]. rewrite nfr_rst by reflexivity. lia.
    - unfold pstep in E. destruct (fits _ _ _ _); [|discriminate]. destruct (sstep _ _ _) as [st'|] eqn:ES; [|discriminate]. injection E as <-.
      unfold cand. cbn [sent ep cur]. destruct c; [rewrite !put_neq by discriminate; lia|].
      rewrite !put_eq, (wid_write _ _ _ _ _ _ ES). cbn [opt fst snd]. destruct (N.eqb_spec i id) as [->|N]; [pose proof (nfr_one id (mkFrame id fl (N.land cmd 0xffffff) payload)); lia|].
      rewrite nfr_id by assumption. lia.
    - unfold pstep in E. injection E as <-. unfold cand. cbn [sent ep cur]. lia.
    - unfold pstep in E. destruct (readFrame _ _ _ _) as [r' [g|e]]; [|discriminate]. destruct (sstep _ _ _) as [st'|] eqn:ES; [|discriminate]. injection E as <-.
      unfold cand. cbn [sent ep cur]. destruct (Bool.bool_dec false c) as [<-|ND]; [|rewrite !put_neq by assumption; lia]. rewrite put_eq.
      destruct (wid_step false _ _ _ (reach_inv false _ (q_reach _ _ I false)) ES) as [W|W]; try (intros; discriminate); rewrite W; cbn [opt]; [lia|]. change (nfr id []) with 0%nat. lia.
  Qed.
End P.

(** *** the invariant of calls *)
Definition plainf (f : Frame) : Prop := IsRst (fFlags f) = false /\ IsPush (fFlags f) = false /\ N.even (fRequestID f) = true.
Definition Good (ks : list call) (an : list (Frame * Frame)) (d : bool) (f : Frame) : Prop :=
  plainf f -> if d then exists q, In (q, f) an else fromCall ks f.
Lemma good_mono : forall ks ks' an an' d f, incl ks ks' -> incl an an' -> Good ks an d f -> Good ks' an' d f.
Proof.
  intros ks ks' an an' d f H1 H2 G P. specialize (G P). destruct d; [destruct G as (q & A)|destruct G as (k & A & B)]; eexists; split || idtac; eauto.
Qed.

Record CInv (lim : bool -> Z) (j : cst) : Prop := {
  v_pair : reachable (pstep lim) pinit (pp j);
  v_good : forall d f, In f (sent (pp j) d) \/ cand (pp j) d = Some f -> Good (calls j) (answers j) d f;
  v_ans : forall q f, In (q, f) (answers j) -> fRequestID q = fRequestID f /\ IsRst (fFlags q) = false /\ IsPush (fFlags q) = false /\ Good (calls j) [] false q;
  v_ret : forall f, ret j = Some f -> In f (inlog (ep (pp j) false)) /\ IsRst (fFlags f) = false;
  v_resp : exists ls, run (Response.pstep false) Response.pinit ls = Some (rr j) /\
    (forall f, In (Response.PFrame f true) ls -> IsPush (fFlags f) = false /\ IsRst (fFlags f) = false /\ Good (calls j) (answers j) true f) /\
    (forall r id, nth_error (Response.requests ls) r = Some id <-> exists k, In k (calls j) /\ c_resp k = Some (N.of_nat r) /\ c_id k = id);
  v_gen : ridGen j < 2 ^ 63;
  v_ids : forall k, In k (calls j) -> exists n, 1 <= n <= ridGen j /\ c_id k = 2 * n;
  v_nodup : NoDup (map c_id (calls j));
  v_wait : incl (waiting j) (calls j);
  v_once : forall k, In k (calls j) -> c_stream k = false ->
    (load (c_id k) (pp j) + wcount (c_id k) (waiting j) <= 1)%nat;
}.

Section J.
  Variable lim : bool -> Z.
  Hypothesis HT : forall c, tooLarge (lim c) 12 = false.

  Lemma cinv_init : CInv lim cinit.
  Proof.
    constructor; cbn; try (intros; tauto); try (intros; discriminate); try lia.
    - exists []. reflexivity.
    - intros d f [[]|H]. discriminate.
    - exists []. cbn. split; [reflexivity|]. split; [tauto|]. intros r id. split; [destruct r; discriminate|]. intros (k & [] & _).
    - constructor.
    - intros x [].
  Qed.

  (** the pair's part of a step *)
  Lemma pair_good : forall j l p', CInv lim j -> pstep lim (pp j) l = Some p' -> forall ks an, incl (calls j) ks -> incl (answers j) an ->
    (forall d id cmd fl ce pay, l = PWrite d id cmd fl ce pay -> Good ks an d (mkFrame id fl (N.land cmd 0xffffff) pay)) ->
    forall d f, In f (sent p' d) \/ cand p' d = Some f -> Good ks an d f.
  Proof.
    intros j l p' I E ks an Hk Ha HL d f HF. pose proof (reach_pair lim HT _ (v_pair _ _ I)) as PI.
    assert (G : forall d f, In f (sent (pp j) d) \/ cand (pp j) d = Some f -> Good ks an d f).
    { intros d0 f0 H0. eapply good_mono; [exact Hk|exact Ha|]. apply (v_good _ _ I). assumption. }
    destruct HF as [HF|HF].
    - apply G. eapply psent_step; eassumption.
    - destruct (pcand_step lim _ _ _ PI E d f HF) as [X|[X|(id & cmd & fl & ce & pay & -> & ->)]]; [apply G; auto| |eauto].
      intros (P & _). congruence.
  Qed.

  (** a step of the pair that starts no write of the client under the id of a plain call *)
  Lemma pair_inv : forall j l p' tk bt rt an, CInv lim j -> pstep lim (pp j) l = Some p' -> incl (answers j) an ->
    (forall q f, In (q, f) an -> fRequestID q = fRequestID f /\ IsRst (fFlags q) = false /\ IsPush (fFlags q) = false /\ Good (calls j) [] false q) ->
    (forall d id cmd fl ce pay, l = PWrite d id cmd fl ce pay -> Good (calls j) an d (mkFrame id fl (N.land cmd 0xffffff) pay)) ->
    (forall k id cmd fl ce pay, l = PWrite false id cmd fl ce pay -> In k (calls j) -> c_stream k = false -> c_id k = id -> IsRst fl = true \/ IsPush fl = true) ->
    (forall f, rt = Some f -> In f (inlog (ep p' false)) /\ IsRst (fFlags f) = false) ->
    CInv lim (mkCst p' (rr j) (ridGen j) (calls j) (waiting j) tk bt rt an (given j)).
  Proof.
    intros j l p' tk bt rt an I E Ha HA HL HO HR. pose proof (reach_pair lim HT _ (v_pair _ _ I)) as PI.
    constructor; cbn [pp rr ridGen calls waiting taken batch ret answers given]; try apply I.
    - eapply reachable_step; [apply I|exact E].
    - eapply pair_good; eauto. apply incl_refl.
    - assumption.
    - assumption.
    - destruct (v_resp _ _ I) as (ls & A & B & C). exists ls. split; [assumption|]. split; [|assumption]. intros f Hf. destruct (B f Hf) as (B1 & B2 & B3).
      repeat split; auto. eapply good_mono; [apply incl_refl|exact Ha|exact B3].
    - intros k Hk Hs. pose proof (v_once _ _ I k Hk Hs) as O. pose proof (load_step lim _ _ _ PI E (c_id k)) as L.
      enough (load (c_id k) p' <= load (c_id k) (pp j))%nat by lia.
      destruct l as [c l|c i cmd fl ce payload|c n|c]; try lia. destruct c; [lia|]. destruct (N.eqb_spec i (c_id k)) as [->|N]; [|lia].
      pose proof (HO k _ _ _ _ _ eq_refl Hk Hs eq_refl) as Q.
      clear L. unfold pstep in E. destruct (fits _ _ _ _); [|discriminate]. destruct (sstep _ _ _) as [st'|] eqn:ES; [|discriminate]. injection E as <-.
      unfold load, cand. cbn [sent ep cur]. rewrite !put_eq, (wid_write _ _ _ _ _ _ ES). cbn [opt fst snd].
      unfold nfr, frames_of. cbn [filter fFlags fRequestID fst snd]. destruct Q as [-> | ->]; [rewrite andb_false_r|]; cbn; lia.
  Qed.

  Lemma nfr_zero : forall id l, (forall f, In f l -> plainf f -> fRequestID f <> id) -> N.even id = true -> nfr id l = 0%nat.
  Proof.
    intros id l H HE. unfold nfr, frames_of. induction l as [|f l IH]; [reflexivity|]. cbn [filter fst snd].
    destruct (Bool.eqb (IsPush (fFlags f)) false && N.eqb (fRequestID f) id && negb (IsRst (fFlags f))) eqn:E; [|apply IH; intros; apply H; auto; right; assumption].
    exfalso. rewrite !andb_true_iff, N.eqb_eq, negb_true_iff in E. destruct E as [[E1 E2] E3]. apply Bool.eqb_prop in E1.
    apply (H f); [left; reflexivity| |assumption]. unfold plainf. rewrite E2. auto.
  Qed.
  Lemma odd_even : forall n, N.even (2 * n) = true.
  Proof. intros. rewrite N.even_mul. reflexivity. Qed.

  Lemma call_inv : forall j k r', CInv lim j -> c_id k = 2 * (ridGen j + 1) -> ridGen j + 1 < 2 ^ 63 ->
    (c_resp k = None /\ r' = rr j) \/ (c_resp k = Some (Response.nextR (rr j)) /\ Response.pstep false (rr j) (Response.PRequest (c_id k)) = Some r') ->
    CInv lim (mkCst (pp j) r' (ridGen j + 1) (k :: calls j) (waiting j ++ [k]) (taken j) (batch j) (ret j) (answers j) (given j)).
  Proof.
    intros j k r' I EK HG HR.
    assert (M : forall an d f, Good (calls j) an d f -> Good (k :: calls j) an d f) by (intros; eapply good_mono; [apply incl_tl; apply incl_refl|apply incl_refl|eassumption]).
    assert (NEW : forall k', In k' (calls j) -> c_id k' <> c_id k).
    { intros k' Hk'. destruct (v_ids _ _ I k' Hk') as (n & Hn & ->). rewrite EK. lia. }
    assert (NF : forall an f, Good (calls j) an false f -> plainf f -> fRequestID f <> c_id k).
    { intros an f G P. destruct (G P) as (k' & A & B & _). rewrite <- B. auto. }
    constructor; cbn [pp rr ridGen calls waiting taken batch ret answers given]; try apply I; try assumption.
    - intros d f HF. apply M. apply (v_good _ _ I). assumption.
    - intros q f H. destruct (v_ans _ _ I q f H) as (A & B & C & D). auto.
    - destruct (v_resp _ _ I) as (ls & A & B & C). destruct HR as [[HR ->]|[HR HS]].
      + exists ls. split; [assumption|]. split; [intros f Hf; destruct (B f Hf) as (?&?&?); auto|]. intros r id. rewrite C. split.
        * intros (x & X). exists x. cbn. intuition.
        * intros (x & [<-|X] & Y & Z); [congruence|]. exists x. auto.
      + destruct (Response.hist_run false ls _ A) as (_ & HN & _).
        exists (ls ++ [Response.PRequest (c_id k)]). split; [rewrite run_app, A; cbn [run]; rewrite HS; reflexivity|]. split.
        * intros f Hf. apply in_app_iff in Hf. destruct Hf as [Hf|[Hf|[]]]; [destruct (B f Hf) as (?&?&?); auto|discriminate].
        * intros r id. unfold Response.requests in *. rewrite flat_map_app. cbn [flat_map app].
          destruct (lt_eq_lt_dec r (length (flat_map (fun l => match l with Response.PRequest id => [id] | _ => [] end) ls))) as [[L|L]|L].
          -- rewrite nth_error_app1 by assumption. rewrite C. split.
             ++ intros (x & X). exists x. cbn. intuition.
             ++ intros (x & [<-|X] & Y & Z); [rewrite HR in Y; inversion Y; lia|]. exists x. auto.
          -- rewrite nth_error_app2 by lia. rewrite L, Nat.sub_diag. cbn. split.
             ++ intro X. injection X as <-. exists k. split; [auto|]. split; [|reflexivity]. rewrite HR. f_equal. lia.
             ++ intros (x & [<-|X] & Y & Z); [congruence|]. exfalso. rewrite <- L in Y.
                assert (Q : nth_error (flat_map (fun l => match l with Response.PRequest id => [id] | _ => [] end) ls) r = Some id) by (apply C; eauto).
                assert (nth_error (flat_map (fun l => match l with Response.PRequest id => [id] | _ => [] end) ls) r <> None) as Q' by congruence. apply nth_error_Some in Q'. lia.
          -- split.
             ++ intro X. assert (nth_error (flat_map (fun l => match l with Response.PRequest id => [id] | _ => [] end) ls ++ [c_id k]) r <> None) as Q' by congruence.
                apply nth_error_Some in Q'. rewrite app_length in Q'. cbn in Q'. lia.
             ++ intros (x & [<-|X] & Y & Z); [rewrite HR in Y; inversion Y; lia|]. exfalso.
                assert (Q : nth_error (flat_map (fun l => match l with Response.PRequest id => [id] | _ => [] end) ls) r = Some id) by (apply C; eauto).
                assert (nth_error (flat_map (fun l => match l with Response.PRequest id => [id] | _ => [] end) ls) r <> None) as Q' by congruence. apply nth_error_Some in Q'. lia.
    - intros k' [<-|Hk']; [exists (ridGen j + 1); split; [lia|assumption]|]. destruct (v_ids _ _ I k' Hk') as (n & Hn & E). exists n. split; [lia|assumption].
    - cbn. constructor; [|apply I]. intro X. apply in_map_iff in X. destruct X as (k' & A & B). apply (NEW k' B A).
    - intros x Hx. apply in_app_iff in Hx. destruct Hx as [Hx|[<-|[]]]; [right; apply (v_wait _ _ I); assumption|left; reflexivity].
    - assert (OE : N.even (c_id k) = true) by (rewrite EK; apply odd_even).
      intros k' [<-|Hk'] Hs; rewrite wcount_app.
      + assert (Z2 : load (c_id k) (pp j) = 0%nat).
        { unfold load. rewrite !nfr_zero; auto; intros f Hf; apply (NF (answers j)); apply (v_good _ _ I); auto. right. destruct (cand (pp j) false); [|destruct Hf]. destruct Hf as [<-|[]]. reflexivity. }
        assert (Z3 : wcount (c_id k) (waiting j) = 0%nat).
        { unfold wcount. pose proof (v_wait _ _ I) as W. induction (waiting j) as [|x w IH]; [reflexivity|]. cbn.
          destruct (N.eqb_spec (c_id x) (c_id k)) as [E|_]; [exfalso; apply (NEW x); [apply W; left; reflexivity|assumption]|]. apply IH. intros y Hy. apply W. right. assumption. }
        rewrite Z2, Z3. cbn. rewrite N.eqb_refl. cbn. lia.
      + pose proof (v_once _ _ I k' Hk' Hs) as O. unfold wcount at 2. cbn [filter]. destruct (N.eqb_spec (c_id k) (c_id k')) as [E|_]; [exfalso; apply (NEW k' Hk'); congruence|]. cbn [length]. lia.
  Qed.

  Lemma resp_inv : forall j l r' tk bt rt, CInv lim j -> Response.pstep false (rr j) l = Some r' ->
    (forall id, l <> Response.PRequest id) -> (forall f, l = Response.PFrame f true -> IsPush (fFlags f) = false /\ IsRst (fFlags f) = false /\ Good (calls j) (answers j) true f) ->
    rt = ret j \/ rt = None -> CInv lim (mkCst (pp j) r' (ridGen j) (calls j) (waiting j) tk bt rt (answers j) (given j)).
  Proof.
    intros j l r' tk bt rt I E N1 N2 HR. constructor; cbn [pp rr ridGen calls waiting taken batch ret answers given]; try apply I.
    - intros f Hf. destruct HR as [-> | ->]; [apply (v_ret _ _ I); assumption|discriminate].
    - destruct (v_resp _ _ I) as (ls & A & B & C). exists (ls ++ [l]). split; [rewrite run_app, A; cbn [run]; rewrite E; reflexivity|]. split.
      + intros f Hf. apply in_app_iff in Hf. destruct Hf as [Hf|[Hf|[]]]; auto.
      + assert (X : Response.requests (ls ++ [l]) = Response.requests ls).
        { unfold Response.requests. rewrite flat_map_app. cbn. destruct l; try (rewrite app_nil_r; reflexivity). elim (N1 id). reflexivity. }
        rewrite X. assumption.
  Qed.

  (** what an action of the connection does to the rest *)
  Definition pairAfter (j : cst) (l : plabel) (p' : pst) (j' : cst) : Prop :=
    let j1 := w_batch (batch j + (length (flight p' false) - length (flight (pp j) false))) (w_pp p' j) in
    (j' = w_pp p' j /\ l <> PLoc false LRStep /\ l <> PLoc false LWStep /\ l <> PLoc false LWriteRst /\
       (forall n, l = PArrive true n -> (n + batch j <= length (flight (pp j) false))%nat) /\ (l = PRead false -> free j = true)) \/
    (l = PLoc false LWriteRst /\ j' = w_taken None (w_pp p' j)) \/
    (l = PLoc false LRStep /\ j' = w_ret (match bound (ep (pp j) false) with Some f => Some f | None => ret j end) (w_pp p' j)) \/
    (l = PLoc false LWStep /\ (wpc (ep p' false) <> WIdle \/ taken j = None) /\ j' = j1) \/
    (l = PLoc false LWStep /\ wpc (ep p' false) = WIdle /\ exists r lb r', taken j = Some r /\
       lb = (if (length (sent (pp j) false) <? length (sent p' false))%nat then Response.PCollect r else Response.PReject r) /\
       Response.pstep false (rr j) lb = Some r' /\ j' = w_taken None (w_rr r' j1)).

  Lemma pair_case : forall j l j', cstep lim j (JPair l) = Some j' -> exists p', pstep lim (pp j) l = Some p' /\
    (forall d id cmd fl ce pay, l <> PWrite d id cmd fl ce pay) /\ pairAfter j l p' j'.
  Proof.
    intros j l j' E. unfold cstep in E.
    assert (D : option_map (fun p' => w_pp p' j) (pstep lim (pp j) l) = Some j' -> (forall d id cmd fl ce pay, l <> PWrite d id cmd fl ce pay) ->
      l <> PLoc false LRStep -> l <> PLoc false LWStep -> l <> PLoc false LWriteRst ->
       (forall n, l = PArrive true n -> (n + batch j <= length (flight (pp j) false))%nat) -> (l = PRead false -> free j = true) ->
      exists p', pstep lim (pp j) l = Some p' /\ (forall d id cmd fl ce pay, l <> PWrite d id cmd fl ce pay) /\ pairAfter j l p' j').
    { intros X NW N1 N2 N3 N4 N5. destruct (pstep lim (pp j) l) as [p'|]; [|discriminate]. injection X as <-. exists p'. split; [reflexivity|]. split; [assumption|]. left. repeat split; assumption. }
    destruct l as [[|] l|c id cmd fl ce payload|[|] n|[|]]; try discriminate E; try (apply D; (exact E || discriminate)).
    - destruct l; try (apply D; (exact E || discriminate)).
      + destruct (pstep lim (pp j) (PLoc false LRStep)) as [p'|]; [|discriminate]. injection E as <-. exists p'. split; [reflexivity|]. split; [discriminate|]. do 2 right; left. split; reflexivity.
      + destruct (collecting j); [|discriminate]. destruct (pstep lim (pp j) (PLoc false LWriteRst)) as [p'|]; [|discriminate]. injection E as <-. exists p'. split; [reflexivity|]. split; [discriminate|]. right; left. split; reflexivity.
      + destruct (pstep lim (pp j) (PLoc false LWStep)) as [p'|]; [|discriminate]. exists p'. split; [reflexivity|]. split; [discriminate|]. do 3 right.
        unfold settle in E. cbn [taken w_batch w_pp rr] in E. destruct (wpc (ep p' false)) eqn:EW; try (injection E as <-; left; split; [reflexivity|]; split; [left; discriminate|reflexivity]).
        destruct (taken j) as [r|] eqn:ET; [|injection E as <-; left; split; [reflexivity|]; split; [auto|reflexivity]].
        match type of E with option_map _ (Response.pstep false ?a ?b) = _ => destruct (Response.pstep false a b) as [r'|] eqn:ES; [|discriminate] end.
        injection E as <-; right. split; [reflexivity|]. split; [reflexivity|]. exists r; eexists; exists r'; repeat split; exact ES.
    - destruct (n + batch j <=? length (flight (pp j) false))%nat eqn:EN; [|discriminate]. apply Nat.leb_le in EN. apply D; try (exact E || discriminate). intros m X. injection X as <-. assumption.
    - destruct (free j) eqn:EF; [|discriminate]. apply D; (exact E || discriminate || auto).
  Qed.

  (** an action on the Responses *)
  Lemma resp_case : forall j l j', cstep lim j (JResp l) = Some j' -> exists r' bt, Response.pstep false (rr j) l = Some r' /\
    (forall id, l <> Response.PRequest id) /\ (forall f b, l <> Response.PFrame f b) /\
    (l <> Response.PConnect /\ (forall r, l <> Response.PCollect r) /\ (forall r, l <> Response.PReject r) /\
     (l <> Response.PRegister -> bt = batch j) /\
     (l = Response.PRegister -> wpc (ep (pp j) false) = WIdle /\ bt = (if Response.up (rr j) then 0 else batch j)%nat) /\
     (l = Response.PWriteQuit -> wpc (ep (pp j) false) = WIdle)) /\
    j' = mkCst (pp j) r' (ridGen j) (calls j) (waiting j) (taken j) bt (ret j) (answers j) (given j).
  Proof.
    intros j l j' E. unfold cstep in E.
    assert (D : option_map (fun r' => w_rr r' j) (Response.pstep false (rr j) l) = Some j' ->
      exists r', Response.pstep false (rr j) l = Some r' /\ j' = mkCst (pp j) r' (ridGen j) (calls j) (waiting j) (taken j) (batch j) (ret j) (answers j) (given j)).
    { intro X. destruct (Response.pstep false (rr j) l) as [r'|]; [|discriminate]. injection X as <-. exists r'. split; reflexivity. }
    destruct l; try discriminate E;
      try (destruct (D E) as (r' & A & B); exists r', (batch j); split; [exact A|]; split; [discriminate|]; split; [discriminate|]; split; [|exact B]; repeat split; intros; try discriminate; try congruence).
    - destruct (wpc (ep (pp j) false)) eqn:EW; try discriminate. destruct (Response.pstep false (rr j) Response.PRegister) as [r'|] eqn:ES; [|discriminate]. injection E as <-.
      exists r'. eexists. split; [reflexivity|]. split; [discriminate|]. split; [discriminate|]. split; [|reflexivity]. repeat split; intros; try discriminate; try congruence.
    - destruct (wpc (ep (pp j) false)) eqn:EW; try discriminate.
      destruct (D E) as (r' & A & B); exists r', (batch j); split; [exact A|]; split; [discriminate|]; split; [discriminate|]; split; [|exact B]; repeat split; intros; try discriminate; try congruence.
  Qed.

  Lemma cinv_given : forall j g, CInv lim j -> CInv lim (w_given g j).
  Proof. intros j g []. constructor; assumption. Qed.

  Lemma cinv_step : forall j l j', CInv lim j -> cstepQ lim j l = Some j' -> CInv lim j'.
  Proof.
    intros j l j' I E. pose proof (reach_pair lim HT _ (v_pair _ _ I)) as PI.
    assert (AN := v_ans _ _ I).
    assert (RT : forall l p' f, pstep lim (pp j) l = Some p' -> ret j = Some f -> In f (inlog (ep p' false)) /\ IsRst (fFlags f) = false).
    { intros l0 p' f E0 H. destruct (v_ret _ _ I f H) as [A B]. split; [|assumption]. eapply inlog_mono; eassumption. }
    unfold cstepQ in E. destruct l as [stream cmd fl payload|i|id cmd fl ce payload|s cmd fl payload|id cmd fl ce payload|i cmd fl payload|l| |l]; cbn [quiet] in E; try discriminate E; try (unfold cstep in E).
    - unfold serverNextID in E. destruct (2 ^ 63 <=? ridGen j + 1) eqn:EG; [discriminate|]. apply N.leb_gt in EG.
      assert (E1 : u64 (ridGen j + 1) = ridGen j + 1) by (apply N.mod_small; lia). rewrite E1 in E.
      assert (E2 : u64 (2 * (ridGen j + 1)) = 2 * (ridGen j + 1)) by (apply N.mod_small; lia). rewrite E2 in E.
      destruct (IsPush _).
      + injection E as <-. apply call_inv; auto.
      + destruct (Response.pstep false (rr j) _) as [r'|] eqn:ER; [|discriminate]. injection E as <-. apply call_inv; auto.
    - destruct (nth_error (waiting j) i) as [k|] eqn:EW; [|discriminate]. destruct (collecting j); [|discriminate]. destruct (pstep lim (pp j) _) as [p'|] eqn:EP; [|discriminate]. injection E as <-.
      assert (HK : In k (calls j)) by (apply (v_wait _ _ I); eapply nth_error_In; eassumption).
      constructor; cbn [pp rr ridGen calls waiting taken batch ret answers given]; try apply I.
      + eapply reachable_step; [apply I|exact EP].
      + eapply pair_good; [exact I|exact EP|apply incl_refl|apply incl_refl|]. intros d id cmd fl ce pay X P. injection X as <- <- <- <- <- <-. exists k. auto.
      + eauto.
      + intros x Hx. apply (v_wait _ _ I). eapply drop_in. eassumption.
      + intros k' Hk' Hs. pose proof (v_once _ _ I k' Hk' Hs) as O. pose proof (load_step lim _ _ _ PI EP (c_id k')) as L. cbn in L.
        rewrite (wcount_drop (c_id k') i _ k EW) in O. lia.
    - destruct (otherOk j id fl && collecting j) eqn:EO; [|discriminate]. apply andb_true_iff in EO. destruct EO as [EO _].
      destruct (pstep lim (pp j) _) as [p'|] eqn:EP; [|discriminate]. injection E as <-. unfold w_taken, w_pp. cbn [pp rr ridGen calls waiting taken batch ret answers given].
      unfold otherOk in EO. rewrite !orb_true_iff, existsb_exists in EO.
      eapply pair_inv; [exact I|exact EP|apply incl_refl|exact AN| | |eauto].
      + intros d i c f e p X (P1 & P2 & P3). injection X as <- <- <- <- <- <-. cbn in P1, P2, P3. destruct EO as [[[EO|EO]|EO]|(k & K1 & K2)]; try congruence; [rewrite <- N.negb_even, P3 in EO; discriminate|].
        rewrite !andb_true_iff, N.eqb_eq in K2. exists k. cbn. tauto.
      + intros k i c f e p X Hk Hs Hi. injection X as <- <- <- <- <-. destruct EO as [[[EO|EO]|EO]|(k' & K1 & K2)]; auto; exfalso.
        * destruct (v_ids _ _ I k Hk) as (n & _ & E). rewrite <- Hi, E, <- N.negb_even, odd_even in EO. discriminate.
        * rewrite !andb_true_iff, N.eqb_eq in K2. destruct K2 as [[K2 K3] _]. assert (k = k') by (eapply same_call; [apply I|assumption|assumption|]; congruence). subst k'. congruence.
    - destruct (got (heap (ep (pp j) true) s)) as [|q g] eqn:EQ; [discriminate|]. destruct (_ && _) eqn:EB; [|discriminate]. apply andb_true_iff in EB. destruct EB as [EB _]. apply andb_true_iff in EB. destruct EB as [EB1 EB2]. apply N.ltb_lt in EB1. apply negb_true_iff in EB2.
      destruct (pstep lim (pp j) _) as [p'|] eqn:EP; [|discriminate]. injection E as <-.
      destruct (got_in true _ s q (q_reach _ _ PI true) EB1 ltac:(rewrite EQ; left; reflexivity)) as (G1 & G2 & G3 & G4).
      eapply pair_inv; [exact I|exact EP|apply incl_tl; apply incl_refl| | |discriminate|eauto].
      + intros q' f [X|X]; [|apply AN; assumption]. injection X as <- <-. cbn [fRequestID]. rewrite EB2 in G3. repeat split; auto.
        destruct (q_wire _ _ PI false) as (rest & W & _). cbn [negb] in W. intro P. exact (v_good _ _ I false q ltac:(left; rewrite W; apply in_app_iff; auto) P).
      + intros d i c f e p X P. injection X as <- <- <- <- <- <-. exists q. left. reflexivity.
    - destruct (clientOk id fl) eqn:EO; [|discriminate]. destruct (pstep lim (pp j) _) as [p'|] eqn:EP; [|discriminate]. injection E as <-. unfold w_pp.
      unfold clientOk in EO. rewrite !orb_true_iff in EO.
      eapply pair_inv; [exact I|exact EP|apply incl_refl|exact AN| |discriminate|eauto].
      intros d i c f e p X (P1 & P2 & P3). injection X as <- <- <- <- <- <-. cbn in P1, P2, P3. destruct EO as [[EO|EO]|EO]; try congruence. rewrite <- N.negb_even, P3 in EO. discriminate.
    - assert (PL : forall p' , pstep lim (pp j) l = Some p' -> (forall d id cmd fl ce pay, l <> PWrite d id cmd fl ce pay) -> forall tk bt rt,
        (forall f, rt = Some f -> In f (inlog (ep p' false)) /\ IsRst (fFlags f) = false) ->
        CInv lim (mkCst p' (rr j) (ridGen j) (calls j) (waiting j) tk bt rt (answers j) (given j))).
      { intros p' EP NW tk bt rt HR. eapply pair_inv; [exact I|exact EP|apply incl_refl|exact AN| | |exact HR]; intros; exfalso; eapply NW; eassumption. }
      destruct (pair_case j l j' E) as (p' & EP & NW & HC). specialize (PL p' EP NW).
      destruct HC as [(-> & _)|[(_ & ->)|[(-> & ->)|[(-> & _ & ->)|(-> & _ & r & lb & r' & _ & HL & ES & ->)]]]].
      + apply PL. intros; eapply RT; eassumption.
      + apply PL. intros; eapply RT; eassumption.
      + apply PL. intros f Hf. destruct (bound (ep (pp j) false)) as [g|] eqn:EB; [|eapply RT; eassumption].
        injection Hf as ->. unfold pstep in EP. destruct (sstep false (ep (pp j) false) LRStep) as [st'|] eqn:ES; [|discriminate]. injection EP as <-.
        destruct (adv_ep false st' (pp j)) as [-> _]. rewrite put_eq. eapply bind_in; [apply (q_reach _ _ PI false)|exact ES|exact EB].
      + apply PL. intros; eapply RT; eassumption.
      + unfold w_taken, w_rr, w_batch, w_pp. cbn [pp rr ridGen calls waiting taken batch ret answers given].
        pose proof (PL (taken j) (batch j + (length (flight p' false) - length (flight (pp j) false)))%nat (ret j) ltac:(intros; eapply RT; eassumption)) as I1.
        eapply (resp_inv _ lb r' None (batch j + (length (flight p' false) - length (flight (pp j) false)))%nat (ret j) I1 ES); [rewrite HL; destruct (_ <? _)%nat; discriminate|rewrite HL; destruct (_ <? _)%nat; discriminate|left; reflexivity].
    - destruct (rpc (ep (pp j) false)); try discriminate. destruct (ret j) as [f|] eqn:ER; [|discriminate].
      destruct (Response.pstep false (rr j) _) as [r'|] eqn:ES; [|discriminate]. injection E as <-. apply cinv_given. unfold w_ret, w_rr. cbn [pp rr ridGen calls waiting taken batch ret answers given].
      destruct (v_ret _ _ I f ER) as [R1 R2]. destruct (IsPush (fFlags f)) eqn:EPu.
      + assert (r' = rr j).
        { unfold Response.pstep, Response.looksUp in ES. rewrite EPu, andb_false_l, andb_false_r in ES. destruct (Response.hand _); [discriminate|]. destruct (Response.rdAlive _); [|discriminate]. congruence. }
        subst r'. destruct I. constructor; auto. discriminate.
      + eapply resp_inv; [exact I|exact ES|discriminate| |auto]. intros g Hg. injection Hg as <-. repeat split; auto.
        destruct (q_wire _ _ PI true) as (rest & W & _). cbn [negb] in W. apply (v_good _ _ I). left. rewrite W. apply in_app_iff. auto.
    - destruct (resp_case j l j' E) as (r' & bt & ES & X1 & X2 & _ & ->).
      eapply resp_inv; [exact I|exact ES|exact X1| |auto]. intros f Hf. elim (X2 f true Hf).
  Qed.

  Lemma reach_call : forall j, reachable (cstepQ lim) cinit j -> CInv lim j.
  Proof. intros j R. eapply reachable_inv; [apply cinv_init|apply cinv_step|exact R]. Qed.
End J.
