(** Lemmas about the websocket overlay's Read. *)
From Coq Require Import ZifyBool ZifyNat ZifyN.
From Verif Require Import Model.GoBase Model.WsConn.
Open Scope nat_scope.

(** the bytes of the binary messages *)
Definition binary (ms : list (msgType * bytes)) : bytes :=
  concat (map (fun x => match fst x with MBinary => snd x | _ => [] end) ms).
Definition ahead (c : wsconn) : bytes := wbuffer c ++ binary (msgs c).

Lemma wsLoop_spec : forall ms cl cf n, 0 < n ->
  match wsLoop ms cl cf n with
  | (c', inl bs) => binary ms = bs ++ ahead c' /\ bs <> [] /\ length bs <= n
  | (c', inr WsRead) => binary ms = [] /\ ahead c' = []
  | (c', inr WsClose) => binary ms = ahead c' /\ cf = true
  end.
Proof.
  induction ms as [|[t m] ms IH]; intros cl cf n Hn; cbn [wsLoop].
  - split; reflexivity.
  - assert (HC : match (if cf then (mkWs [] ms true cf, inr WsClose) else wsLoop ms true cf n) with
                 | (c', inl bs) => binary ms = bs ++ ahead c' /\ bs <> [] /\ length bs <= n
                 | (c', inr WsRead) => binary ms = [] /\ ahead c' = []
                 | (c', inr WsClose) => binary ms = ahead c' /\ cf = true
                 end).
    { destruct cf; [split; reflexivity|apply IH; assumption]. }
    destruct t; cbn [binary map fst snd concat app]; try exact HC.
    destruct m as [|b m].
    + apply IH. assumption.
    + unfold readBuffer. cbn [wbuffer msgs closed closeFails]. unfold ahead. cbn [wbuffer msgs].
      fold (binary ms). split.
      * rewrite app_assoc, firstn_skipn. reflexivity.
      * split; [destruct n; [lia|discriminate]|apply firstn_le_length].
Qed.

Lemma wsRead_spec : forall c n, 0 < n ->
  match wsRead c n with
  | (c', inl bs) => ahead c = bs ++ ahead c' /\ bs <> [] /\ length bs <= n
  | (c', inr WsRead) => ahead c = [] /\ ahead c' = []
  | (c', inr WsClose) => ahead c = ahead c' /\ closeFails c = true
  end.
Proof.
  intros [wb ms cl cf] n Hn. unfold wsRead. cbn [wbuffer msgs closed closeFails]. destruct wb as [|b wb].
  - apply (wsLoop_spec ms cl cf n Hn).
  - unfold readBuffer, ahead. cbn [wbuffer msgs]. split.
    + rewrite app_assoc, firstn_skipn. reflexivity.
    + split; [destruct n; [lia|discriminate]|apply firstn_le_length].
Qed.

Definition data (x : bytes + wsErr) : bytes := match x with inl b => b | inr _ => [] end.

Lemma wsReads_spec : forall ns c c' xs, Forall (fun n => 0 < n) ns -> wsReads c ns = (c', xs) ->
  ahead c = concat (map data xs) ++ ahead c' /\
  Forall2 (fun n x => match x with inl b => b <> [] /\ length b <= n | inr _ => True end) ns xs /\
  (closeFails c = false -> In (inr WsRead) xs -> concat (map data xs) = ahead c).
Proof.
  induction ns as [|n ns IH]; intros c c' xs HN H; cbn [wsReads] in H.
  - inversion H; subst. repeat split; try constructor. intros _ [].
  - inversion HN as [|? ? Hn HN']; subst.
    pose proof (wsRead_spec c n Hn) as HR.
    destruct (wsRead c n) as [c1 x] eqn:ER. destruct (wsReads c1 ns) as [c2 xs'] eqn:E2.
    inversion H; subst. destruct (IH c1 c' xs' HN' E2) as (A & B & C).
    assert (CF : closeFails c1 = closeFails c).
    { revert ER. clear. destruct c as [wb ms cl cf]. unfold wsRead. cbn [wbuffer msgs closed closeFails].
      assert (G : forall ms cl cf c1 x, wsLoop ms cl cf n = (c1, x) -> closeFails c1 = cf).
      { induction ms0 as [|[t m] ms0 IH]; intros cl0 cf0 c0 x0 H; cbn [wsLoop] in H.
        - inversion H; reflexivity.
        - destruct t; [destruct m; [eapply IH; eassumption|inversion H; reflexivity]| | | |];
            (destruct cf0; [inversion H; reflexivity|eapply IH; eassumption]). }
      destruct wb; [apply G|]. unfold readBuffer. intro H; inversion H; reflexivity. }
    destruct x as [bs|[|]]; cbn [map data concat app].
    + destruct HR as (H1 & H2 & H3). repeat split.
      * rewrite H1, A, app_assoc. reflexivity.
      * constructor; [split; assumption|assumption].
      * intros HF [X|X]; [discriminate|]. rewrite H1. f_equal. apply C; [congruence|assumption].
    + destruct HR as (H1 & H2). repeat split.
      * rewrite H1. rewrite <- A, H2. reflexivity.
      * constructor; [exact I|assumption].
      * intros HF _. rewrite H1. rewrite H2 in A. destruct (concat (map data xs')); [reflexivity|discriminate].
    + destruct HR as (H1 & H2). repeat split.
      * rewrite H1. assumption.
      * constructor; [exact I|assumption].
      * intros HF. congruence.
Qed.
