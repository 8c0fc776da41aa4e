(** Generic scaffolding for the concurrent models: a machine is a partial step function
    [state -> label -> option state]; one label is one atomic action of one goroutine (or of the
    environment); a label that is not enabled gives [None]; a schedule is a list of labels.
    This models Go's interleaving semantics of atomic operations, not /repo itself. *)
From Verif Require Import Model.GoBase.

Section Machine.
  Context {S L : Type} (step : S -> L -> option S).

  Fixpoint run (s : S) (ls : list L) : option S :=
    match ls with
    | [] => Some s
    | l :: ls => match step s l with Some s' => run s' ls | None => None end
    end.

  (** all states passed through, oldest first *)
  Fixpoint trace (s : S) (ls : list L) : list S :=
    match ls with
    | [] => [s]
    | l :: ls => s :: match step s l with Some s' => trace s' ls | None => [] end
    end.

  Definition reachable (init s : S) : Prop := exists ls, run init ls = Some s.

  Lemma run_app : forall ls ls' s, run s (ls ++ ls') = match run s ls with Some s' => run s' ls' | None => None end.
  Proof. induction ls as [|l ls IH]; intros ls' s; [reflexivity|]. cbn. destruct (step s l); [apply IH|reflexivity]. Qed.

  Lemma run_inv : forall (Inv : S -> Prop), (forall s l s', Inv s -> step s l = Some s' -> Inv s') ->
    forall ls s s', Inv s -> run s ls = Some s' -> Inv s'.
  Proof.
    intros Inv Hstep. induction ls as [|l ls IH]; intros s s' Hi Hr; cbn in Hr.
    - inversion Hr; subst. assumption.
    - destruct (step s l) eqn:E; [|discriminate]. eapply IH; [eapply Hstep; eassumption|eassumption].
  Qed.

  Lemma reachable_inv : forall (Inv : S -> Prop) init, Inv init ->
    (forall s l s', Inv s -> step s l = Some s' -> Inv s') ->
    forall s, reachable init s -> Inv s.
  Proof. intros Inv init Hi Hs s [ls Hr]. eapply run_inv; eassumption. Qed.

  Lemma reachable_step : forall init s l s', reachable init s -> step s l = Some s' -> reachable init s'.
  Proof.
    intros init s l s' [ls Hr] Hs. exists (ls ++ [l]). rewrite run_app, Hr. cbn. rewrite Hs. reflexivity.
  Qed.
End Machine.

(** function update, used for Go maps, per-goroutine program counters and heaps *)
Definition upd {A} (f : N -> A) (k : N) (v : A) : N -> A := fun x => if N.eqb x k then v else f x.

Lemma upd_eq : forall A (f : N -> A) k v, upd f k v k = v.
Proof. intros. unfold upd. rewrite N.eqb_refl. reflexivity. Qed.
Lemma upd_neq : forall A (f : N -> A) k v x, x <> k -> upd f k v x = f x.
Proof. intros. unfold upd. destruct (N.eqb_spec x k); [contradiction|reflexivity]. Qed.
