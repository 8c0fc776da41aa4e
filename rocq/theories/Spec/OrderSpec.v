(** Subsequences: [subseq a b] says that a is b with some elements left out, the order kept. *)
From Verif Require Import Model.GoBase.

Inductive subseq {A : Type} : list A -> list A -> Prop :=
| sub_nil : forall b, subseq [] b
| sub_take : forall x a b, subseq a b -> subseq (x :: a) (x :: b)
| sub_skip : forall x a b, subseq a b -> subseq a (x :: b).

Lemma subseq_refl : forall A (a : list A), subseq a a.
Proof. induction a; constructor; assumption. Qed.

Lemma subseq_trans : forall A (b c : list A), subseq b c -> forall a, subseq a b -> subseq a c.
Proof.
  induction 1 as [c|x b c H IH|x b c H IH]; intros a HA.
  - inversion HA; subst. constructor.
  - inversion HA; subst; [constructor|constructor; auto|]. constructor. auto.
  - constructor. auto.
Qed.

Lemma subseq_app : forall A (a b : list A), subseq a b -> forall a' b', subseq a' b' -> subseq (a ++ a') (b ++ b').
Proof.
  induction 1 as [b|x a b H IH|x a b H IH]; intros a' b' HA; cbn.
  - induction b; cbn; [assumption|constructor; assumption].
  - constructor. auto.
  - constructor. auto.
Qed.

Lemma subseq_in : forall A (a b : list A), subseq a b -> forall x, In x a -> In x b.
Proof. induction 1; intros y HI; [contradiction| |right; auto]. destruct HI as [->|HI]; [left; reflexivity|right; auto]. Qed.

Lemma subseq_nodup : forall A (a b : list A), subseq a b -> NoDup b -> NoDup a.
Proof.
  induction 1 as [b|x a b H IH|x a b H IH]; intros ND; [constructor| |]; inversion ND; subst.
  - constructor; [|auto]. intros HI. eapply subseq_in in HI; eauto.
  - auto.
Qed.

Lemma subseq_firstn : forall A n (a : list A), subseq (firstn n a) a.
Proof. induction n; intros [|x a]; cbn; constructor; auto. Qed.

Lemma subseq_drop_mid : forall A (a k q : list A), subseq (a ++ q) (a ++ k ++ q).
Proof. intros. apply subseq_app; [apply subseq_refl|]. change q with ([] ++ q) at 1. apply subseq_app; [constructor|apply subseq_refl]. Qed.
