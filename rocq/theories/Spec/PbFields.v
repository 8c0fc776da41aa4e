(** Protocol Buffers fields in general, from the protobuf encoding documentation: a field is a tag (number and wire type) and a
    value; wire type 0 is a varint, 1 eight bytes, 2 a length and that many bytes, 3 a group closed by a tag with wire
    type 4, 5 four bytes. *)
From Verif Require Import Model.GoBase Spec.PbSpec.
Open Scope N_scope.

Inductive wfield :=
| WVar (k v : N) | W64 (k : N) (b : bytes) | WBytes (k : N) (b : bytes) | WGroup (k : N) (fs : list wfield) | W32 (k : N) (b : bytes).

Definition tag (k wt : N) : bytes := pb_varint (8 * k + wt).

Fixpoint enc (f : wfield) : bytes :=
  match f with
  | WVar k v => tag k 0 ++ pb_varint v
  | W64 k b => tag k 1 ++ b
  | WBytes k b => tag k 2 ++ pb_varint (blen b) ++ b
  | WGroup k fs => tag k 3 ++ flat_map enc fs ++ tag k 4
  | W32 k b => tag k 5 ++ b
  end.

Definition number (f : wfield) : N :=
  match f with WVar k _ | W64 k _ | WBytes k _ | WGroup k _ | W32 k _ => k end.

(** Field numbers go from 1 to 2^29 - 1. *)
Fixpoint wellFormed (f : wfield) : Prop :=
  (1 <= number f < 2 ^ 29) /\
  match f with
  | WVar _ v => v < 2 ^ 64
  | W64 _ b => length b = 8%nat
  | W32 _ b => length b = 4%nat
  | WBytes _ _ => True
  | WGroup _ fs => (fix all (l : list wfield) : Prop := match l with [] => True | f :: l => wellFormed f /\ all l end) fs
  end.

(** What a sequence of fields means for RpcRequest: its fields are 1, 2 and 3 and have wire type 2; of several the last counts;
    all other fields are kept, in order. *)
Definition known (f : wfield) : bool := match f with WBytes k _ => (1 <=? k) && (k <=? 3) | _ => false end.
Definition rightType (f : wfield) : Prop := 1 <= number f <= 3 -> known f = true.
Definition lastOf (k : N) (fs : list wfield) : bytes :=
  fold_left (fun v f => match f with WBytes k' b => if k' =? k then b else v | _ => v end) fs [].
Definition unknown (fs : list wfield) : bytes := flat_map enc (filter (fun f => negb (known f)) fs).
