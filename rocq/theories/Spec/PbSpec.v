(** Protocol Buffers wire format of the message
      message RpcRequest { string NS = 1; string method = 2; bytes params = 3; }
    written from the protobuf encoding documentation: base-128 varints, little end first, high bit set
    on all but the last byte; a non-empty length-delimited field k is (8k+2) length bytes. *)
From Verif Require Import Model.GoBase.
Open Scope N_scope.

Fixpoint base128 (n : nat) (v : N) : bytes :=
  match n with
  | O => []
  | S n => if v <? 128 then [v] else (v mod 128 + 128) :: base128 n (v / 128)
  end.
(** ten groups cover every 64-bit value *)
Definition pb_varint (v : N) : bytes := base128 10 v.

Definition pb_field (k : N) (f : bytes) : bytes :=
  match f with [] => [] | _ => pb_varint (8 * k + 2) ++ pb_varint (blen f) ++ f end.
Definition pb_message (ns method params : bytes) : bytes :=
  pb_field 1 ns ++ pb_field 2 method ++ pb_field 3 params.
