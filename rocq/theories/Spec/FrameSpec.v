(** Specification of the wire format, written from doc/frame.md only, with
    arithmetic ( / and mod ) instead of shifts. *)
From Coq Require Import List NArith.
Import ListNotations.
Open Scope N_scope.

(** [k]-byte big-endian representation of [v]. *)
Fixpoint be_enc (k : nat) (v : N) : list N :=
  match k with
  | O => []
  | S k' => be_enc k' (v / 256) ++ [v mod 256]
  end.

(** Value of a big-endian byte string. *)
Definition be_val (l : list N) : N := fold_left (fun a b => a * 256 + b) l 0.

(** doc/frame.md: 4-byte length of everything after it, 8-byte stream id, 1 flag
    byte, 3-byte cmd, length-12 bytes of payload. *)
Definition doc_frame (id flags cmd : N) (payload : list N) : list N :=
  be_enc 4 (12 + N.of_nat (length payload)) ++ be_enc 8 id ++ [flags] ++ be_enc 3 cmd ++ payload.
