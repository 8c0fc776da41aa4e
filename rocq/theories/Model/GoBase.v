(** Go primitives used by the models: fixed width unsigned integers, bytes,
    in-place writes to a slice and encoding/binary's big-endian accessors.
    These model the Go language / standard library, not /repo itself. *)
From Coq Require Export List NArith ZArith Lia Bool.
Export ListNotations.
Open Scope N_scope.

(** A byte is an [N]; [isbyte] says it fits in 8 bits. *)
Definition isbyte (b : N) : Prop := b < 256.
(** Go []byte (its contents). *)
Definition bytes := list N.

(** Go conversions byte(x), uint32(x), uint64(x) on unsigned values. *)
Definition u8  (x : N) : N := x mod 256.
(** uint32(x). *)
Definition u32 (x : N) : N := x mod 4294967296.
(** uint64(x). *)
Definition u64 (x : N) : N := x mod 18446744073709551616.

(** Length of a byte slice as an [N]. *)
Definition blen (l : bytes) : N := N.of_nat (length l).

(** [put_at off bs l] : the slice [l] after writing [bs] in place at offset [off];
    models [copy(l[off:], bs)], [append(l[:off], bs...)] when the capacity
    suffices (so the array is shared), and binary.BigEndian.PutUintNN(l[off:], v). *)
Definition put_at (off : nat) (bs l : bytes) : bytes :=
  firstn off l ++ bs ++ skipn (off + length bs) l.

(** encoding/binary BigEndian.PutUint32 / PutUint64: the bytes written. *)
Definition be32 (v : N) : bytes :=
  [u8 (N.shiftr v 24); u8 (N.shiftr v 16); u8 (N.shiftr v 8); u8 v].
(** encoding/binary BigEndian.PutUint64. *)
Definition be64 (v : N) : bytes :=
  [u8 (N.shiftr v 56); u8 (N.shiftr v 48); u8 (N.shiftr v 40); u8 (N.shiftr v 32);
   u8 (N.shiftr v 24); u8 (N.shiftr v 16); u8 (N.shiftr v 8); u8 v].

(** encoding/binary BigEndian.Uint32 / Uint64 reading at offset [off]. *)
Definition getb (l : bytes) (i : nat) : N := nth i l 0.
(** encoding/binary BigEndian.Uint32. *)
Definition rd32 (l : bytes) (off : nat) : N :=
  N.lor (N.lor (N.lor (getb l (off+3)) (N.shiftl (getb l (off+2)) 8))
               (N.shiftl (getb l (off+1)) 16)) (N.shiftl (getb l off) 24).
(** encoding/binary BigEndian.Uint64. *)
Definition rd64 (l : bytes) (off : nat) : N :=
  N.lor (N.shiftl (rd32 l off) 32) (rd32 l (off+4)).
