(** Model of codegen/pb/rpc.pb.go: Marshal, MarshalTo, Size, Unmarshal, skipRpc of RpcRequest.

    Simplifications: Go's [int] is 64 bits wide; strings are byte lists; nil and empty slices are
    not distinguished (NS, Method, Params, XXX_unrecognized are byte lists, empty = absent);
    XXX_sizecache is not used by these functions; the goroutine stack is unbounded (skipRpc is
    recursive).  An index or slice expression out of range is the outcome [Panic]. *)
From Verif Require Import Model.GoBase.
Open Scope N_scope.

(** codegen/pb/rpc.pb.go:23-30 *)
Record RpcRequest := mkReq { NS : bytes; Method : bytes; Params : bytes; Unrecognized : bytes }.

(** codegen/pb/rpc.pb.go:411-414 and the io / fmt errors used by Unmarshal. *)
Inductive pbErr := ErrInvalidLength | ErrIntOverflow | ErrUnexpectedEOF | ErrFormat.

(** Result of a Go function with an error result; [NoFuel] is only a bookkeeping value of the model's
    loops (proved unreachable, Proofs/PbP.v). *)
Inductive res (A : Type) := Ok (a : A) | Err (e : pbErr) | Panic | NoFuel.
Arguments Ok {A}. Arguments Err {A}. Arguments Panic {A}. Arguments NoFuel {A}.

(** Conversion to / wrap-around of the signed 64-bit type int. *)
Definition i64 (z : Z) : Z := ((z + 2^63) mod 2^64 - 2^63)%Z.

(** len(dAtA), a Go int. *)
Definition zlen (d : bytes) : Z := Z.of_nat (length d).

(** dAtA[i] as an expression. *)
Definition fetch (d : bytes) (i : Z) : option N :=
  if ((0 <=? i) && (i <? zlen d))%Z%bool then Some (getb d (Z.to_nat i)) else None.

(** dAtA[i] = b. *)
Definition store (d : bytes) (i : nat) (b : N) : option bytes :=
  if (i <? length d)%nat then Some (put_at i [b] d) else None.

(** dAtA[i:j] for j at most len(dAtA). *)
Definition slice (d : bytes) (i j : Z) : option bytes :=
  if ((0 <=? i) && (i <=? j) && (j <=? zlen d))%Z%bool
  then Some (firstn (Z.to_nat (j - i)) (skipn (Z.to_nat i) d)) else None.

(** [copy(dAtA[i:], s)]: new array and number of bytes copied. *)
Definition copyAt (d : bytes) (i : nat) (s : bytes) : option (bytes * nat) :=
  if (i <=? length d)%nat then
    let s' := firstn (length d - i) s in Some (put_at i s' d, length s')
  else None.

(** codegen/pb/rpc.pb.go:128-136 encodeVarintRpc.  [fuel] bounds the loop: a uint64 takes at most
    10 rounds. *)
Fixpoint encodeVarint (fuel : nat) (d : bytes) (offset : nat) (v : N) : option (bytes * nat) :=
  match fuel with
  | O => None
  | S f =>
    if 128 <=? v then
      match store d offset (u8 (N.lor (N.land v 127) 128)) with
      | Some d => encodeVarint f d (S offset) (N.shiftr v 7)
      | None => None
      end
    else match store d offset (u8 v) with Some d => Some (d, S offset) | None => None end
  end.

(** codegen/pb/rpc.pb.go:158-167 sovRpc. *)
Fixpoint sov (fuel : nat) (x : N) : nat :=
  match fuel with
  | O => 0%nat
  | S f => let x := N.shiftr x 7 in if x =? 0 then 1%nat else S (sov f x)
  end.

(** codegen/pb/rpc.pb.go:137-157 Size. *)
Definition Size (m : RpcRequest) : nat :=
  (let part (f : bytes) := match f with [] => 0 | _ => 1 + length f + sov 10 (u64 (blen f)) end in
   part (NS m) + part (Method m) + part (Params m) + length (Unrecognized m))%nat.

(** codegen/pb/rpc.pb.go:104-109, 110-115, 116-121: one field of MarshalTo. *)
Definition marshalField (tag : N) (f : bytes) (di : bytes * nat) : option (bytes * nat) :=
  match f with
  | [] => Some di
  | _ =>
    let '(d, i) := di in
    match store d i tag with
    | Some d =>
      match encodeVarint 10 d (S i) (u64 (blen f)) with
      | Some (d, i) =>
        match copyAt d i f with Some (d, n) => Some (d, (i + n)%nat) | None => None end
      | None => None
      end
    | None => None
    end
  end.

(** codegen/pb/rpc.pb.go:99-126 MarshalTo. [None]: index out of range panic. *)
Definition MarshalTo (m : RpcRequest) (d : bytes) : option (bytes * nat) :=
  match marshalField 0xa (NS m) (d, O) with
  | Some di =>
    match marshalField 0x12 (Method m) di with
    | Some di =>
      match marshalField 0x1a (Params m) di with
      | Some (d, i) =>
        match copyAt d i (Unrecognized m) with Some (d, n) => Some (d, (i + n)%nat) | None => None end
      | None => None
      end
    | None => None
    end
  | None => None
  end.

(** codegen/pb/rpc.pb.go:89-97 Marshal (its error result is always nil). *)
Definition Marshal (m : RpcRequest) : option bytes :=
  match MarshalTo m (repeat 0 (Size m)) with
  | Some (d, n) => Some (firstn n d)
  | None => None
  end.

(** The varint loops, e.g. codegen/pb/rpc.pb.go:177-190, 205-218, 234-247, 263-276, 316-329,
    351-364, 374-387: returns the 64 accumulated bits and the new index.  [n] rounds are left before
    [shift >= 64]; called with [n] = 10 and [shift] = 0. *)
Fixpoint varint (n : nat) (d : bytes) (i : Z) (shift acc : N) : res (N * Z) :=
  match n with
  | O => Err ErrIntOverflow
  | S n =>
    if (zlen d <=? i)%Z then Err ErrUnexpectedEOF
    else match fetch d i with
         | None => Panic
         | Some b =>
           let acc := N.lor acc (u64 (N.shiftl (N.land b 127) shift)) in
           if b <? 128 then Ok (acc, (i + 1)%Z) else varint n d (i + 1)%Z (shift + 7) acc
         end
  end.

(** int(x) / an int accumulated bit by bit, for 64 bits [x]. *)
Definition int_of (x : N) : Z := i64 (Z.of_N x).

(** codegen/pb/rpc.pb.go:333-344: the varint of case 0 in skipRpc; same reads, value dropped. *)
Definition skipVarint (d : bytes) (i : Z) : res Z :=
  match varint 10 d i 0 0 with Ok (_, i) => Ok i | Err e => Err e | Panic => Panic | NoFuel => NoFuel end.

(** codegen/pb/rpc.pb.go:311-409 skipRpc.  [fuel] bounds the recursion, the inner [fix] is the
    loop of case 3 (lines 371-397). *)
Fixpoint skipRpc (fuel : nat) (d : bytes) : res Z :=
  match fuel with
  | O => NoFuel
  | S fuel' =>
    match d with
    | [] => Panic                                   (* panic("unreachable"), line 408 *)
    | _ =>
      match varint 10 d 0 0 0 with
      | Ok (wire, i) =>
        match N.land wire 7 with
        | 0 => skipVarint d i
        | 1 => Ok (i + 8)%Z
        | 2 => match varint 10 d i 0 0 with
               | Ok (len, i) =>
                 if (int_of len <? 0)%Z then Err ErrInvalidLength else Ok (i64 (i + int_of len))
               | Err e => Err e | Panic => Panic | NoFuel => NoFuel
               end
        | 3 =>
          (fix group (k : nat) (i : Z) : res Z :=
             match k with
             | O => NoFuel
             | S k =>
               match varint 10 d i 0 0 with
               | Ok (inner, i') =>
                 if N.land inner 7 =? 4 then Ok i'
                 else match slice d i (zlen d) with
                      | None => Panic
                      | Some d' =>
                        match skipRpc fuel' d' with
                        | Ok next => group k (i64 (i + next))
                        | Err e => Err e | Panic => Panic | NoFuel => NoFuel
                        end
                      end
               | Err e => Err e | Panic => Panic | NoFuel => NoFuel
               end
             end) (S (length d)) i
        | 4 => Ok i
        | 5 => Ok (i + 4)%Z
        | _ => Err ErrFormat
        end
      | Err e => Err e | Panic => Panic | NoFuel => NoFuel
      end
    end
  end.

(** codegen/pb/rpc.pb.go:205-228 / 234-257 / 263-288: length-delimited field: its bytes and the new
    index. *)
Definition lenField (d : bytes) (i : Z) : res (bytes * Z) :=
  match varint 10 d i 0 0 with
  | Ok (len, i) =>
    if (int_of len <? 0)%Z then Err ErrInvalidLength
    else
      let post := i64 (i + int_of len) in
      if (zlen d <? post)%Z then Err ErrUnexpectedEOF
      else match slice d i post with Some b => Ok (b, post) | None => Panic end
  | Err e => Err e | Panic => Panic | NoFuel => NoFuel
  end.

(** codegen/pb/rpc.pb.go:191: int32(wire >> 3). *)
Definition fieldNum (wire : N) : Z :=
  ((Z.of_N (u32 (N.shiftr wire 3)) + 2^31) mod 2^32 - 2^31)%Z.

(** codegen/pb/rpc.pb.go:171-310 Unmarshal.  [fuel] bounds the loop. *)
Fixpoint unmarshalLoop (fuel : nat) (d : bytes) (i : Z) (m : RpcRequest) : res RpcRequest :=
  match fuel with
  | O => NoFuel
  | S fuel =>
    if (zlen d <=? i)%Z then (if (zlen d <? i)%Z then Err ErrUnexpectedEOF else Ok m)
    else
      match varint 10 d i 0 0 with
      | Ok (wire, i') =>
        let wt := N.land wire 7 in
        let fn := fieldNum wire in
        if wt =? 4 then Err ErrFormat
        else if (fn <=? 0)%Z then Err ErrFormat
        else if ((fn =? 1) || (fn =? 2) || (fn =? 3))%Z%bool then
          if negb (wt =? 2) then Err ErrFormat
          else match lenField d i' with
               | Ok (b, post) =>
                 unmarshalLoop fuel d post
                   (if (fn =? 1)%Z then mkReq b (Method m) (Params m) (Unrecognized m)
                    else if (fn =? 2)%Z then mkReq (NS m) b (Params m) (Unrecognized m)
                    else mkReq (NS m) (Method m) b (Unrecognized m))
               | Err e => Err e | Panic => Panic | NoFuel => NoFuel
               end
        else
          match slice d i (zlen d) with
          | None => Panic
          | Some rest =>
            match skipRpc (S (length rest)) rest with
            | Ok skippy =>
              if (skippy <? 0)%Z then Err ErrInvalidLength
              else
                let post := i64 (i + skippy) in
                if (zlen d <? post)%Z then Err ErrUnexpectedEOF
                else match slice d i post with
                     | Some b => unmarshalLoop fuel d post (mkReq (NS m) (Method m) (Params m) (Unrecognized m ++ b))
                     | None => Panic
                     end
            | Err e => Err e | Panic => Panic | NoFuel => NoFuel
            end
          end
      | Err e => Err e | Panic => Panic | NoFuel => NoFuel
      end
  end.

(** the zero RpcRequest: codegen/pb/rpc.pb.go:23-30. *)
Definition emptyReq : RpcRequest := mkReq [] [] [] [].
(** Unmarshal into a fresh RpcRequest (as codegen/service_handler.go:34-35 does). *)
Definition Unmarshal (d : bytes) : res RpcRequest := unmarshalLoop (S (length d)) d 0 emptyReq.
