(** Model of /repo/reader.go and of the parts of bufio / io it uses, over an
    adversarial connection. *)
From Verif Require Import Model.GoBase.
Open Scope nat_scope.

(** Read errors.  [RIoErr] stands for any error of the connection (timeout,
    reset...), chosen by the adversary. *)
Inductive rerr := REOF | RUnexpectedEOF | RIoErr (n : N) | RCtxErr.

(** The network as seen by the reader: the chunks the transport will return, one
    per underlying Read call (a chunk longer than the read buffer is returned
    piecewise), then a final error (EOF for an orderly close). *)
Record net := mkNet { chunks : list bytes; final : rerr }.

(** net.Conn.Read(b) with len(b) = n > 0: at most n bytes of the first chunk.
    An empty chunk models a Read returning (0, nil). *)
Definition connRead (c : net) (n : nat) : net * (bytes + rerr) :=
  match chunks c with
  | [] => (c, inr (final c))
  | ch :: rest =>
    if Nat.leb (length ch) n then (mkNet rest (final c), inl ch)
    else (mkNet (skipn n ch :: rest) (final c), inl (firstn n ch))
  end.

(** bufio.Reader of size ReadBufSize (reader.go:24-25, 33-46): buffered bytes and the connection. *)
Definition ReadBufSize : nat := 1024.
(** reader.go:13-19 Reader: the buffered reader, the connection, timeout. *)
Record rdr := mkRdr { rbuf : bytes; conn : net; timeout : Z }.

(** Observations: the bytes that will still be delivered to the reader, in order,
    and the error that follows them. *)
Definition pend (r : rdr) : bytes := rbuf r ++ concat (chunks (conn r)).
(** the error that comes when the bytes are used up (an observation). *)
Definition fin (r : rdr) : rerr := final (conn r).

(** bufio's Reader.Read(p), len(p) = n > 0 (Go 1.1x):
    a non-empty buffer is served first; otherwise a large read bypasses the
    buffer and a small one fills it once. *)
Definition bufioRead (r : rdr) (n : nat) : rdr * (bytes + rerr) :=
  match rbuf r with
  | _ :: _ => (mkRdr (skipn n (rbuf r)) (conn r) (timeout r), inl (firstn n (rbuf r)))
  | [] =>
    if Nat.leb ReadBufSize n then
      let '(c, x) := connRead (conn r) n in (mkRdr [] c (timeout r), x)
    else
      let '(c, x) := connRead (conn r) ReadBufSize in
      match x with
      | inl bs => (mkRdr (skipn n bs) c (timeout r), inl (firstn n bs))
      | inr e => (mkRdr [] c (timeout r), inr e)
      end
  end.

(** io.ReadFull(r, p): reads until [n] bytes, [acc] are the bytes already in p.
    [fuel] bounds the number of Read calls; each call consumes a buffered byte or
    a chunk, see Proofs/Reader for the bound that never runs out. *)
Fixpoint readFull (fuel : nat) (r : rdr) (n : nat) (acc : bytes) : rdr * bytes * option rerr :=
  match n with
  | O => (r, acc, None)
  | _ =>
    match fuel with
    | O => (r, acc, Some (RIoErr 0)) (* fuel exhausted: excluded by readFull_fuel *)
    | S fuel' =>
      let '(r', x) := bufioRead r n in
      match x with
      | inl bs => readFull fuel' r' (n - length bs) (acc ++ bs)
      | inr REOF => (r', acc, Some (match acc with [] => REOF | _ => RUnexpectedEOF end))
      | inr e => (r', acc, Some e)
      end
    end
  end.

(** Enough fuel for any read: one per buffered byte / chunk / chunk byte. *)
Definition rfuel (r : rdr) : nat :=
  length (rbuf r) + length (concat (chunks (conn r))) + length (chunks (conn r)) + 1.

(** reader.go:83-92  the deadline of a read, in seconds from now; [None] = no deadline *)
Definition effTimeout (configured maxTimeoutSecond : Z) : option Z :=
  let timeout := if (Z.ltb 0 maxTimeoutSecond && Z.ltb maxTimeoutSecond configured)%bool
                 then maxTimeoutSecond else configured in
  if Z.ltb 0 timeout then Some timeout else None.

(** reader.go:77-113  ReadBytesWithMaxTimeout(bytes, _) with len(bytes) = size.
    The deadline only decides when the adversary's [final]/chunk errors occur, so
    it is not threaded through; the loop re-enters only if ReadFull returned nil
    with fewer bytes than requested. [ctxDone] is polled between iterations. *)
Fixpoint readLoop (iters : nat) (r : rdr) (size offset : nat) (got : bytes) (ctxDone : bool)
  : rdr * (bytes + rerr) :=
  match iters with
  | O => (r, inr (RIoErr 0)) (* excluded by readLoop_once *)
  | S iters' =>
    let '(r', bs, e) := readFull (rfuel r) r (size - offset) [] in
    let offset' := offset + length bs in
    match e with
    | Some err => (r', inr err)
    | None => if Nat.leb size offset' then (r', inl (got ++ bs))
              else if ctxDone then (r', inr RCtxErr)
              else readLoop iters' r' size offset' (got ++ bs) ctxDone
    end
  end.

(** reader.go:71-74: maxTimeout 0, as described above. *)
Definition ReadBytes (r : rdr) (size : nat) (ctxDone : bool) : rdr * (bytes + rerr) :=
  readLoop 2 r size 0 [] ctxDone.

(** reader.go:60-69  ReadUint32 *)
Definition ReadUint32 (r : rdr) (ctxDone : bool) : rdr * (N + rerr) :=
  match ReadBytes r 4 ctxDone with
  | (r', inl b) => (r', inl (rd32 b 0))
  | (r', inr e) => (r', inr e)
  end.

(** reader.go:55-58  SetReadTimeout *)
Definition SetReadTimeout (r : rdr) (t : Z) : rdr := mkRdr (rbuf r) (conn r) t.
