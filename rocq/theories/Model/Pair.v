(** Two endpoints of one connection: a client's and a server's stream machine (Model/Stream.v) joined by two byte streams.
    What a writer accepts (serveconn.go:669-670, clientconn.go:647-648) goes onto the wire as the bytes made by the frame
    writer (framewriter.go:50-143); the other side's readFrame (framereader.go:83-127, Model/FrameReader.v) turns the bytes
    that have arrived, in whatever pieces, into frames again.
    Simplified: a frame is on the wire when the writer has accepted it (batching only delays it, C30, C52); every frame
    is built with a clean frame writer and without compression (C05, C06); a frame fits the receiver's limit (C04);
    one readFrame is one action, possible when all bytes of the frame have arrived. *)
From Verif Require Import Model.GoBase Model.Machine Model.Qrpc Model.FrameWriter Model.Reader Model.FrameReader Model.FirstFrame Model.Stream.
Open Scope N_scope.

(** The two sides: [true] is the client (clientconn.go:47-83), [false] the server's side of the connection
    (serveconn.go:26-52). *)
Record pst := mkPst {
  ep : bool -> sst;                 (* streams, reader and writer of a side *)
  cur : bool -> Cmd * bytes;        (* cmd and payload of the write request in progress (framewriter.go:16-23) *)
  sent : bool -> list Frame;        (* ghost: frames a side put on the wire, oldest first *)
  flight : bool -> bytes;           (* bytes a side wrote that have not arrived *)
  rx : bool -> rdr;                 (* a side's Reader (reader.go:13-19) *)
}.

(** function update at a side (no counterpart in /repo) *)
Definition put {A} (f : bool -> A) (c : bool) (v : A) : bool -> A := fun x => if Bool.eqb x c then v else f x.

(** framewriter.go:50-55, 96-143: the bytes of a frame built with StartWrite, WriteBytes and EndWrite *)
Definition encode (id : N) (cmd : Cmd) (fl : FrameFlag) (payload : bytes) : bytes :=
  match snd (writeFirstFrame None fresh id cmd fl payload) with EwSent w => w | _ => [] end.

(** The actions of both sides and of the network (the code is that of Model/Stream.v, Model/FrameWriter.v, Model/Reader.v). *)
Inductive plabel :=
| PLoc (c : bool) (l : slabel)      (* an action of side c other than reading a frame and taking a write request *)
| PWrite (c : bool) (id : N) (cmd : Cmd) (fl : FrameFlag) (ce : bool) (payload : bytes)
                                    (* side c takes a write request (serveconn.go:633, clientconn.go:610, 666) *)
| PArrive (c : bool) (n : nat)      (* n bytes reach side c in one piece *)
| PRead (c : bool).                 (* side c's readFrame returns a frame (framereader.go:42) *)

(** Go values (uint64, uint8), no compression; the payload fits the frame format and the receiver's limit
    (framereader.go:98) *)
Definition fits (mfs : Z) (id : N) (fl : FrameFlag) (payload : bytes) : bool :=
  (id <? 2 ^ 64) && (fl <? 256) && negb (IsCodec fl) && (N.of_nat (length payload) <? 2 ^ 32 - 12) &&
  negb (tooLarge mfs (12 + N.of_nat (length payload))).

(** the frame that was accepted in the step from [st] to [st'], if any *)
Definition accepted (st st' : sst) : option (N * FrameFlag) :=
  match skipn (length (wlog st)) (wlog st') with
  | (id, fl, WSent _) :: _ => Some (id, fl)
  | _ => None
  end.

(** side c goes on to [st']; an accepted frame goes onto the wire *)
Definition advance (c : bool) (st' : sst) (p : pst) : pst :=
  match accepted (ep p c) st' with
  | Some (id, fl) =>
    let '(cmd, payload) := cur p c in
    mkPst (put (ep p) c st') (cur p) (put (sent p) c (sent p c ++ [mkFrame id fl (N.land cmd 0xffffff) payload]))
      (put (flight p) c (flight p c ++ encode id cmd fl payload)) (rx p)
  | None => mkPst (put (ep p) c st') (cur p) (sent p) (flight p) (rx p)
  end.

(** One action.  [lim c] is side c's maximal frame size (Model/FrameReader.v). *)
Definition pstep (lim : bool -> Z) (p : pst) (l : plabel) : option pst :=
  match l with
  | PLoc c l =>
    match l with
    | LFrame _ | LWrite _ _ _ => None
    | LWriteRst =>                  (* serveconn.go:268-270: StartWrite(frame.RequestID, 0, StreamRstFlag) *)
      match sstep c (ep p c) LWriteRst with
      | Some st' => Some (mkPst (put (ep p) c st') (put (cur p) c (0, [])) (sent p) (flight p) (rx p))
      | None => None
      end
    | _ =>
      match sstep c (ep p c) l with
      | Some st' => Some (advance c st' p)
      | None => None
      end
    end
  | PWrite c id cmd fl ce payload =>
    if fits (lim (negb c)) id fl payload then
      match sstep c (ep p c) (LWrite id fl ce) with
      | Some st' => Some (mkPst (put (ep p) c st') (put (cur p) c (cmd, payload)) (sent p) (flight p) (rx p))
      | None => None
      end
    else None
  | PArrive c n =>
    let r := rx p c in let b := flight p (negb c) in
    Some (mkPst (ep p) (cur p) (sent p) (put (flight p) (negb c) (skipn n b))
      (put (rx p) c (mkRdr (rbuf r) (mkNet (chunks (conn r) ++ [firstn n b]) (final (conn r))) (timeout r))))
  | PRead c =>
    match readFrame None (lim c) (rx p c) false with
    | (r', inl f) =>
      match sstep c (ep p c) (LFrame f) with
      | Some st' => Some (mkPst (put (ep p) c st') (cur p) (sent p) (flight p) (put (rx p) c r'))
      | None => None
      end
    | (_, inr _) => None            (* not all bytes are there *)
    end
  end.

(** a connection just made *)
Definition pinit : pst :=
  mkPst (fun _ => sinit) (fun _ => (0, [])) (fun _ => []) (fun _ => []) (fun _ => mkRdr [] (mkNet [] REOF) 0).
