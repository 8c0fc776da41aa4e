(** Model of the buffers of frames waiting to be written, across all connections of a process: the pool of frame writers
    (framewriter.go:33-48), EndWrite's hand-over (framewriter.go:130-142), the queue of a connection and the batch taken from it
    (serveconn.go:452-541, 575-606, 622-680; clientconn.go:380-418, 595-701, 744-772), and EndWrite returning early because the
    connection's context is done (serveconn.go:463-464, 483-484, 536-537; clientconn.go:393-394, 413-414).

    A frame writer's buffer is a slice: a backing array and a length.  A batch holds the slice as it was when the frame was
    taken from the queue (GetWbuf, serveconn.go:667, clientconn.go:639, 684), and its bytes are read when they are written.
    Connections, writers, calls of EndWrite and arrays are numbers.

    Simplified: writing a frame of a batch is one step; a batch may be of any size; who writes a batch, responses and
    the stream logic (which may refuse any frame) are in Model/WriteCombine.v, ClientWrite.v and Stream.v; the write
    requests themselves are pooled only after their result was received (serveconn.go:475, 529, 534) and are left out.
    A call refused at once because there is no link (clientconn.go:388-390) leaves nothing behind and is left out too.
    Codec and length field are part of the built bytes (Model/FrameWriter.v). *)
From Verif Require Import Model.GoBase Model.Machine.
Open Scope N_scope.

(** Where a call of EndWrite is (serveconn.go:452-541, clientconn.go:380-418): not yet in the queue; queued; taken into a batch;
    its result is there; it has returned. *)
Inductive phase := Started | Queued | Collected | Resolved | Returned.

(** One call: connection and writer, the bytes built when it was made (for the properties only), phase, result once there is
    one ([true] = nil), and whether it returned because the context was done. *)
Record call := mkCall { cconn : N; cw : N; built : bytes; ph : phase; res : option bool; gaveUp : bool }.

(** The state: per writer the connection it is bound to (None: in the pool, framewriter.go:33-48), its slice (array and
    length, framewriter.go:20), the call of EndWrite running on it; the arrays and how many were allocated by growing; the
    calls; per connection whether its context is done, its queue, the batch being written, and what was written, with the
    call it was written for. *)
Record bst := mkB {
  owner : N -> option N;
  slice : N -> N * N;
  cur : N -> option N;
  arr : N -> bytes;
  grown : N;
  calls : N -> option call;
  done : N -> bool;
  queue : N -> list N;
  batch : N -> list (N * (N * N));
  wire : N -> list (N * bytes)
}.

(** framewriter.go:33-35: every writer has an array of its own; arrays of writers not yet made are empty here. *)
Definition binit : bst :=
  mkB (fun _ => None) (fun w => (2 * w, 0)) (fun _ => None) (fun _ => []) 0 (fun _ => None) (fun _ => false)
    (fun _ => []) (fun _ => []) (fun _ => []).

(** What a slice shows (language). *)
Definition show (s : bst) (sl : N * N) : bytes := firstn (N.to_nat (snd sl)) (arr s (fst sl)).

(** The start of an array overwritten (language: append within the capacity, or PutUint64 into the slice). *)
Definition overwrite (new old : bytes) : bytes := new ++ skipn (length new) old.

(** One label per action:
    - [BGet w c]: newFrameWriter binds a pooled writer to a connection (framewriter.go:38-43)
    - [BBuild w f grow]: the holder fills the buffer with header and payload [f] (framewriter.go:51-55, 165-185); append
      grows into a new array when the capacity is used up, after the first [n] bytes went into the old one ([grow = Some n])
    - [BPut w]: Finalize (framewriter.go:45-49)
    - [BCall k w]: the holder calls EndWrite (framewriter.go:130-139)
    - [BQueue k]: the send to writeFrameCh (serveconn.go:461, clientconn.go:392)
    - [BGiveUp k]: the context is done and EndWrite returns its error
    - [BTake c]: the first queued request is taken into the batch (serveconn.go:633-667, clientconn.go:600-639)
    - [BRefuse c]: the first queued request is refused (serveconn.go:641-662, clientconn.go:607-633)
    - [BWrite c]: the first frame of the batch is written, its result is nil
    - [BFail c]: writing the batch fails; all that is left of it gets an error (serveconn.go:588-599, clientconn.go:757-764)
    - [BReturn k]: EndWrite returns its result
    - [BDone c]: the connection's context is cancelled: Close (serveconn.go:785), Serve returning (server.go:292-293),
      the loop context of a client (clientconn.go:479, 576). *)
Inductive blabel :=
| BGet (w c : N) | BBuild (w : N) (f : bytes) (grow : option nat) | BPut (w : N)
| BCall (k w : N) | BQueue (k : N) | BGiveUp (k : N)
| BTake (c : N) | BRefuse (c : N) | BWrite (c : N) | BFail (c : N)
| BReturn (k : N) | BDone (c : N).

(** small updates of the state (no code of their own): a call *)
Definition setCall (s : bst) (k : N) (c : call) : bst :=
  mkB (owner s) (slice s) (cur s) (arr s) (grown s) (upd (calls s) k (Some c)) (done s) (queue s) (batch s) (wire s).
(** likewise: the call running on a writer *)
Definition setCur (s : bst) (w : N) (v : option N) : bst :=
  mkB (owner s) (slice s) (upd (cur s) w v) (arr s) (grown s) (calls s) (done s) (queue s) (batch s) (wire s).
(** likewise: the connection a writer is bound to *)
Definition setOwner (s : bst) (w : N) (v : option N) : bst :=
  mkB (upd (owner s) w v) (slice s) (cur s) (arr s) (grown s) (calls s) (done s) (queue s) (batch s) (wire s).
(** likewise: a writer's slice, the arrays *)
Definition setBuf (s : bst) (w : N) (sl : N * N) (a : N -> bytes) (g : N) : bst :=
  mkB (owner s) (upd (slice s) w sl) (cur s) a g (calls s) (done s) (queue s) (batch s) (wire s).
(** likewise: a cancelled context *)
Definition setDone (s : bst) (c : N) : bst :=
  mkB (owner s) (slice s) (cur s) (arr s) (grown s) (calls s) (upd (done s) c true) (queue s) (batch s) (wire s).
(** likewise: a queue *)
Definition setQueue (s : bst) (c : N) (q : list N) : bst :=
  mkB (owner s) (slice s) (cur s) (arr s) (grown s) (calls s) (done s) (upd (queue s) c q) (batch s) (wire s).
(** likewise: a batch *)
Definition setBatch (s : bst) (c : N) (b : list (N * (N * N))) : bst :=
  mkB (owner s) (slice s) (cur s) (arr s) (grown s) (calls s) (done s) (queue s) (upd (batch s) c b) (wire s).
(** likewise: what was written *)
Definition addWire (s : bst) (c : N) (k : N) (b : bytes) : bst :=
  mkB (owner s) (slice s) (cur s) (arr s) (grown s) (calls s) (done s) (queue s) (batch s) (upd (wire s) c (wire s c ++ [(k, b)])).

(** a result is put into the request's channel (capacity 1); a call that has returned does not look at it any more
    (serveconn.go:590-606 and others) *)
Definition resolve (s : bst) (k : N) (ok : bool) : bst :=
  match calls s k with
  | Some c => setCall s k (mkCall (cconn c) (cw c) (built c) (match ph c with Returned => Returned | _ => Resolved end) (Some ok) (gaveUp c))
  | None => s
  end.

(** the call is over: the holder may use the writer again, and endWrite cuts the buffer to the header
    (framewriter.go:140: dfw.wbuf[:16]) *)
Definition finish (s : bst) (k : N) (c : call) (gu : bool) : bst :=
  let s := setCall s k (mkCall (cconn c) (cw c) (built c) Returned (res c) gu) in
  let s := setBuf s (cw c) (fst (slice s (cw c)), N.min 16 (snd (slice s (cw c)))) (arr s) (grown s) in
  setCur s (cw c) None.

(** The machine; [recon c] says whether connection [c] is a client connection made with reconnecting, on which EndWrite
    does not give up once the frame is queued (clientconn.go:397-404). *)
Definition bstep (recon : N -> bool) (s : bst) (l : blabel) : option bst :=
  match l with
  | BGet w c => match owner s w with None => Some (setOwner s w (Some c)) | Some _ => None end
  | BBuild w f grow =>
    match owner s w, cur s w with
    | Some _, None =>
      let '(a, _) := slice s w in
      match grow with
      | None => Some (setBuf s w (a, N.of_nat (length f)) (upd (arr s) a (overwrite f (arr s a))) (grown s))
      | Some n =>
        let a' := 2 * grown s + 1 in
        Some (setBuf s w (a', N.of_nat (length f)) (upd (upd (arr s) a (overwrite (firstn n f) (arr s a))) a' f) (grown s + 1))
      end
    | _, _ => None
    end
  | BPut w => match owner s w, cur s w with Some _, None => Some (setOwner s w None) | _, _ => None end
  | BCall k w =>
    match owner s w, cur s w, calls s k with
    | Some c, None, None => Some (setCur (setCall s k (mkCall c w (show s (slice s w)) Started None false)) w (Some k))
    | _, _, _ => None
    end
  | BQueue k =>
    match calls s k with
    | Some c => match ph c with
                | Started => Some (setQueue (setCall s k (mkCall (cconn c) (cw c) (built c) Queued (res c) (gaveUp c))) (cconn c) (queue s (cconn c) ++ [k]))
                | _ => None end
    | None => None
    end
  | BGiveUp k =>
    match calls s k with
    | Some c => if done s (cconn c)
                then match ph c with
                     | Returned => None
                     | Started => Some (finish s k c true)
                     | _ => if recon (cconn c) then None else Some (finish s k c true)
                     end
                else None
    | None => None
    end
  | BTake c =>
    match queue s c with
    | k :: q =>
      match calls s k with
      | Some x =>
        let s1 := setCall s k (mkCall (cconn x) (cw x) (built x) (match ph x with Returned => Returned | _ => Collected end) (res x) (gaveUp x)) in
        Some (setBatch (setQueue s1 c q) c (batch s c ++ [(k, slice s (cw x))]))
      | None => None
      end
    | [] => None
    end
  | BRefuse c =>
    match queue s c with
    | k :: q => Some (resolve (setQueue s c q) k false)
    | [] => None
    end
  | BWrite c =>
    match batch s c with
    | (k, sl) :: b => Some (resolve (addWire (setBatch s c b) c k (show s sl)) k true)
    | [] => None
    end
  | BFail c =>
    match batch s c with
    | [] => None
    | b => Some (fold_left (fun s '(k, _) => resolve s k false) b (setBatch s c []))
    end
  | BReturn k =>
    match calls s k with
    | Some c => match ph c with Resolved => Some (finish s k c (gaveUp c)) | _ => None end
    | None => None
    end
  | BDone c => Some (setDone s c)
  end.
