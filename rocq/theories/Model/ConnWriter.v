(** Model of writer.go, of net.Buffers.WriteTo, and of the way writeBuffers
    attributes the outcome to the frames of a batch. *)
From Verif Require Import Model.GoBase.
Open Scope nat_scope.

(** Errors returned by a connection's Write: a *net.OpError timeout, or anything else. *)
Inductive werr := WTimeout | WOther | WCtx.

(** What one Write / writev call does, chosen by the adversary. *)
Inductive wev := EvAll | EvPart (k : nat) (timeout : bool).

(** net.TCPConn.Write(b): everything with a nil error, or a strict prefix with an error
    (io.Writer's contract and poll.FD.Write: an error is never returned with n = len(b) > 0).
    Result: reported n, delivered bytes, error. *)
Definition tcpWrite (b : bytes) (e : wev) : nat * bytes * option werr :=
  match e with
  | EvAll => (length b, b, None)
  | EvPart k t => let k' := min k (length b - 1) in
                  (k', firstn k' b, Some (if t then WTimeout else WOther))
  end.

(** ws/server/conn.go:66-68: Write reports len(b) whatever WriteMessage returned; on an
    error an arbitrary prefix of the message may have reached the network. *)
Definition wsWrite (b : bytes) (e : wev) : nat * bytes * option werr :=
  match e with
  | EvAll => (length b, b, None)
  | EvPart k t => (length b, firstn (min k (length b - 1)) b, Some (if t then WTimeout else WOther))
  end.

(** One iteration of the loops of writer.go: the write, whether time.Now().After(endTime)
    at line 65/119, whether ctx.Done() at line 77/131. *)
Record iter := mkIter { iev : list wev; iafter : bool; ictx : bool }.

(** [nth] write of an iteration; a missing event means success. *)
Definition ev0 (l : list wev) : wev := match l with [] => EvAll | e :: _ => e end.

(** writer.go:49-81 loop of Writer.Write.  [None]: the adversary's events are used up and the
    loop is still running.  Otherwise (returned n, returned error, delivered bytes).
    The deadline values themselves (lines 50-59) only influence the adversary's choices. *)
Fixpoint wLoop (cw : bytes -> wev -> nat * bytes * option werr) (timeout : Z) (bs : bytes)
    (offset : nat) (its : list iter) (sent : bytes) : option (nat * option werr * bytes) :=
  match its with
  | [] => None
  | it :: its' =>
    let '(n, d, err) := cw (skipn offset bs) (ev0 (iev it)) in
    let offset := offset + n in
    let sent := sent ++ d in
    let continue :=
      if Nat.leb (length bs) offset then Some (offset, None, sent)
      else if ictx it then Some (offset, Some WCtx, sent)
      else wLoop cw timeout bs offset its' sent in
    match err with
    | Some WTimeout => if (Z.ltb 0 timeout && iafter it)%bool then Some (offset, err, sent) else continue
    | Some e => Some (offset, Some e, sent)
    | None => continue
    end
  end.

(** writer.go:34-83 Writer.Write *)
Definition WriterWrite cw (timeout : Z) (bs : bytes) (its : list iter) :=
  wLoop cw timeout bs 0 its [].

(** net.Buffers.consume: drops [n] bytes from the front; fully consumed entries leave the
    slice; [nilit] says whether the Go release also overwrites them with nil in the backing
    array (recent ones do).  Result: the entries that left (as they stay visible in the
    backing array) and the remaining slice. *)
Fixpoint consume (nilit : bool) (v : list bytes) (n : nat) : list bytes * list bytes :=
  match v with
  | [] => ([], [])
  | b :: rest =>
    if Nat.ltb n (length b) then ([], skipn n b :: rest)
    else let '(d, r) := consume nilit rest (n - length b) in ((if nilit then [] else b) :: d, r)
  end.

(** net.Buffers.WriteTo on a *net.TCPConn: one writev (internal/poll), with the contract of
    [tcpWrite] on the concatenation.  Result: reported n, delivered, error. *)
Definition tcpWritev (v : list bytes) (evs : list wev) : nat * bytes * option werr :=
  tcpWrite (concat v) (ev0 evs).

(** net.Buffers.WriteTo on any other connection: one Write per buffer until an error. *)
Fixpoint seqWritev (cw : bytes -> wev -> nat * bytes * option werr) (v : list bytes) (evs : list wev)
  : nat * bytes * option werr :=
  match v with
  | [] => (0, [], None)
  | b :: rest =>
    let '(n, d, err) := cw b (ev0 evs) in
    match err with
    | Some e => (n, d, Some e)
    | None => let '(n2, d2, err2) := seqWritev cw rest (tl evs) in (n + n2, d ++ d2, err2)
    end
  end.

(** writer.go:103-135 loop of Writer.writeBuffers: [gone] are the entries that left the slice
    (as seen through the alias kept by the caller), [v] the remaining slice. *)
Fixpoint wbLoop (nilit : bool) (wv : list bytes -> list wev -> nat * bytes * option werr)
    (timeout : Z) (size : nat) (gone v : list bytes) (offset : nat) (its : list iter) (sent : bytes)
  : option (list bytes * option werr * bytes) :=
  match its with
  | [] => None
  | it :: its' =>
    let '(n, d, err) := wv v (iev it) in
    let '(g, v') := consume nilit v n in
    let gone := gone ++ g in
    let offset := offset + n in
    let sent := sent ++ d in
    let ret e := Some (gone ++ v', e, sent) in
    let continue :=
      if Nat.leb size offset then ret None
      else if ictx it then ret (Some WCtx)
      else wbLoop nilit wv timeout size gone v' offset its' sent in
    match err with
    | Some WTimeout => if (Z.ltb 0 timeout && iafter it)%bool then ret err else continue
    | Some e => ret (Some e)
    | None => continue
    end
  end.

(** writer.go:85-136 writeBuffers, then serveconn.go:584-619 / clientconn.go:745-771: the result
    sent to each request of the batch (None = nil error).  Left out: the ErrNoNewUUID entries
    (serveconn.go:572-577), the translation opErr.Err and closing the connection. *)
Definition writeBatch (nilit : bool) wv (timeout : Z) (frames : list bytes) (its : list iter)
  : option (list (option werr) * bytes) :=
  match wbLoop nilit wv timeout (length (concat frames)) [] frames 0 its [] with
  | None => None
  | Some (cached, None, sent) => Some (map (fun _ => None) cached, sent)
  | Some (cached, Some e, sent) =>
    Some (map (fun b => match b with [] => None | _ => Some e end) cached, sent)
  end.
