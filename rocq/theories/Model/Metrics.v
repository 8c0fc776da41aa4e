(** Model of the metrics of a server connection: serveconn.go:227-247 instrument, called by handleRequestPanic (250-278)
    at the end of every handler, and the counter of readFrames (339-350), on top of the serve loop of Model/Serve.v.

    Simplified: a counter is a function from its labels to a number; the histogram keeps its observations; a panic value or
    an error is a number, standing for its text; time is a number and passes only by [MTick]; the calls of the metrics
    library do not fail.  Not modelled: the counters of kicked connections (server.go:475-479) and of failed writes
    (serveconn.go:494-502). *)
From Verif Require Import Model.GoBase Model.Machine Model.Serve.
Open Scope nat_scope.

(** the value of the label "method": serveconn.go:236, 348 *)
Inductive mmethod := MCmd (cmd : N) | MReadFrames.
(** the value of the label "error": "<nil>" or the panic value (234); the error of the reader, of the cancelled context,
    or the constant used with an overlay network (340-346) *)
Inductive merror := MNil | MPanic (v : N) | MIO (e : N) | MCtx | MOverlay.
(** serveconn.go:236, 244, 348 *)
Definition mlabels : Type := mmethod * merror.
(** equality of labels (no counterpart in /repo: the metrics library compares the strings) *)
Definition mmethod_eqb (a b : mmethod) : bool :=
  match a, b with MCmd x, MCmd y => N.eqb x y | MReadFrames, MReadFrames => true | _, _ => false end.
(** as above *)
Definition merror_eqb (a b : merror) : bool :=
  match a, b with
  | MNil, MNil | MCtx, MCtx | MOverlay, MOverlay => true
  | MPanic x, MPanic y | MIO x, MIO y => N.eqb x y
  | _, _ => false
  end.
(** as above *)
Definition mlabels_eqb (a b : mlabels) : bool := mmethod_eqb (fst a) (fst b) && merror_eqb (snd a) (snd b).

(** The metrics of a binding: conf.go:49-50; [None]: nil. *)
Record metrics := mkMx { counterM : option (mlabels -> nat); latencyM : option (list (mlabels * N)) }.

(** CounterMetric.With(...).Add(1): serveconn.go:237, 349 *)
Definition addOne (f : mlabels -> nat) (lab : mlabels) : mlabels -> nat := fun x => if mlabels_eqb x lab then S (f x) else f x.

(** What recover() returned in handleRequestPanic (255), as a label: serveconn.go:234 *)
Definition errStr (err : option N) : merror := match err with None => MNil | Some v => MPanic v end.

(** serveconn.go:227-247 *)
Definition instrument (m : metrics) (cmd begin now : N) (err : option N) : metrics :=
  match counterM m, latencyM m with
  | None, None => m
  | c, l =>
    let lab := (MCmd cmd, errStr err) in
    let c' := match c with Some f => Some (addOne f lab) | None => None end in
    match l with
    | None => mkMx c' None
    | Some obs => mkMx c' (Some (obs ++ [(lab, (now - begin)%N)]))
    end
  end.

(** The deferred function of readFrames: serveconn.go:339-350.  [e]: [Some] the error of ReadFrame, [None]: ctx.Err(). *)
Definition countReadFrames (overlay : bool) (m : metrics) (e : option N) : metrics :=
  match counterM m with
  | None => m
  | Some f =>
    let err := if overlay then MOverlay else match e with Some x => MIO x | None => MCtx end in
    mkMx (Some (addOne f (MReadFrames, err))) (latencyM m)
  end.

(** The connection: the serve loop, the clock, the commands of the requests read (res.f.Cmd), the time at which the
    deferred call was set up (202, 214: time.Now() is evaluated by the defer statement), the panic value of the blocking
    handler that ended (recover() of 255), the metrics. *)
Record mst := mkM {
  sc : sst; clock : N;
  cmdOf : nat -> N;
  beginOf : nat -> N;
  blkErr : option N;
  mx : metrics }.

(** the start of serve: serveconn.go:145-192; [c], [l]: whether CounterMetric and LatencyMetric are set *)
Definition minit (c l : bool) : mst :=
  mkM sinit 0 (fun _ => 0%N) (fun _ => 0%N) None
      (mkMx (if c then Some (fun _ => 0) else None) (if l then Some [] else None)).

(** The atomic actions: time passes; ReadFrame returns a request with a command or fails; a handler ends, normally or by a
    panic (blocking request: MBlkEnd, then the deferred function is MDo SLDefer; nonblocking: MEnd); the other actions
    of the serve loop.  serveconn.go:145-225, 250-278, 322-442. *)
Inductive mlabel :=
| MTick (d : N)
| MRead (b : bool) (cmd : N)
| MReadErr (e : N)
| MBlkEnd (n : nat) (err : option N)
| MEnd (n : nat) (err : option N)
| MDo (l : slabel).

(** the request whose blocking handler runs, or whose deferred function is next: serveconn.go:201-203 *)
Definition blkOf (p : svpc) : option nat := match p with SBlk n | SDefer n => Some n | _ => None end.

(** time.Now() of a blocking request, when serve takes it: serveconn.go:202 *)
Definition noteBegin (m : mst) (s' : sst) : nat -> N :=
  match blkOf (sv (sc m)), blkOf (sv s') with
  | None, Some n => fun k => if k =? n then clock m else beginOf m k
  | _, _ => beginOf m
  end.

(** One action: serveconn.go:145-278, 322-442. *)
Definition mstep (K : nat) (lim : option Z) (overlay : bool) (m : mst) (l : mlabel) : option mst :=
  match l with
  | MTick d => Some (mkM (sc m) (clock m + d) (cmdOf m) (beginOf m) (blkErr m) (mx m))
  | MRead b c =>
    match sstep K lim (sc m) (SLRead b) with
    | Some s' => Some (mkM s' (clock m) (fun k => if k =? narr (sc m) then c else cmdOf m k) (beginOf m) (blkErr m) (mx m))
    | None => None
    end
  | MReadErr e =>
    match sstep K lim (sc m) SLReadErr with
    | Some s' => Some (mkM s' (clock m) (cmdOf m) (beginOf m) (blkErr m) (countReadFrames overlay (mx m) (Some e)))
    | None => None
    end
  | MBlkEnd n err =>
    match sv (sc m) with
    | SBlk n' =>
      if n =? n' then
        match sstep K lim (sc m) SLBlkRet with
        | Some s' => Some (mkM s' (clock m) (cmdOf m) (beginOf m) err (mx m))
        | None => None
        end
      else None
    | _ => None
    end
  | MEnd n err =>
    match sstep K lim (sc m) (SLFinish n) with
    | Some s' => Some (mkM s' (clock m) (cmdOf m) (beginOf m) (blkErr m)
                           (instrument (mx m) (cmdOf m n) (beginOf m n) (clock m) err))
    | None => None
    end
  | MDo SLDefer =>
    match sv (sc m), sstep K lim (sc m) SLDefer with
    | SDefer n, Some s' => Some (mkM s' (clock m) (cmdOf m) (beginOf m) None
                                  (instrument (mx m) (cmdOf m n) (beginOf m n) (clock m) (blkErr m)))
    | _, _ => None
    end
  | MDo (SLStart n) =>
    match sstep K lim (sc m) (SLStart n) with
    | Some s' => Some (mkM s' (clock m) (cmdOf m) (fun k => if k =? n then clock m else beginOf m k) (blkErr m) (mx m))
    | None => None
    end
  | MDo SLRdDone =>
    match sstep K lim (sc m) SLRdDone with
    | Some s' => Some (mkM s' (clock m) (cmdOf m) (beginOf m) (blkErr m) (countReadFrames overlay (mx m) None))
    | None => None
    end
  | MDo (SLRead _) | MDo SLReadErr | MDo SLBlkRet | MDo (SLFinish _) => None (* above *)
  | MDo l =>
    match sstep K lim (sc m) l with
    | Some s' => Some (mkM s' (clock m) (cmdOf m) (noteBegin m s') (blkErr m) (mx m))
    | None => None
    end
  end.
