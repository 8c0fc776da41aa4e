(** Messages through channel.Sender and channel.Receiver over a connection of two endpoints (Model/Pair.v).
    Modelled: Transport.Pipe's Sender (channel/clienttransport.go:66-112, Model/Channel.v csStep) on either side, with the
    numbering of requests (clientconn.go:346-349, serveconn.go:719-722), StreamRequest (clientconn.go:313-324,
    serveconn.go:706-717) and the StreamWriter (framewriter.go:176-212); the Sender a handler is given
    (channel/servetransport.go:48-68, Model/Channel.v ssStep); the Receivers (channel/clienttransport.go:114-151,
    channel/servetransport.go:70-93); the reset sent when a handler returns (serveconn.go:267-276); any other traffic.
    Simplified: calls on one Sender come one after the other; a call that waits for the writer is one that is made later; a
    message whose frame the writer accepted is taken as sent (the write itself may fail, then the connection is lost); the
    first frame of a Receiver made by Pipe is the one its Response gives (C67); calls that fail in Marshal, that find the
    connection closed or whose context expired do nothing and are left out (C43, C44); only the Receiver receives from the
    FrameCh of its stream. *)
From Verif Require Import Model.GoBase Model.Machine Model.Qrpc Model.FrameReader Model.Ids Model.Stream Model.Pair Model.Channel.
Open Scope N_scope.

(** a call on a Sender that reaches the connection (channel/clienttransport.go:66-112, channel/servetransport.go:48-68), or the
    return of a handler (serveconn.go:267-276) *)
Inductive hop :=
| OMsg (cmd : Cmd) (payload : bytes) (fin : bool)     (* Send(ctx, cmd, msg, fin); payload is what Marshal returned *)
| OEnd                                                (* End() *)
| ORet.                                               (* the handler returned without ending the stream *)
(** what a Receive returned: a message, with cmd nil or not, or ErrStreamFinished *)
Inductive hgot := GMsg (want : bool) (f : Frame) | GFin.

(** Both sides ([true]: the client) of a connection with channels. *)
Record hst := mkHst {
  hp : pst;
  gen : bool -> N;                      (* ridGen (clientconn.go:51, serveconn.go:52) *)
  own : N -> option (bool * N);         (* ghost: the side and the Pipe that use a request id *)
  cs : bool -> N -> clientSender;       (* the Sender of the x-th Pipe of a side *)
  cid : bool -> N -> N;                 (* the request id in its streamWriter (framewriter.go:183-185) *)
  cfl : bool -> N -> FrameFlag;         (* the flags in its streamWriter: those of the first frame (framewriter.go:178-181) *)
  busy : bool -> option (option N * N * hop);  (* the write in progress of a side, if it is one of a channel: Pipe, id, call *)
  hlog : bool -> N -> list (hop * option Frame);  (* ghost: by side and request id, the calls on the Sender and the frames that went out *)
  rlog : bool -> N -> list hgot;        (* ghost: by side and stream, what the Receives returned *)
}.

(** What can happen. *)
Inductive hlabel :=
| HSend (c : bool) (x : N) (o : hop)    (* side c calls Send or End of the Sender of its x-th Pipe *)
| HReply (d : bool) (s : N) (o : hop)   (* the handler of stream s on side d calls Send or End of its Sender *)
| HRecv (d : bool) (s : N) (want : bool) (* Receive of the Receiver of stream s on side d returns *)
| HNew (c : bool)                       (* side c numbers another request *)
| HOther (c : bool) (id : N) (cmd : Cmd) (fl : FrameFlag) (ce : bool) (payload : bytes)  (* another write request of side c *)
| HPair (l : plabel).                   (* another action of the connection *)

(** setter of the connection (no counterpart in /repo) *)
Definition w_hp (v : pst) (h : hst) : hst := mkHst v (gen h) (own h) (cs h) (cid h) (cfl h) (busy h) (hlog h) (rlog h).
(** setter of the write in progress (no counterpart in /repo) *)
Definition w_busy (d : bool) (v : option (option N * N * hop)) (h : hst) : hst :=
  mkHst (hp h) (gen h) (own h) (cs h) (cid h) (cfl h) (put (busy h) d v) (hlog h) (rlog h).
(** setter of a Sender (no counterpart in /repo) *)
Definition w_cs (c : bool) (x : N) (v : clientSender) (h : hst) : hst :=
  mkHst (hp h) (gen h) (own h) (put (cs h) c (upd (cs h c) x v)) (cid h) (cfl h) (busy h) (hlog h) (rlog h).
(** a call on a Sender is over (no counterpart in /repo: ghost) *)
Definition addLog (d : bool) (i : N) (e : hop * option Frame) (h : hst) : hst :=
  mkHst (hp h) (gen h) (own h) (cs h) (cid h) (cfl h) (busy h) (put (hlog h) d (upd (hlog h d) i (hlog h d i ++ [e]))) (rlog h).
(** a Receive is over (no counterpart in /repo: ghost) *)
Definition addGot (d : bool) (s : N) (e : hgot) (h : hst) : hst :=
  mkHst (hp h) (gen h) (own h) (cs h) (cid h) (cfl h) (busy h) (hlog h) (put (rlog h) d (upd (rlog h d) s (rlog h d s ++ [e]))).

(** clientconn.go:346-349, serveconn.go:719-722 *)
Definition nextID (c : bool) (g : N) : N * N := if c then clientNextID g else serverNextID g.
(** a request id that was given out by one of the sides *)
Definition given (g : bool -> N) (id : N) : bool := if N.even id then id <=? 2 * g false else id <=? 2 * g true + 1.

(** the call as one of Model/Channel.v; [ok]: the qrpc call succeeded (channel/clienttransport.go:66-112) *)
Definition toSop (ok : bool) (o : hop) : sop :=
  let e := if ok then None else Some 0 in
  match o with OMsg cmd b fin => Send cmd (Some b) fin e | _ => End e end.

(** the frames among the entries of a log (no counterpart in /repo) *)
Definition frOf (l : list (hop * option Frame)) : list Frame := flat_map (fun e => match snd e with Some f => [f] | None => [] end) l.

(** The writer of side [d] has finished with the request in progress, if it has (its log got longer): the call returns,
    channel/clienttransport.go:85, 91, 110.  [p], [p']: the connection before and after. *)
Definition settled (d : bool) (p p' : pst) (h : hst) : hst :=
  if (length (wlog (ep p d)) <? length (wlog (ep p' d)))%nat then
    match busy h d with
    | Some (who, i, o) =>
      let ok := (length (sent p d) <? length (sent p' d))%nat in
      let f := if ok then nth_error (sent p' d) (length (sent p d)) else None in
      let h1 := w_busy d None (addLog d i (o, f) h) in
      match who with
      | Some x => w_cs d x (fst (fst (csStep (cs h d x) (toSop ok o)))) h1
      | None => h1
      end
    | None => h
    end
  else h.

(** the request whose handler the writer resets next (serveconn.go:267-276) *)
Definition rstId (st : sst) : option N := match rstq st with s :: _ => Some (sid (heap st s)) | [] => None end.

(** Is [s] on side [d] a stream of a channel, and who opened it? *)
Definition chanOf (h : hst) (d : bool) (s : N) : option (bool * N) :=
  let st := ep (hp h) d in
  if (s <? next st) && negb (spush (heap st s)) then own h (sid (heap st s)) else None.

(** the frames a Receiver has taken (no counterpart in /repo) *)
Definition taken (l : list hgot) : list Frame := flat_map (fun e => match e with GMsg _ f => [f] | GFin => [] end) l.

(** One action; the lines are given case by case. *)
Definition hstep (lim : bool -> Z) (h : hst) (l : hlabel) : option hst :=
  match l with
  | HSend c x o =>                              (* channel/clienttransport.go:66-112 *)
    if match o with ORet => true | _ => false end then None
    else if match busy h c with Some (Some x', _, _) => N.eqb x' x | _ => false end then None
    else match csStep (cs h c x) (toSop true o) with
    | (s', [], _) => Some (w_cs c x s' h)
    | (_, [WOpen cmd fl b], _) =>               (* StreamRequest: clientconn.go:313-324, 351-373; serveconn.go:706-717, 728-752 *)
      if 2 ^ 63 <=? gen h c + 1 then None       (* the ids would begin again: not modelled *)
      else
        let '(g, i) := nextID c (gen h c) in
        match pstep lim (hp h) (PWrite c i cmd (ToStream fl) false b) with
        | Some p' => Some (mkHst p' (put (gen h) c g) (upd (own h) i (Some (c, x))) (cs h) (put (cid h) c (upd (cid h c) x i))
                       (put (cfl h) c (upd (cfl h c) x (ToStream fl))) (put (busy h) c (Some (Some x, i, o))) (hlog h) (rlog h))
        | None => None
        end
    | (_, [WNext cmd b fin], _) =>              (* framewriter.go:178-202: the flags are those of the first frame *)
      let fl := if fin then ToEndStream (cfl h c x) else cfl h c x in
      option_map (fun p' => w_busy c (Some (Some x, cid h c x, o)) (w_hp p' h)) (pstep lim (hp h) (PWrite c (cid h c x) cmd fl true b))
    | (_, [WReset], _) =>                       (* framewriter.go:207-212, 153-156 *)
      option_map (fun p' => w_busy c (Some (Some x, cid h c x, o)) (w_hp p' h)) (pstep lim (hp h) (PWrite c (cid h c x) 0 StreamRstFlag true []))
    | _ => None
    end
  | HReply d s o =>                             (* channel/servetransport.go:48-68 *)
    let x := heap (ep (hp h) d) s in
    match chanOf h d s with
    | Some (c, _) =>
      if Bool.eqb c d || hEnded x || match got x with [] => true | _ => false end || match o with ORet => true | _ => false end then None
      else match fst (ssStep (sid x) (toSop true o)) with
      | [WFrame i cmd fl b] =>
        option_map (fun p' => w_busy d (Some (None, i, o)) (w_hp p' h)) (pstep lim (hp h) (PWrite d i cmd fl false b))
      | [WReset] =>
        option_map (fun p' => w_busy d (Some (None, sid x, o)) (w_hp p' h)) (pstep lim (hp h) (PWrite d (sid x) 0 StreamRstFlag false []))
      | _ => None
      end
    | None => None
    end
  | HRecv d s want =>                           (* channel/clienttransport.go:114-151, channel/servetransport.go:70-93 *)
    let st := ep (hp h) d in
    match chanOf h d s with
    | Some _ =>
      match rlog h d s with
      | [] => match got (heap st s) with f :: _ => Some (addGot d s (GMsg want f) h) | [] => None end
      | _ =>
        if chClosed (heap st s) then Some (addGot d s GFin h)
        else match rpc st with
        | RSend f s' =>
          if N.eqb s' s then option_map (fun p' => addGot d s (GMsg want f) (w_hp p' h)) (pstep lim (hp h) (PLoc d LDeliver)) else None
        | _ => None
        end
      end
    | None => None
    end
  | HNew c =>
    if 2 ^ 63 <=? gen h c + 1 then None
    else Some (mkHst (hp h) (put (gen h) c (fst (nextID c (gen h c)))) (own h) (cs h) (cid h) (cfl h) (busy h) (hlog h) (rlog h))
  | HOther c id cmd fl ce payload =>
    if IsPush fl || given (gen h) id && match own h id with None => true | Some _ => false end then
      option_map (fun p' => w_busy c None (w_hp p' h)) (pstep lim (hp h) (PWrite c id cmd fl ce payload))
    else None
  | HPair l =>
    match l with
    | PWrite _ _ _ _ _ _ => None
    | PLoc d LDeliver =>                        (* somebody else's stream *)
      match rpc (ep (hp h) d) with
      | RSend _ s => match chanOf h d s with Some _ => None | None => option_map (fun p' => w_hp p' h) (pstep lim (hp h) l) end
      | _ => None
      end
    | PLoc d (LHEnd s) =>                       (* only requests of the other side have handlers *)
      match chanOf h d s with
      | Some (c, _) => if Bool.eqb c d then None else option_map (fun p' => w_hp p' h) (pstep lim (hp h) l)
      | None => option_map (fun p' => w_hp p' h) (pstep lim (hp h) l)
      end
    | PLoc d LWriteRst =>                       (* serveconn.go:267-276 *)
      match rstId (ep (hp h) d) with
      | Some i =>
        option_map (fun p' => w_busy d (match own h i with Some _ => Some (None, i, ORet) | None => None end) (w_hp p' h)) (pstep lim (hp h) l)
      | None => None
      end
    | PLoc d _ => option_map (fun p' => settled d (hp h) p' (w_hp p' h)) (pstep lim (hp h) l)
    | _ => option_map (fun p' => w_hp p' h) (pstep lim (hp h) l)
    end
  end.

(** a connection just made *)
Definition hinit : hst :=
  mkHst pinit (fun _ => 0) (fun _ => None) (fun _ _ => newClientSender) (fun _ _ => 0) (fun _ _ => 0) (fun _ => None) (fun _ _ => []) (fun _ _ => []).
