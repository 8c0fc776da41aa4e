(** Calls from a server to a client over one connection: the two endpoints of Model/Pair.v with the server's table of Responses
    (Model/Response.v) on top.  The mirror of Model/Call.v.
    Modelled: serveconn.Request and StreamRequest (serveconn.go:699-752) with the numbering of requests (serveconn.go:719-722),
    the frames ReadFrame returns to the server's readFrames and what becomes of them (framereader.go:40-77,
    serveconn.go:373-434), handlers of the client that answer through the FrameWriter they were given (clientconn.go:515-531), and
    handlers of the server that are given a frame under one of the server's own ids (serveconn.go:393-434).
    Simplified: a serveconn is never connected again; a handler may answer from the moment its request is bound to its stream;
    what the client's writer accepts is on the wire at once; the server's reader does not wait for handlers and the client's
    reader goes on after a frame it refuses (clientconn.go:517-524), which only allows more. *)
From Verif Require Import Model.GoBase Model.Machine Model.Qrpc Model.FrameReader Model.Ids Model.Stream Model.Pair Model.Call.
From Verif Require Model.Response.
Open Scope N_scope.

(** The server's side of a connection (serveconn.go:26-61, 66-75), the client's side, and ghosts; [call] as in Model/Call.v. *)
Record cst := mkCst {
  pp : Pair.pst;           (* the connection *)
  rr : Response.pst;       (* the Responses of the server *)
  ridGen : N;              (* serveconn.go:52 *)
  calls : list call;       (* ghost: all calls, newest first *)
  waiting : list call;     (* calls whose frame is in writeFrameCh *)
  taken : option N;        (* the Response of the write request in progress (dfw.resp) *)
  batch : nat;             (* bytes of cachedBuffs: accepted by the server's writer and not given to the network yet *)
  ret : option Frame;      (* the frame ReadFrame is about to return to the server's readFrames *)
  answers : list (Frame * Frame);   (* ghost: the request a client's handler was given, a frame it wrote under its id *)
  given : list Frame;      (* frames sent to readFrameCh: a handler of the server is called with each (serveconn.go:413-434) *)
}.

(** What can happen. *)
Inductive clabel :=
| JCall (stream : bool) (cmd : Cmd) (fl : FrameFlag) (payload : bytes)     (* Request / StreamRequest up to queueing the frame *)
| JTake (i : nat)                   (* the server's writer takes the i-th waiting frame (serveconn.go:633) *)
| JOther (id : N) (cmd : Cmd) (fl : FrameFlag) (ce : bool) (payload : bytes)   (* another write of the server *)
| JAnswer (s : N) (cmd : Cmd) (fl : FrameFlag) (payload : bytes)   (* the handler of the client's stream s writes a frame *)
| JClient (id : N) (cmd : Cmd) (fl : FrameFlag) (ce : bool) (payload : bytes)  (* another write of the client *)
| JEcho (i : nat) (cmd : Cmd) (fl : FrameFlag) (payload : bytes)   (* a handler of the server answers the i-th given frame *)
| JPair (l : Pair.plabel)           (* an action of the connection *)
| JLook                             (* the server's readFrames deals with the frame it got (serveconn.go:385-434) *)
| JResp (l : Response.plabel).      (* an action on the Responses other than making one, looking one up and collecting *)

(** setter of the connection (no counterpart in /repo) *)
Definition w_pp (v : Pair.pst) (j : cst) : cst := mkCst v (rr j) (ridGen j) (calls j) (waiting j) (taken j) (batch j) (ret j) (answers j) (given j).
(** setter of the Responses (no counterpart in /repo) *)
Definition w_rr (v : Response.pst) (j : cst) : cst := mkCst (pp j) v (ridGen j) (calls j) (waiting j) (taken j) (batch j) (ret j) (answers j) (given j).
(** setter of the returned frame (no counterpart in /repo) *)
Definition w_ret (v : option Frame) (j : cst) : cst := mkCst (pp j) (rr j) (ridGen j) (calls j) (waiting j) (taken j) (batch j) v (answers j) (given j).
(** setter of the write in progress (no counterpart in /repo) *)
Definition w_taken (v : option N) (j : cst) : cst := mkCst (pp j) (rr j) (ridGen j) (calls j) (waiting j) v (batch j) (ret j) (answers j) (given j).
(** setter of the batch (no counterpart in /repo) *)
Definition w_batch (v : nat) (j : cst) : cst := mkCst (pp j) (rr j) (ridGen j) (calls j) (waiting j) (taken j) v (ret j) (answers j) (given j).
(** setter of the given frames (no counterpart in /repo) *)
Definition w_given (v : list Frame) (j : cst) : cst := mkCst (pp j) (rr j) (ridGen j) (calls j) (waiting j) (taken j) (batch j) (ret j) (answers j) v.

(** The writes of a server other than the first frames of its calls and [JEcho]: resets, pushes, answers to the client's
    requests (odd ids) and what is sent through the StreamWriter of a StreamRequest that has returned it
    (serveconn.go:708-717). *)
Definition otherOk (j : cst) (id : N) (fl : FrameFlag) : bool :=
  IsRst fl || IsPush fl || N.odd id ||
  existsb (fun k => c_stream k && (c_id k =? id) &&
    match c_resp k with Some r => match Response.res (rr j) r with Some true => true | _ => false end | None => true end) (calls j).
(** The writes of a client other than the answers of handlers: resets, pushes, its own requests (odd ids, clientconn.go:346-349). *)
Definition clientOk (id : N) (fl : FrameFlag) : bool := IsRst fl || IsPush fl || N.odd id.

(** serveconn.go:363-412: is the reader free to read the next frame? *)
Definition free (j : cst) : bool :=
  match ret j, Response.hand (rr j) with None, None => Response.rdAlive (rr j) | _, _ => false end.

(** serveconn.go:466-530: the holder of wlockCh is collecting, not writing *)
Definition collecting (j : cst) : bool := match Response.wph (rr j) with Response.WCollect _ => true | _ => false end.

(** The writer has finished with the request in progress, if it has: serveconn.go:669-670 (kept) or 637-667 (answered with an
    error).  [p], [p'] are the connection before and after the step. *)
Definition settle (p p' : Pair.pst) (j : cst) : option cst :=
  match wpc (ep p' false), taken j with
  | WIdle, Some r =>
    let l := if (length (sent p false) <? length (sent p' false))%nat then Response.PCollect r else Response.PReject r in
    option_map (fun r' => w_taken None (w_rr r' j)) (Response.pstep false (rr j) l)
  | _, _ => Some j
  end.

(** serveconn.go:385-434: is the frame sent to readFrameCh?  Not a push, and not taken for the answer to a call. *)
Definition toHandler (j : cst) (f : Frame) : bool :=
  negb (IsPush (fFlags f)) &&
  negb (FromServer (fRequestID f) && match Response.tget (Response.tab (rr j)) (fRequestID f) with Some _ => true | None => false end).

(** One action; the lines are given case by case. *)
Definition cstep (lim : bool -> Z) (j : cst) (l : clabel) : option cst :=
  match l with
  | JCall stream cmd fl payload =>            (* serveconn.go:701, 710, 728-746; on a closed connection no call is made (730-732) *)
    let flags := if stream then ToStream fl else N.lor fl NBFlag in
    let '(g, id) := serverNextID (ridGen j) in
    if 2 ^ 63 <=? ridGen j + 1 then None      (* the ids would begin again: not modelled *)
    else if IsPush flags then
      let k := mkCall id cmd flags payload stream None in
      Some (mkCst (pp j) (rr j) g (k :: calls j) (waiting j ++ [k]) (taken j) (batch j) (ret j) (answers j) (given j))
    else
      let k := mkCall id cmd flags payload stream (Some (Response.nextR (rr j))) in
      match Response.pstep false (rr j) (Response.PRequest id) with
      | Some r' => Some (mkCst (pp j) r' g (k :: calls j) (waiting j ++ [k]) (taken j) (batch j) (ret j) (answers j) (given j))
      | None => None
      end
  | JTake i =>
    match nth_error (waiting j) i with
    | Some k =>
      if collecting j then
        match Pair.pstep lim (pp j) (PWrite false (c_id k) (c_cmd k) (c_fl k) false (c_pay k)) with
        | Some p' => Some (mkCst p' (rr j) (ridGen j) (calls j) (drop i (waiting j)) (c_resp k) (batch j) (ret j) (answers j) (given j))
        | None => None
        end
      else None
    | None => None
    end
  | JOther id cmd fl ce payload =>
    if otherOk j id fl && collecting j then
      option_map (fun p' => w_taken None (w_pp p' j)) (Pair.pstep lim (pp j) (PWrite false id cmd fl ce payload))
    else None
  | JAnswer s cmd fl payload =>               (* clientconn.go:516-530, framewriter.go:50-94: StartWrite(frame.RequestID, …) *)
    let st := ep (pp j) true in
    match got (heap st s) with
    | q :: _ =>
      if (s <? next st) && negb (spush (heap st s)) && IsNonBlock (fFlags q) then
        match Pair.pstep lim (pp j) (PWrite true (fRequestID q) cmd fl false payload) with
        | Some p' => Some (mkCst p' (rr j) (ridGen j) (calls j) (waiting j) (taken j) (batch j) (ret j)
                       ((q, mkFrame (fRequestID q) fl (N.land cmd 0xffffff) payload) :: answers j) (given j))
        | None => None
        end
      else None
    | [] => None
    end
  | JClient id cmd fl ce payload =>
    if clientOk id fl then option_map (fun p' => w_pp p' j) (Pair.pstep lim (pp j) (PWrite true id cmd fl ce payload)) else None
  | JEcho i cmd fl payload =>                 (* serveconn.go:198-226, framewriter.go:50-94 *)
    match nth_error (given j) i with
    | Some q =>
      if N.even (fRequestID q) && collecting j then
        option_map (fun p' => w_taken None (w_pp p' j)) (Pair.pstep lim (pp j) (PWrite false (fRequestID q) cmd fl false payload))
      else None
    | None => None
    end
  | JPair l =>
    match l with
    | PWrite _ _ _ _ _ _ => None
    | PRead false => if free j then option_map (fun p' => w_pp p' j) (Pair.pstep lim (pp j) l) else None
    | PLoc false LRStep =>
      option_map (fun p' => w_ret (match bound (ep (pp j) false) with Some f => Some f | None => ret j end) (w_pp p' j)) (Pair.pstep lim (pp j) l)
    | PLoc false LWriteRst =>
      if collecting j then option_map (fun p' => w_taken None (w_pp p' j)) (Pair.pstep lim (pp j) l) else None
    | PLoc false LWStep =>
      match Pair.pstep lim (pp j) l with
      | Some p' => settle (pp j) p' (w_batch (batch j + (length (flight p' false) - length (flight (pp j) false))) (w_pp p' j))
      | None => None
      end
    | PArrive true n =>                       (* only what was given to the network arrives *)
      if (n + batch j <=? length (flight (pp j) false))%nat then option_map (fun p' => w_pp p' j) (Pair.pstep lim (pp j) l) else None
    | _ => option_map (fun p' => w_pp p' j) (Pair.pstep lim (pp j) l)
    end
  | JLook =>
    match rpc (ep (pp j) false), ret j with
    | RIdle, Some f =>
      option_map (fun r' => w_given (if toHandler j f then given j ++ [f] else given j) (w_ret None (w_rr r' j)))
        (Response.pstep false (rr j) (Response.PFrame f true))
    | _, _ => None
    end
  | JResp l =>
    match l with
    | Response.PRequest _ | Response.PFrame _ _ | Response.PConnect | Response.PCollect _ | Response.PReject _ => None
    | Response.PRegister =>                   (* serveconn.go:550-586: the Responses are registered, then the batch is written *)
      match wpc (ep (pp j) false) with
      | WIdle => option_map (fun r' => w_batch (if Response.up (rr j) then 0 else batch j)%nat (w_rr r' j)) (Response.pstep false (rr j) l)
      | _ => None
      end
    | Response.PWriteQuit =>                  (* serveconn.go:672-674 *)
      match wpc (ep (pp j) false) with WIdle => option_map (fun r' => w_rr r' j) (Response.pstep false (rr j) l) | _ => None end
    | _ => option_map (fun r' => w_rr r' j) (Response.pstep false (rr j) l)
    end
  end.

(** a connection just accepted: server.go:421-443 *)
Definition cinit : cst := mkCst Pair.pinit Response.pinit 0 [] [] None 0 None [] [].
