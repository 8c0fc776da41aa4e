(** Calls from a client to a server: the two endpoints of Model/Pair.v with the client's table of Responses
    (Model/Response.v) on top, over any number of connections one after the other (NewConnectionWithReconnect).
    Modelled: Connection.Request and StreamRequest (clientconn.go:314-374) with the numbering of requests
    (clientconn.go:346-349), the frames ReadFrame returns to the client's readFrames and their way to the Response
    (framereader.go:40-77, clientconn.go:486-546), handlers that answer through the FrameWriter they were given.
    Simplified: when a connection is lost the next one starts with new streams and new buffers on both sides (endLoop,
    clientconn.go:446-451; the server makes a new serveconn); a handler may answer from the moment its request is bound to
    its stream; what the server's writer accepts is on the wire at once. *)
From Verif Require Import Model.GoBase Model.Machine Model.Qrpc Model.FrameReader Model.Ids Model.Stream Model.Pair.
From Verif Require Model.Response.
Open Scope N_scope.

(** one Request or StreamRequest (clientconn.go:314-374) *)
Record call := mkCall {
  c_id : N;                (* the request id (clientconn.go:358) *)
  c_cmd : Cmd; c_fl : FrameFlag; c_pay : bytes;
  c_stream : bool;         (* StreamRequest: the caller has a StreamWriter *)
  c_resp : option N;       (* the Response; none for a pushed frame (clientconn.go:361-364) *)
}.

(** A client Connection (clientconn.go:29-58), the server's side of the current connection, and ghosts. *)
Record cst := mkCst {
  pp : Pair.pst;           (* the current connection *)
  rr : Response.pst;       (* the Responses of the client *)
  ridGen : N;              (* clientconn.go:51 *)
  calls : list call;       (* ghost: all calls, newest first *)
  waiting : list call;     (* calls whose frame is in writeFrameCh *)
  taken : option N;        (* the Response of the write request in progress (dfw.resp) *)
  batch : nat;             (* bytes of cachedBuffs: accepted by the client's writer and not given to the network yet *)
  ret : option Frame;      (* the frame ReadFrame is about to return to the client's readFrames *)
  answers : list (Frame * Frame);   (* ghost: the request a handler was given, a frame it wrote under its id *)
  past : list Frame;       (* ghost: the frames the client sent on earlier connections *)
}.

(** What can happen. *)
Inductive clabel :=
| JCall (stream : bool) (cmd : Cmd) (fl : FrameFlag) (payload : bytes)     (* Request / StreamRequest up to queueing the frame *)
| JTake (i : nat)                   (* the client's writer takes the i-th waiting frame (clientconn.go:610, 666) *)
| JOther (id : N) (cmd : Cmd) (fl : FrameFlag) (ce : bool) (payload : bytes)   (* another write of the client *)
| JAnswer (s : N) (cmd : Cmd) (fl : FrameFlag) (payload : bytes)   (* the handler of the server's stream s writes a frame *)
| JServer (id : N) (cmd : Cmd) (fl : FrameFlag) (ce : bool) (payload : bytes)  (* another write of the server *)
| JPair (l : Pair.plabel)           (* an action of the connection *)
| JLook                             (* the client's readFrames looks up the frame it got (clientconn.go:503-536) *)
| JResp (l : Response.plabel)       (* an action on the Responses other than making one, looking one up, connecting and collecting *)
| JReconnect.                       (* clientconn.go:232-249, 259-306 *)

(** setter of the connection (no counterpart in /repo) *)
Definition w_pp (v : Pair.pst) (j : cst) : cst := mkCst v (rr j) (ridGen j) (calls j) (waiting j) (taken j) (batch j) (ret j) (answers j) (past j).
(** setter of the Responses (no counterpart in /repo) *)
Definition w_rr (v : Response.pst) (j : cst) : cst := mkCst (pp j) v (ridGen j) (calls j) (waiting j) (taken j) (batch j) (ret j) (answers j) (past j).
(** setter of the returned frame (no counterpart in /repo) *)
Definition w_ret (v : option Frame) (j : cst) : cst := mkCst (pp j) (rr j) (ridGen j) (calls j) (waiting j) (taken j) (batch j) v (answers j) (past j).

(** setter of the write in progress (no counterpart in /repo) *)
Definition w_taken (v : option N) (j : cst) : cst := mkCst (pp j) (rr j) (ridGen j) (calls j) (waiting j) v (batch j) (ret j) (answers j) (past j).
(** setter of the batch (no counterpart in /repo) *)
Definition w_batch (v : nat) (j : cst) : cst := mkCst (pp j) (rr j) (ridGen j) (calls j) (waiting j) (taken j) v (ret j) (answers j) (past j).

(** The writes of a client other than the first frames of its calls: resets, pushes, answers to the server's requests (even
    ids) and what is sent through the StreamWriter of a StreamRequest that has returned it (clientconn.go:317-326). *)
Definition otherOk (j : cst) (id : N) (fl : FrameFlag) : bool :=
  IsRst fl || IsPush fl || N.even id ||
  existsb (fun k => c_stream k && (c_id k =? id) &&
    match c_resp k with Some r => match Response.res (rr j) r with Some true => true | _ => false end | None => true end) (calls j).
(** The writes of a server other than the answers of handlers: resets, pushes, its own requests (even ids). *)
Definition serverOk (id : N) (fl : FrameFlag) : bool := IsRst fl || IsPush fl || N.even id.

(** the frame the reader of a side has bound to its stream and will return (framereader.go:66-68) *)
Definition bound (st : sst) : option Frame :=
  match rpc st with RBind f s => if binded (heap st s) then None else Some f | _ => None end.

(** l[:i] and l[i+1:] (no counterpart in /repo: the order in which a channel's senders are served) *)
Definition drop (i : nat) {A} (l : list A) : list A := firstn i l ++ skipn (S i) l.

(** clientconn.go:504-546: is the reader free to read the next frame? *)
Definition free (j : cst) : bool :=
  match ret j, Response.hand (rr j) with None, None => Response.rdAlive (rr j) | _, _ => false end.

(** clientconn.go:595-701: the writer is collecting, not writing *)
Definition collecting (j : cst) : bool := match Response.wph (rr j) with Response.WCollect _ => true | _ => false end.

(** The writer has finished with the request in progress, if it has: clientconn.go:647-648 (kept) or 614-645, 675-692 (answered
    with an error).  [p], [p'] are the connection before and after the step. *)
Definition settle (p p' : Pair.pst) (j : cst) : option cst :=
  match wpc (ep p' true), taken j with
  | WIdle, Some r =>
    let l := if (length (sent p true) <? length (sent p' true))%nat then Response.PCollect r else Response.PReject r in
    option_map (fun r' => w_taken None (w_rr r' j)) (Response.pstep true (rr j) l)
  | _, _ => Some j
  end.

(** One action; the lines are given case by case. *)
Definition cstep (lim : bool -> Z) (j : cst) (l : clabel) : option cst :=
  match l with
  | JCall stream cmd fl payload =>            (* clientconn.go:317, 332, 351-368 *)
    let flags := if stream then ToStream fl else ToNonStream fl in
    let '(g, id) := clientNextID (ridGen j) in
    if 2 ^ 63 <=? ridGen j + 1 then None      (* the ids would begin again: not modelled *)
    else if IsPush flags then
      let k := mkCall id cmd flags payload stream None in
      Some (mkCst (pp j) (rr j) g (k :: calls j) (waiting j ++ [k]) (taken j) (batch j) (ret j) (answers j) (past j))
    else
      let k := mkCall id cmd flags payload stream (Some (Response.nextR (rr j))) in
      match Response.pstep true (rr j) (Response.PRequest id) with
      | Some r' => Some (mkCst (pp j) r' g (k :: calls j) (waiting j ++ [k]) (taken j) (batch j) (ret j) (answers j) (past j))
      | None => None
      end
  | JTake i =>
    match nth_error (waiting j) i with
    | Some k =>
      if collecting j then
        match Pair.pstep lim (pp j) (PWrite true (c_id k) (c_cmd k) (c_fl k) false (c_pay k)) with
        | Some p' => Some (mkCst p' (rr j) (ridGen j) (calls j) (drop i (waiting j)) (c_resp k) (batch j) (ret j) (answers j) (past j))
        | None => None
        end
      else None
    | None => None
    end
  | JOther id cmd fl ce payload =>
    if otherOk j id fl && collecting j then
      option_map (fun p' => w_taken None (w_pp p' j)) (Pair.pstep lim (pp j) (PWrite true id cmd fl ce payload))
    else None
  | JAnswer s cmd fl payload =>               (* serveconn.go:425-432, framewriter.go:50-94: StartWrite(frame.RequestID, …) *)
    let st := ep (pp j) false in
    match got (heap st s) with
    | q :: _ =>
      if (s <? next st) && negb (spush (heap st s)) then
        match Pair.pstep lim (pp j) (PWrite false (fRequestID q) cmd fl false payload) with
        | Some p' => Some (mkCst p' (rr j) (ridGen j) (calls j) (waiting j) (taken j) (batch j) (ret j)
                       ((q, mkFrame (fRequestID q) fl (N.land cmd 0xffffff) payload) :: answers j) (past j))
        | None => None
        end
      else None
    | [] => None
    end
  | JServer id cmd fl ce payload =>
    if serverOk id fl then option_map (fun p' => w_pp p' j) (Pair.pstep lim (pp j) (PWrite false id cmd fl ce payload)) else None
  | JPair l =>
    match l with
    | PWrite _ _ _ _ _ _ => None
    | PRead true => if free j then option_map (fun p' => w_pp p' j) (Pair.pstep lim (pp j) l) else None
    | PLoc true LRStep =>
      option_map (fun p' => w_ret (match bound (ep (pp j) true) with Some f => Some f | None => ret j end) (w_pp p' j)) (Pair.pstep lim (pp j) l)
    | PLoc true LWriteRst =>
      if collecting j then option_map (fun p' => w_taken None (w_pp p' j)) (Pair.pstep lim (pp j) l) else None
    | PLoc true LWStep =>
      match Pair.pstep lim (pp j) l with
      | Some p' => settle (pp j) p' (w_batch (batch j + (length (flight p' true) - length (flight (pp j) true))) (w_pp p' j))
      | None => None
      end
    | PArrive false n =>                      (* only what was given to the network arrives *)
      if (n + batch j <=? length (flight (pp j) true))%nat then option_map (fun p' => w_pp p' j) (Pair.pstep lim (pp j) l) else None
    | _ => option_map (fun p' => w_pp p' j) (Pair.pstep lim (pp j) l)
    end
  | JLook =>
    match rpc (ep (pp j) true), ret j with
    | RIdle, Some f =>
      option_map (fun r' => w_ret None (w_rr r' j)) (Response.pstep true (rr j) (Response.PFrame f true))
    | _, _ => None
    end
  | JResp l =>
    match l with
    | Response.PRequest _ | Response.PFrame _ _ | Response.PConnect | Response.PCollect _ | Response.PReject _ => None
    | Response.PRegister =>                   (* clientconn.go:717-746: the Responses are registered, then the batch is written *)
      match wpc (ep (pp j) true) with
      | WIdle => option_map (fun r' => w_batch (if Response.up (rr j) then 0 else batch j)%nat (w_rr r' j)) (Response.pstep true (rr j) l)
      | _ => None
      end
    | Response.PWriteQuit =>                  (* clientconn.go:650-652, 694-696 *)
      match wpc (ep (pp j) true) with WIdle => option_map (fun r' => w_rr r' j) (Response.pstep true (rr j) l) | _ => None end
    | _ => option_map (fun r' => w_rr r' j) (Response.pstep true (rr j) l)
    end
  | JReconnect =>
    match Response.pstep true (rr j) Response.PConnect with
    | Some r' => Some (mkCst Pair.pinit r' (ridGen j) (calls j) (waiting j) None 0 None (answers j) (past j ++ sent (pp j) true))
    | None => None
    end
  end.

(** a client that has just connected: clientconn.go:187-211 *)
Definition cinit : cst := mkCst Pair.pinit Response.pinit 0 [] [] None 0 None [] [].
