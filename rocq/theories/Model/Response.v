(** Model of the Responses of one connection: the table of pending Responses shared by callers, the writer, the
    reader and the closer.  One machine for both ends; [isClient] selects the client (clientconn.go) or the
    server (serveconn.go) where they differ.

    Modelled: response (clientconn.go:61-97), writeFirstFrame with a Response (clientconn.go:351-374,
    serveconn.go:728-752), the fate of its request in writeFrameBytes and writeBuffers (clientconn.go:380-418,
    715-772, serveconn.go:542-620), the dispatch of frames read (clientconn.go:477-546, serveconn.go:363-412 and the
    part of framereader.go:41-75 that decides what is returned), closeRWC (clientconn.go:428-443), closeUntracked
    (serveconn.go:769-795), connect after a lost connection (clientconn.go:283-292) and loop (clientconn.go:213-249).

    Simplified: frames without a Response are left out (they touch none of this state; on the server a batch
    without any skips the closed check at serveconn.go:559); request ids are arbitrary instead of counted, so that equal
    ids (ErrNoNewUUID) are covered; the caller may give up at any time ([PAbort], in the code only when the loop
    context is done); any goroutine may close at any time; the pool of write requests is left out.  Which result
    a write gives is up to the environment; which frames are first in their stream is decided by [bound]
    (TryBind, see Model/Stream.v). *)
From Verif Require Import Model.GoBase Model.Qrpc Model.FrameReader Model.Machine.
Open Scope N_scope.

(** The writer: writeFrames (clientconn.go:574-592) or the holder of wlockCh (serveconn.go:466-530).
    [WCollect l]: l in cachedRequests (collectWriteFrames).
    [WWrite l]: l is registered, writing (clientconn.go:746, serveconn.go:587).
    [WAnswer a e]: sending the results a (clientconn.go:754-769, serveconn.go:602-617); e: the write failed. *)
Inductive wphase := WCollect (l : list N) | WWrite (l : list N) | WAnswer (a : list (N * bool)) (e : bool).

(** clientconn.go:42-58 and serveconn.go:66-75 (the table of Responses), the Responses, and the two goroutines using them. *)
Record pst := mkP {
  up : bool; (* client: conn.rwc <> nil; server: not ci.closed *)
  tab : list (N * N); (* conn.respes / ci.respes: request id, Response *)
  closing : list N; (* Responses a close has taken and not closed yet *)
  nextR : N; (* Responses made so far *)
  rid : N -> N; (* the request id of a Response's request *)
  chanF : N -> list Frame; (* the buffered frame in response.Frame *)
  chanClosed : N -> bool; (* response.Frame is closed *)
  sends : N -> nat; (* ghost: frames sent to response.Frame *)
  closes : N -> nat; (* ghost: Close calls on the Response *)
  res : N -> option bool; (* what Request returned: None not yet, Some true without error *)
  queue : list N; (* in writeFrameCh *)
  wph : wphase; (* the writer *)
  wAlive : bool; (* client: writeFrames running; server: wlockCh can still be taken *)
  rdAlive : bool; (* readFrames running *)
  hand : option (N * Frame); (* reader between delete(respes, id) and resp.SetResponse / Close *)
  reg : N -> bool; (* ghost: the Response has been put in the table *)
  gots : N -> list (option Frame); (* results of GetFrame calls, newest first; None: ErrStreamClosed *)
  panic : bool }. (* close of closed channel or send on closed channel *)

(** setters of the record above (no counterpart in /repo) *)
Definition p_up (v : bool) (s : pst) : pst := mkP v (tab s) (closing s) (nextR s) (rid s) (chanF s) (chanClosed s) (sends s) (closes s) (res s) (queue s) (wph s) (wAlive s) (rdAlive s) (hand s) (reg s) (gots s) (panic s).
(** setter of a field of [pst] (no counterpart in /repo) *)
Definition p_tab (v : list (N * N)) (s : pst) : pst := mkP (up s) v (closing s) (nextR s) (rid s) (chanF s) (chanClosed s) (sends s) (closes s) (res s) (queue s) (wph s) (wAlive s) (rdAlive s) (hand s) (reg s) (gots s) (panic s).
(** setter of a field of [pst] (no counterpart in /repo) *)
Definition p_closing (v : list N) (s : pst) : pst := mkP (up s) (tab s) v (nextR s) (rid s) (chanF s) (chanClosed s) (sends s) (closes s) (res s) (queue s) (wph s) (wAlive s) (rdAlive s) (hand s) (reg s) (gots s) (panic s).
(** setter of a field of [pst] (no counterpart in /repo) *)
Definition p_nextR (v : N) (s : pst) : pst := mkP (up s) (tab s) (closing s) v (rid s) (chanF s) (chanClosed s) (sends s) (closes s) (res s) (queue s) (wph s) (wAlive s) (rdAlive s) (hand s) (reg s) (gots s) (panic s).
(** setter of a field of [pst] (no counterpart in /repo) *)
Definition p_rid (v : N -> N) (s : pst) : pst := mkP (up s) (tab s) (closing s) (nextR s) v (chanF s) (chanClosed s) (sends s) (closes s) (res s) (queue s) (wph s) (wAlive s) (rdAlive s) (hand s) (reg s) (gots s) (panic s).
(** setter of a field of [pst] (no counterpart in /repo) *)
Definition p_chanF (v : N -> list Frame) (s : pst) : pst := mkP (up s) (tab s) (closing s) (nextR s) (rid s) v (chanClosed s) (sends s) (closes s) (res s) (queue s) (wph s) (wAlive s) (rdAlive s) (hand s) (reg s) (gots s) (panic s).
(** setter of a field of [pst] (no counterpart in /repo) *)
Definition p_chanClosed (v : N -> bool) (s : pst) : pst := mkP (up s) (tab s) (closing s) (nextR s) (rid s) (chanF s) v (sends s) (closes s) (res s) (queue s) (wph s) (wAlive s) (rdAlive s) (hand s) (reg s) (gots s) (panic s).
(** setter of a field of [pst] (no counterpart in /repo) *)
Definition p_sends (v : N -> nat) (s : pst) : pst := mkP (up s) (tab s) (closing s) (nextR s) (rid s) (chanF s) (chanClosed s) v (closes s) (res s) (queue s) (wph s) (wAlive s) (rdAlive s) (hand s) (reg s) (gots s) (panic s).
(** setter of a field of [pst] (no counterpart in /repo) *)
Definition p_closes (v : N -> nat) (s : pst) : pst := mkP (up s) (tab s) (closing s) (nextR s) (rid s) (chanF s) (chanClosed s) (sends s) v (res s) (queue s) (wph s) (wAlive s) (rdAlive s) (hand s) (reg s) (gots s) (panic s).
(** setter of a field of [pst] (no counterpart in /repo) *)
Definition p_res (v : N -> option bool) (s : pst) : pst := mkP (up s) (tab s) (closing s) (nextR s) (rid s) (chanF s) (chanClosed s) (sends s) (closes s) v (queue s) (wph s) (wAlive s) (rdAlive s) (hand s) (reg s) (gots s) (panic s).
(** setter of a field of [pst] (no counterpart in /repo) *)
Definition p_queue (v : list N) (s : pst) : pst := mkP (up s) (tab s) (closing s) (nextR s) (rid s) (chanF s) (chanClosed s) (sends s) (closes s) (res s) v (wph s) (wAlive s) (rdAlive s) (hand s) (reg s) (gots s) (panic s).
(** setter of a field of [pst] (no counterpart in /repo) *)
Definition p_wph (v : wphase) (s : pst) : pst := mkP (up s) (tab s) (closing s) (nextR s) (rid s) (chanF s) (chanClosed s) (sends s) (closes s) (res s) (queue s) v (wAlive s) (rdAlive s) (hand s) (reg s) (gots s) (panic s).
(** setter of a field of [pst] (no counterpart in /repo) *)
Definition p_wAlive (v : bool) (s : pst) : pst := mkP (up s) (tab s) (closing s) (nextR s) (rid s) (chanF s) (chanClosed s) (sends s) (closes s) (res s) (queue s) (wph s) v (rdAlive s) (hand s) (reg s) (gots s) (panic s).
(** setter of a field of [pst] (no counterpart in /repo) *)
Definition p_rdAlive (v : bool) (s : pst) : pst := mkP (up s) (tab s) (closing s) (nextR s) (rid s) (chanF s) (chanClosed s) (sends s) (closes s) (res s) (queue s) (wph s) (wAlive s) v (hand s) (reg s) (gots s) (panic s).
(** setter of a field of [pst] (no counterpart in /repo) *)
Definition p_hand (v : option (N * Frame)) (s : pst) : pst := mkP (up s) (tab s) (closing s) (nextR s) (rid s) (chanF s) (chanClosed s) (sends s) (closes s) (res s) (queue s) (wph s) (wAlive s) (rdAlive s) v (reg s) (gots s) (panic s).
(** setter of a field of [pst] (no counterpart in /repo) *)
Definition p_reg (v : N -> bool) (s : pst) : pst := mkP (up s) (tab s) (closing s) (nextR s) (rid s) (chanF s) (chanClosed s) (sends s) (closes s) (res s) (queue s) (wph s) (wAlive s) (rdAlive s) (hand s) v (gots s) (panic s).
(** setter of a field of [pst] (no counterpart in /repo) *)
Definition p_gots (v : N -> list (option Frame)) (s : pst) : pst := mkP (up s) (tab s) (closing s) (nextR s) (rid s) (chanF s) (chanClosed s) (sends s) (closes s) (res s) (queue s) (wph s) (wAlive s) (rdAlive s) (hand s) (reg s) v (panic s).
(** setter of a field of [pst] (no counterpart in /repo) *)
Definition p_panic (v : bool) (s : pst) : pst := mkP (up s) (tab s) (closing s) (nextR s) (rid s) (chanF s) (chanClosed s) (sends s) (closes s) (res s) (queue s) (wph s) (wAlive s) (rdAlive s) (hand s) (reg s) (gots s) v.

(** Go map lookup / delete on the table (clientconn.go:505, 536, 733; serveconn.go:396-399, 572) *)
Definition tget (t : list (N * N)) (id : N) : option N :=
  match find (fun p => fst p =? id) t with Some p => Some (snd p) | None => None end.
(** delete(respes, id): clientconn.go:536, serveconn.go:398. *)
Definition tdel (t : list (N * N)) (id : N) : list (N * N) := filter (fun p => negb (fst p =? id)) t.

(** a result put in a write request's channel: it is what Request returns, unless the caller has already left
    (clientconn.go:393-416, serveconn.go:460-538) *)
Definition answer (r : N) (ok : bool) (s : pst) : pst :=
  match res s r with None => p_res (upd (res s) r (Some ok)) s | Some _ => s end.

(** clientconn.go:725-727, 754-769, serveconn.go:561-563, 602-617: results for several requests. *)
Definition answerAll (rs : list N) (ok : bool) (s : pst) : pst := fold_left (fun s r => answer r ok s) rs s.

(** clientconn.go:730-742, serveconn.go:569-580: the registration loop, under the lock.  Returns the state and the
    requests that go on to be written. *)
Fixpoint register (l : list N) (s : pst) : pst * list N :=
  match l with
  | [] => (s, [])
  | r :: l =>
    match tget (tab s) (rid s r) with
    | Some _ => register l (answer r false s)  (* ErrNoNewUUID *)
    | None => let '(s', l') := register l (p_reg (upd (reg s) r true) (p_tab ((rid s r, r) :: tab s) s)) in (s', r :: l')
    end
  end.

(** clientconn.go:95-97 Close: close(r.Frame) *)
Definition respClose (r : N) (s : pst) : pst :=
  let s := p_closes (upd (closes s) r (S (closes s r))) s in
  if chanClosed s r then p_panic true s else p_chanClosed (upd (chanClosed s) r true) s.

(** clientconn.go:91-93 SetResponse: r.Frame <- frame; capacity 1; blocks when full *)
Definition respSet (r : N) (f : Frame) (s : pst) : option pst :=
  let s' := p_sends (upd (sends s) r (S (sends s r))) s in
  if chanClosed s r then Some (p_panic true s')
  else match chanF s r with
       | [] => Some (p_chanF (upd (chanF s) r [f]) s')
       | _ => None
       end.

(** clientconn.go:187-211, server.go:421-443: a new connection. *)
Definition pinit : pst :=
  mkP true [] [] 0 (fun _ => 0) (fun _ => []) (fun _ => false) (fun _ => 0%nat) (fun _ => 0%nat) (fun _ => None) []
      (WCollect []) true true None (fun _ => false) (fun _ => []) false.

(** framereader.go:41-75: the frames ReadFrame returns; a reset is handled inside and never returned. *)
Definition returned (f : Frame) (bound : bool) : bool := negb (IsRst (fFlags f)) && bound.

(** The frames whose id is looked up among the Responses: clientconn.go:494-505, serveconn.go:385-396. *)
Definition looksUp (isClient : bool) (f : Frame) : bool :=
  negb (IsPush (fFlags f)) && (isClient || FromServer (fRequestID f)).

(** The atomic actions; see the functions listed above. *)
Inductive plabel :=
| PRequest (id : N)          (* Request / StreamRequest: makes a Response and queues the request *)
| PCollect (r : N)           (* the writer takes r from the channel and keeps it *)
| PReject (r : N)            (* the writer takes r and answers it with an error: clientconn.go:614-645, serveconn.go:637-667 *)
| PRegister                  (* writeBuffers up to the write *)
| PWrite                     (* the write succeeds *)
| PWriteErr (w : N -> bool)  (* it fails; w: requests whose buffer had been written completely *)
| PAnswer                    (* the writer sends the next result *)
| PAbort (r : N)             (* the caller leaves with an error *)
| PFrame (f : Frame) (bound : bool) (* the reader reads a frame and looks it up *)
| PHand                      (* the reader passes it to the Response *)
| PReadQuit                  (* readFrames returns *)
| PWriteQuit                 (* writeFrames returns: clientconn.go:650-652 *)
| PClose                     (* closeRWC / closeUntracked up to the loop over the table *)
| PCloseOne                  (* v.Close() for the next Response taken *)
| PConnect                   (* loop and connect: clientconn.go:240-292 *)
| PGet (r : N).              (* GetFrame returns: clientconn.go:71-77 *)

(** list removal (no counterpart in /repo). *)
Definition remove1 (r : N) (l : list N) : list N := filter (fun x => negb (x =? r)) l.

(** One action; the lines are given above and case by case. *)
Definition pstep (isClient : bool) (s : pst) (l : plabel) : option pst :=
  (* the client closes the Responses inside the lock (clientconn.go:429-443), the server after it
     (serveconn.go:769-789) *)
  let lockFree := negb isClient || match closing s with [] => true | _ => false end in
  match l with
  | PRequest id =>
    Some (p_queue (queue s ++ [nextR s]) (p_rid (upd (rid s) (nextR s) id) (p_nextR (nextR s + 1) s)))
  | PCollect r =>
    match wph s with
    | WCollect b => if wAlive s && existsb (N.eqb r) (queue s) then Some (p_wph (WCollect (b ++ [r])) (p_queue (remove1 r (queue s)) s)) else None
    | _ => None
    end
  | PReject r =>
    match wph s with
    | WCollect b => if wAlive s && existsb (N.eqb r) (queue s) then Some (answer r false (p_queue (remove1 r (queue s)) s)) else None
    | _ => None
    end
  | PRegister =>
    match wph s with
    | WCollect b =>
      if wAlive s && lockFree then
        if up s then let '(s', b') := register b s in Some (p_wph (WWrite b') s')
        else Some (p_wph (WCollect []) (p_wAlive false (answerAll b false s)))
      else None
    | _ => None
    end
  | PWrite =>
    match wph s with
    | WWrite b => Some (p_wph (WAnswer (map (fun r => (r, true)) b) false) s)
    | _ => None
    end
  | PWriteErr w =>
    match wph s with
    | WWrite b => Some (p_wph (WAnswer (map (fun r => (r, w r)) b) true) s)
    | _ => None
    end
  | PAnswer =>
    match wph s with
    | WAnswer ((r, ok) :: a) e => Some (answer r ok (p_wph (WAnswer a e) s))
    | WAnswer [] e => Some (p_wph (WCollect []) (p_wAlive (wAlive s && negb e) s))
    | _ => None
    end
  | PAbort r => if r <? nextR s then Some (answer r false s) else None
  | PFrame f bound =>
    match hand s with
    | None =>
      if rdAlive s then
        if returned f bound && looksUp isClient f then
          if lockFree then
            match tget (tab s) (fRequestID f) with
            | Some r => Some (p_hand (Some (r, f)) (p_tab (tdel (tab s) (fRequestID f)) s))
            | None => if isClient && negb (up s) then Some (p_rdAlive false s) else Some s
            end
          else None
        else Some s
      else None
    | _ => None
    end
  | PHand =>
    match hand s with
    | Some (r, f) => if IsRst (fFlags f) then Some (p_hand None (respClose r s))
                     else match respSet r f s with Some s' => Some (p_hand None s') | None => None end
    | None => None
    end
  | PReadQuit => match hand s with None => Some (p_rdAlive false s) | _ => None end
  | PWriteQuit => match wph s with WCollect b => Some (p_wph (WCollect []) (p_wAlive false (answerAll b false s))) | _ => None end
  | PClose =>
    if lockFree then
      if up s then Some (p_up false (p_tab [] (p_closing (closing s ++ map snd (tab s)) s))) else Some s
    else None
  | PCloseOne =>
    match closing s with
    | r :: c => Some (respClose r (p_closing c s))
    | [] => None
    end
  | PConnect =>
    if isClient && negb (up s) && negb (rdAlive s) && negb (wAlive s) && lockFree
    then Some (p_up true (p_rdAlive true (p_wAlive true s))) else None
  | PGet r =>
    match res s r with
    | Some true =>
      match chanF s r with
      | f :: c => Some (p_gots (upd (gots s) r (Some f :: gots s r)) (p_chanF (upd (chanF s) r c) s))
      | [] => if chanClosed s r then Some (p_gots (upd (gots s) r (None :: gots s r)) s) else None
      end
    | _ => None
    end
  end.
