(** The pool of write requests that all connections of a process share, server side and client side (serveconn.go:448-450): EndWrite takes
    one, hands it to whoever writes for the connection, waits for the result in it, and gives it back.
    Simplified: the one that writes for a connection (the holder of the write lock on the server, writeFrames on the client) is taken as
    one batcher per connection, and which result a frame gets is left open here (Model/WriteCombine.v, Model/ClientWrite.v); a call that gives
    up may do so at any time; a frame stands for its call (its bytes, and the reuse of its writer after giving up, are in Model/BufReuse.v); sync.Pool hands out any of its elements or makes a new one, and may drop elements; ErrNoNewUUID is left
    out (ids never collide: C09). *)
From Verif Require Import Model.GoBase Model.Machine.
Open Scope N_scope.

(** A call of EndWrite for frame f on connection c: not begun; has a request (serveconn.go:453); has filled it in (454-458); has queued it
    (461); has received the result (474, 527, 532); has returned it; has given up (463, 484, 537) *)
Inductive wpc := WNew | WGot (c p : N) | WHas (c p : N) | WSent (c p : N) | WRecv (c p v : N) | WEnd (v : N) | WGone.

(** writeFrameRequest: the frame writer, by its frame, and the channel of capacity 1 (serveconn.go:307-310, 449) *)
Record wfr := mkW { w_dfw : option N; w_res : option N }.

(** The requests; wfrPool; how many were made; writeFrameCh and cachedRequests (with the frame that was put in cachedBuffs) of each
    connection; the calls; ghost: the result that was decided for each frame, the frames queued and taken from the queue *)
Record wst := mkQ {
  heap : N -> wfr; pool : list N; made : N;
  queue : N -> list N; batch : N -> list (N * N);
  pcs : N -> wpc;
  fate : N -> option N; enq : N -> list N; coll : N -> list N }.

(** Nothing begun (serveconn.go:448-450) *)
Definition winit : wst := mkQ (fun _ => mkW None None) [] 0 (fun _ => []) (fun _ => []) (fun _ => WNew) (fun _ => None) (fun _ => []) (fun _ => []).

(** The atomic actions.  The lines are of serveconn.go; clientconn.go has the same at 382-416, 599-772 *)
Inductive wlabel :=
| LGet (f c : N) (o : option N)   (* wfrPool.Get: an element, or a new one.  453 *)
| LInit (f : N)                   (* wfr.dfw = dfw; empty the channel.  454-458 *)
| LEnq (f : N)                    (* writeFrameCh <- wfr.  461 *)
| LGiveUp (f : N)                 (* the connection is closed: return without Put.  462-463, 482-484, 536-537 *)
| LCollect (c : N)                (* res = <-writeFrameCh; cachedBuffs gets the frame of res.dfw.  632-670 *)
| LAnswer (c p v : N)             (* request.result <- v.  562, 602-617, 640-664 *)
| LRecv (f : N)                   (* <-wfr.result.  473, 527, 532 *)
| LPut (f : N)                    (* wfr.dfw = nil; Put; return.  474-476, 528-530, 533-535 *)
| LDrop (p : N).                  (* sync.Pool lets an element go *)

(** call f goes on to q (serveconn.go:452-540) *)
Definition wgo (s : wst) (f : N) (q : wpc) : wst := mkQ (heap s) (pool s) (made s) (queue s) (batch s) (upd (pcs s) f q) (fate s) (enq s) (coll s).

(** the frame of request p in a batch (serveconn.go:669-670) *)
Fixpoint frameIn (p : N) (b : list (N * N)) : option N :=
  match b with [] => None | (q, f) :: r => if q =? p then Some f else frameIn p r end.
(** the batch without request p: it has been answered (serveconn.go:602-617) *)
Definition without (p : N) (b : list (N * N)) : list (N * N) := filter (fun x => negb (fst x =? p)) b.

(** One action.  The lines are given in [wlabel]. *)
Definition wstep (s : wst) (l : wlabel) : option wst :=
  match l with
  | LGet f c o =>
    match pcs s f, o with
    | WNew, Some p =>
      if existsb (N.eqb p) (pool s) then Some (mkQ (heap s) (remove N.eq_dec p (pool s)) (made s) (queue s) (batch s) (upd (pcs s) f (WGot c p)) (fate s) (enq s) (coll s)) else None
    | WNew, None =>
      Some (mkQ (upd (heap s) (made s) (mkW None None)) (pool s) (made s + 1) (queue s) (batch s) (upd (pcs s) f (WGot c (made s))) (fate s) (enq s) (coll s))
    | _, _ => None
    end
  | LInit f =>
    match pcs s f with
    | WGot c p => Some (mkQ (upd (heap s) p (mkW (Some f) None)) (pool s) (made s) (queue s) (batch s) (upd (pcs s) f (WHas c p)) (fate s) (enq s) (coll s))
    | _ => None
    end
  | LEnq f =>
    match pcs s f with
    | WHas c p =>
      Some (mkQ (heap s) (pool s) (made s) (upd (queue s) c (queue s c ++ [p])) (batch s) (upd (pcs s) f (WSent c p)) (fate s) (upd (enq s) c (enq s c ++ [f])) (coll s))
    | _ => None
    end
  | LGiveUp f =>
    match pcs s f with
    | WHas _ _ | WSent _ _ => Some (wgo s f WGone)
    | _ => None
    end
  | LCollect c =>
    match queue s c with
    | p :: r =>
      match w_dfw (heap s p) with
      | Some f => Some (mkQ (heap s) (pool s) (made s) (upd (queue s) c r) (upd (batch s) c (batch s c ++ [(p, f)])) (pcs s) (fate s) (enq s) (upd (coll s) c (coll s c ++ [f])))
      | None => None
      end
    | [] => None
    end
  | LAnswer c p v =>
    match frameIn p (batch s c), w_res (heap s p) with
    | Some f, None =>
      Some (mkQ (upd (heap s) p (mkW (w_dfw (heap s p)) (Some v))) (pool s) (made s) (queue s) (upd (batch s) c (without p (batch s c))) (pcs s) (upd (fate s) f (Some v)) (enq s) (coll s))
    | _, _ => None
    end
  | LRecv f =>
    match pcs s f with
    | WSent c p =>
      match w_res (heap s p) with
      | Some v => Some (mkQ (upd (heap s) p (mkW (w_dfw (heap s p)) None)) (pool s) (made s) (queue s) (batch s) (upd (pcs s) f (WRecv c p v)) (fate s) (enq s) (coll s))
      | None => None
      end
    | _ => None
    end
  | LPut f =>
    match pcs s f with
    | WRecv c p v => Some (mkQ (upd (heap s) p (mkW None (w_res (heap s p)))) (p :: pool s) (made s) (queue s) (batch s) (upd (pcs s) f (WEnd v)) (fate s) (enq s) (coll s))
    | _ => None
    end
  | LDrop p => Some (mkQ (heap s) (remove N.eq_dec p (pool s)) (made s) (queue s) (batch s) (pcs s) (fate s) (enq s) (coll s))
  end.
