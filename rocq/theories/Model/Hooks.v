(** The callbacks of a server binding around its connections: OnAccept and OnClose (conf.go:19-25), with the handlers and
    SubFunc calls between them.  Server.Serve's accept loop (server.go:288-343) over any number of connections, each of which
    runs serve and readFrames as in Model/Serve.v; SubFunc (serveconn.go:385-391); the deferred end of serve
    (serveconn.go:150-163).
    Simplified: the callbacks return (a panic in OnAccept, OnClose or SubFunc ends the process); Accept errors and the
    throttle are left out (Model/Accept.v, Model/Throttle.v); a connection for which OnClose was called is not looked at any
    more (Close on it has no effect); a Close by another goroutine is [SLCancel] (Model/Lifecycle.v has its steps; C78 when
    OnKickCB panics). *)
From Verif Require Import Model.GoBase Model.Machine Model.Serve.
Open Scope N_scope.

(** Where a connection is: not accepted yet, OnAccept is being called (server.go:323), refused (324), refused and closed (326),
    serve was started (335-338), OnClose was called (328, serveconn.go:161) or would have been if it were set. *)
Inductive phase := PNone | PAsk | PNo | PNoClosed | PServe | PGone.

(** A connection (server.go:421-443) *)
Record hconn := mkHC {
  ph : phase;
  srv : sst;            (* serve, readFrames and the handlers *)
  insub : bool }.       (* readFrames is calling SubFunc: serveconn.go:388 *)

(** What happens to a connection, as the user's code sees it: accepted (server.go:294), OnAccept called and returned (323),
    a handler called or returned (serveconn.go:203, 217), SubFunc called and returned (388), Close has returned (server.go:326,
    serveconn.go:158), OnClose called (server.go:328, serveconn.go:161). *)
Inductive hvt :=
| VAccept (c : N)
| VAsk (c : N)
| VAnswer (c : N) (ok : bool)
| VHandler (c : N) (e : hev)
| VSub (c : N)
| VSubEnd (c : N)
| VClosed (c : N)
| VOnClose (c : N).

(** The accept loop and the connections, which are numbered in the order they are accepted: server.go:274-343 *)
Record hst := mkH {
  loop : option N;      (* the connection the accept loop is busy with: server.go:322-332 *)
  nextC : N;
  con : N -> hconn;
  log : list hvt }.     (* ghost: what happened, oldest first *)

(** The atomic actions: server.go:293-341, serveconn.go:145-225, 385-391 *)
Inductive hlabel :=
| HAccept                     (* Accept returned a connection: server.go:294 *)
| HAnswer (ok : bool)         (* OnAccept returned: server.go:323-324 *)
| HRefClose                   (* server.go:326 *)
| HRefNotify                  (* server.go:327-330 *)
| HConn (c : N) (l : slabel)  (* serve, readFrames and the handlers of c *)
| HSub (c : N)                (* readFrames got a pushed frame and calls SubFunc: serveconn.go:385-388 *)
| HSubEnd (c : N)             (* SubFunc returns *)
| HOnClose (c : N).           (* sc.wg.Wait() returned: serveconn.go:159-162 *)

(** no connection yet *)
Definition hinit : hst := mkH None 0 (fun _ => mkHC PNone sinit false) [].

(** setter of one connection, with what happened (no counterpart in /repo) *)
Definition put (s : hst) (c : N) (h : hconn) (es : list hvt) : hst := mkH (loop s) (nextC s) (upd (con s) c h) (log s ++ es).

(** the reader's own actions wait while it is in SubFunc: serveconn.go:388 *)
Definition readerAct (l : slabel) : bool := match l with SLRead _ | SLReadErr | SLRdDone => true | _ => false end.

(** the handler calls and returns of a step, and serve's Close: serveconn.go:158, 203, 217 *)
Definition news (c : N) (l : slabel) (s s' : sst) : list hvt :=
  map (VHandler c) (skipn (length (evs s)) (evs s')) ++ (match l with SLSvClose => [VClosed c] | _ => [] end).

(** sc.wg.Wait() in serve's deferred function has nothing to wait for: readFrames and all handlers returned.
    serveconn.go:158-159 *)
Definition allBack (h : hconn) : bool :=
  match rd (srv h), sv (srv h), spawned (srv h), running (srv h) with RExit, SClosed, [], [] => true | _, _, _, _ => false end.

(** One action.  [hasA], [hasC]: OnAccept, OnClose are set.  The lines are given case by case. *)
Definition hstep (K : nat) (lim : option Z) (hasA hasC : bool) (s : hst) (l : hlabel) : option hst :=
  match l with
  | HAccept =>                         (* server.go:294, 322, 335-338 *)
    match loop s with
    | None =>
      let c := nextC s in
      Some (mkH (if hasA then Some c else None) (c + 1) (upd (con s) c (mkHC (if hasA then PAsk else PServe) sinit false))
                (log s ++ VAccept c :: (if hasA then [VAsk c] else [])))
    | Some _ => None
    end
  | HAnswer ok =>
    match loop s with
    | Some c =>
      match ph (con s c) with
      | PAsk => Some (mkH (if ok then None else Some c) (nextC s) (upd (con s) c (mkHC (if ok then PServe else PNo) sinit false))
                          (log s ++ [VAnswer c ok]))
      | _ => None
      end
    | None => None
    end
  | HRefClose =>
    match loop s with
    | Some c => match ph (con s c) with PNo => Some (put s c (mkHC PNoClosed sinit false) [VClosed c]) | _ => None end
    | None => None
    end
  | HRefNotify =>
    match loop s with
    | Some c =>
      match ph (con s c) with
      | PNoClosed => Some (mkH None (nextC s) (upd (con s) c (mkHC PGone sinit false)) (log s ++ if hasC then [VOnClose c] else []))
      | _ => None
      end
    | None => None
    end
  | HConn c l =>
    let h := con s c in
    match ph h with
    | PServe =>
      if insub h && readerAct l then None
      else match sstep K lim (srv h) l with
           | Some v => Some (put s c (mkHC PServe v (insub h)) (news c l (srv h) v))
           | None => None
           end
    | _ => None
    end
  | HSub c =>
    let h := con s c in
    match ph h, insub h, rd (srv h) with
    | PServe, false, RRead => Some (put s c (mkHC PServe (srv h) true) [VSub c])
    | _, _, _ => None
    end
  | HSubEnd c =>
    let h := con s c in
    match ph h, insub h with
    | PServe, true => Some (put s c (mkHC PServe (srv h) false) [VSubEnd c])
    | _, _ => None
    end
  | HOnClose c =>
    let h := con s c in
    match ph h with
    | PServe => if allBack h then Some (put s c (mkHC PGone (srv h) false) (if hasC then [VOnClose c] else [])) else None
    | _ => None
    end
  end.
