(** Model of the life cycle of server connections: ConnectionInfo.SetID and NotifyWhenClose, serveconn.Close and
    closeUntracked (serveconn.go), Server.bindID and untrack (server.go), for one binding, any number of
    connections and goroutines.  Connections, ids and functions are numbers.

    Not modelled here: the pending responses closed by closeUntracked (Model/Response.v), the close rate limiter,
    metrics, kickOrder, the result of rwc.Close.  OnKickCB and the notify functions are calls that return; what
    else they do is not modelled (an OnKickCB that calls Close on the connection it is given would wait for
    itself). *)
From Verif Require Import Model.GoBase Model.Machine.
Open Scope N_scope.

(** What follows untrack + closeUntracked: Close returns (serveconn.go:765), or bindID tries again for
    connection c and id i (server.go:484). *)
Inductive cont := CRet | CBind (c i : N).

(** Where a goroutine is: about to do the action named.  [k]: kicked. *)
Inductive lpc :=
| LIdle
| LBind (c i : N)                             (* LoadOrStore, server.go:455 *)
| LCas (c : N) (k : bool) (ct : cont)         (* server.go:493 *)
| LGetID (c : N) (k : bool) (ct : cont)       (* server.go:499 *)
| LDelID (c i : N) (k : bool) (ct : cont)     (* server.go:501 *)
| LDelAct (c : N) (k : bool) (ct : cont)      (* server.go:503 *)
| LKickCB (c : N) (ct : cont)                 (* server.go:505-509, OnKickCB set *)
| LCloseCh (c : N) (ct : cont)                (* server.go:510 *)
| LWaitCh (c : N) (ct : cont)                 (* <-ch: server.go:464, serveconn.go:763 *)
| LLock (c : N) (ct : cont)                   (* serveconn.go:771-784 *)
| LCancel (c : N) (todo : list N) (ct : cont) (* serveconn.go:786 *)
| LNotify (c : N) (todo : list N) (ct : cont) (* serveconn.go:790-792 *)
| LLate (c f : N).                            (* NotifyWhenClose calls f itself: serveconn.go:127 *)

(** server.go:127-147 (id2Conn, activeConn), serveconn.go:57-75 (untrack, untrackedCh, ConnectionInfo) and ghosts. *)
Record lst := mkL {
  id2 : N -> option N;       (* srv.id2Conn[idx] *)
  cid : N -> option N;       (* ci.id, None: "" *)
  untr : N -> bool;          (* sc.untrack <> 0, IsClosed() *)
  utch : N -> bool;          (* sc.untrackedCh closed *)
  act : N -> bool;           (* in srv.activeConn[idx] *)
  clsd : N -> bool;          (* ci.closed *)
  ctxd : N -> bool;          (* context cancelled *)
  nfy : N -> list N;         (* ci.closeNotify *)
  lp : N -> lpc;
  bound : N -> bool;         (* ghost: SetID on the connection got past LoadOrStore *)
  kickedBy : N -> option N;  (* ghost: the connection whose SetID won the CAS *)
  kl : N -> list N;          (* ghost: connections the goroutine's SetID call went after, newest first *)
  regs : N -> N -> nat;      (* ghost: how often f was passed to NotifyWhenClose of c *)
  ran : N -> N -> nat;       (* how often it was called *)
  cbs : N -> nat;            (* calls of OnKickCB for c *)
  dclose : bool }.           (* untrackedCh closed twice: panic *)

(** newConn (server.go:421-443): in activeConn, no id, open. *)
Definition linit : lst :=
  mkL (fun _ => None) (fun _ => None) (fun _ => false) (fun _ => false) (fun _ => true) (fun _ => false) (fun _ => false)
      (fun _ => []) (fun _ => LIdle) (fun _ => false) (fun _ => None) (fun _ => []) (fun _ _ => 0%nat) (fun _ _ => 0%nat)
      (fun _ => 0%nat) false.

(** The calls goroutines make, and one step of a goroutine: server.go:450-513, serveconn.go:96-133, 755-795. *)
Inductive llabel :=
| LSetID (g c i : N)     (* SetID: serveconn.go:96-108 *)
| LClose (g c : N)       (* Close: serveconn.go:755-761 *)
| LReg (g c f : N)       (* NotifyWhenClose: serveconn.go:122-133 *)
| LG (g : N).            (* goroutine g does its next action *)

(** setter (no counterpart in /repo). *)
Definition setp (s : lst) (g : N) (p : lpc) : lst :=
  mkL (id2 s) (cid s) (untr s) (utch s) (act s) (clsd s) (ctxd s) (nfy s) (upd (lp s) g p) (bound s) (kickedBy s) (kl s)
      (regs s) (ran s) (cbs s) (dclose s).

(** what bindID and Close do when closeUntracked returned *)
Definition resume (ct : cont) : lpc := match ct with CRet => LIdle | CBind c i => LBind c i end.

(** call f registered on c *)
Definition call (r : N -> N -> nat) (c f : N) : N -> N -> nat := upd r c (upd (r c) f (S (r c f))).

(** The next action of goroutine g: server.go:450-513, serveconn.go:755-795. *)
Definition gstep (s : lst) (g : N) : option lst :=
  match lp s g with
  | LIdle => None
  | LBind c i =>
    match id2 s i with
    | None =>
      Some (mkL (upd (id2 s) i (Some c)) (cid s) (untr s) (utch s) (act s) (clsd s) (ctxd s) (nfy s) (upd (lp s) g LIdle)
                (upd (bound s) c true) (kickedBy s) (kl s) (regs s) (ran s) (cbs s) (dclose s))
    | Some v =>
      if v =? c then Some (setp s g LIdle)
      else Some (mkL (id2 s) (cid s) (untr s) (utch s) (act s) (clsd s) (ctxd s) (nfy s) (upd (lp s) g (LCas v true (CBind c i)))
                     (bound s) (kickedBy s) (upd (kl s) g (v :: kl s g)) (regs s) (ran s) (cbs s) (dclose s))
    end
  | LCas c k ct =>
    if untr s c then Some (setp s g (LWaitCh c ct))
    else Some (mkL (id2 s) (cid s) (upd (untr s) c true) (utch s) (act s) (clsd s) (ctxd s) (nfy s) (upd (lp s) g (LGetID c k ct))
                   (bound s) (match ct with CBind c' _ => upd (kickedBy s) c (Some c') | CRet => kickedBy s end)
                   (kl s) (regs s) (ran s) (cbs s) (dclose s))
  | LGetID c k ct =>
    match cid s c with
    | Some i => Some (setp s g (LDelID c i k ct))
    | None => Some (setp s g (LDelAct c k ct))
    end
  | LDelID c i k ct =>
    Some (mkL (upd (id2 s) i None) (cid s) (untr s) (utch s) (act s) (clsd s) (ctxd s) (nfy s) (upd (lp s) g (LDelAct c k ct))
              (bound s) (kickedBy s) (kl s) (regs s) (ran s) (cbs s) (dclose s))
  | LDelAct c k ct =>
    Some (mkL (id2 s) (cid s) (untr s) (utch s) (upd (act s) c false) (clsd s) (ctxd s) (nfy s)
              (upd (lp s) g (if k then LKickCB c ct else LCloseCh c ct))
              (bound s) (kickedBy s) (kl s) (regs s) (ran s) (cbs s) (dclose s))
  | LKickCB c ct =>
    Some (mkL (id2 s) (cid s) (untr s) (utch s) (act s) (clsd s) (ctxd s) (nfy s) (upd (lp s) g (LCloseCh c ct))
              (bound s) (kickedBy s) (kl s) (regs s) (ran s) (upd (cbs s) c (S (cbs s c))) (dclose s))
  | LCloseCh c ct =>
    Some (mkL (id2 s) (cid s) (untr s) (upd (utch s) c true) (act s) (clsd s) (ctxd s) (nfy s) (upd (lp s) g (LLock c ct))
              (bound s) (kickedBy s) (kl s) (regs s) (ran s) (cbs s) (dclose s || utch s c))
  | LWaitCh c ct => if utch s c then Some (setp s g (LLock c ct)) else None
  | LLock c ct =>
    if clsd s c then Some (setp s g (resume ct))
    else Some (mkL (id2 s) (cid s) (untr s) (utch s) (act s) (upd (clsd s) c true) (ctxd s) (upd (nfy s) c [])
                   (upd (lp s) g (LCancel c (nfy s c) ct))
                   (bound s) (kickedBy s) (kl s) (regs s) (ran s) (cbs s) (dclose s))
  | LCancel c todo ct =>
    Some (mkL (id2 s) (cid s) (untr s) (utch s) (act s) (clsd s) (upd (ctxd s) c true) (nfy s) (upd (lp s) g (LNotify c todo ct))
              (bound s) (kickedBy s) (kl s) (regs s) (ran s) (cbs s) (dclose s))
  | LNotify c [] ct => Some (setp s g (resume ct))
  | LNotify c (f :: fs) ct =>
    Some (mkL (id2 s) (cid s) (untr s) (utch s) (act s) (clsd s) (ctxd s) (nfy s) (upd (lp s) g (LNotify c fs ct))
              (bound s) (kickedBy s) (kl s) (regs s) (call (ran s) c f) (cbs s) (dclose s))
  | LLate c f =>
    Some (mkL (id2 s) (cid s) (untr s) (utch s) (act s) (clsd s) (ctxd s) (nfy s) (upd (lp s) g LIdle)
              (bound s) (kickedBy s) (kl s) (regs s) (call (ran s) c f) (cbs s) (dclose s))
  end.

(** One action: server.go:450-513, serveconn.go:96-133, 755-795. *)
Definition lstep (s : lst) (l : llabel) : option lst :=
  match l with
  | LSetID g c i =>
    match lp s g with
    | LIdle =>
      match cid s c with
      | Some _ => Some s            (* panics before changing anything: serveconn.go:101-104 *)
      | None =>
        Some (mkL (id2 s) (upd (cid s) c (Some i)) (untr s) (utch s) (act s) (clsd s) (ctxd s) (nfy s) (upd (lp s) g (LBind c i))
                  (bound s) (kickedBy s) (upd (kl s) g []) (regs s) (ran s) (cbs s) (dclose s))
      end
    | _ => None
    end
  | LClose g c => match lp s g with LIdle => Some (setp s g (LCas c false CRet)) | _ => None end
  | LReg g c f =>
    match lp s g with
    | LIdle =>
      if clsd s c then
        Some (mkL (id2 s) (cid s) (untr s) (utch s) (act s) (clsd s) (ctxd s) (nfy s) (upd (lp s) g (LLate c f))
                  (bound s) (kickedBy s) (kl s) (call (regs s) c f) (ran s) (cbs s) (dclose s))
      else
        Some (mkL (id2 s) (cid s) (untr s) (utch s) (act s) (clsd s) (ctxd s) (upd (nfy s) c (nfy s c ++ [f])) (lp s)
                  (bound s) (kickedBy s) (kl s) (call (regs s) c f) (ran s) (cbs s) (dclose s))
    | _ => None
    end
  | LG g => gstep s g
  end.

(** The same machine for programs that keep SetID and Close of one connection apart: SetID is not called on a
    connection that is being closed, and no goroutine starts to untrack a connection while SetID on it is
    between setting the id and binding it. *)
Definition lstepR (s : lst) (l : llabel) : option lst :=
  match l with
  | LSetID g c i => if untr s c then None else lstep s l
  | LG g =>
    match lp s g with
    | LCas c _ _ => if match cid s c with Some _ => negb (bound s c) | None => false end then None else gstep s g
    | _ => gstep s g
    end
  | _ => lstep s l
  end.
