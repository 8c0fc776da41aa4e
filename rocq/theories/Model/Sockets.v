(** Model of what dialing does to sockets: clientconn.go dialTCP (117-150), NewConnection (99-115),
    NewConnectionWithReconnect (153-176), connect (258-305), closeRWC (429-444); clientconn_reuse.go:13-21
    NewReusedConnection; ws/client/conn.go:17-62 DialConn.  On top of the control flow of Model/Dial.v.

    Simplified: the outcome and the duration of each blocking call are given by the environment; local work takes no
    time; net.DialTimeout, tls.Conn.Handshake and websocket.Dialer.Dial are described by their contracts (they are not
    part of /repo): DialTimeout honours its timeout, Handshake has none, Dialer.Dial closes the socket when it fails and
    has no timeout because HandshakeTimeout is not set (ws/client/conn.go:21-48).  Of the overlay networks, only the
    repository's own one (websocket) is modelled. *)
From Verif Require Import Model.GoBase Model.Machine Model.Dial.
Open Scope nat_scope.

(** conf.go:81-86 DialConfig; time in nanoseconds *)
Record dialCfg := mkCfg { DialTimeout : Z; WBufSize : Z; RBufSize : Z; TLSConf : bool }.

(** What the environment decides about one dial: whether and after how long the TCP connection is made, whether the
    buffer options are taken, whether and after how long the TLS handshake and the websocket upgrade succeed.
    clientconn.go:118-141, ws/client/conn.go:22-52 *)
Record denv := mkEnv {
  eConn : bool; eConnT : N;
  eRb : bool; eWb : bool;
  eTls : bool; eTlsT : N;
  eUpg : bool; eUpgT : N }.

(** Observable socket operations: opening (clientconn.go:118), setting the buffer sizes (126, 132), a completed TLS
    handshake (140), closing (142, 436). *)
Inductive sev :=
| SOpen (s : nat)
| SRBuf (s : nat) (n : Z)
| SWBuf (s : nat) (n : Z)
| STls (s : nat)
| SClose (s : nat).

(** The process's sockets (operating system, not /repo): the next number and what was done so far, oldest first. *)
Record netst := mkNet { nxt : nat; slog : list sev }.

(** appends to the log (no counterpart in /repo) *)
Definition emit (n : netst) (es : list sev) : netst := mkNet (nxt n) (slog n ++ es).

(** net.DialTimeout (clientconn.go:118, ws/client/conn.go:24): connected or not, and the time taken.  Timeout 0 is
    none; a negative one has expired already. *)
Definition netDialTimeout (T : Z) (e : denv) : bool * Z :=
  if (T =? 0)%Z then (eConn e, Z.of_N (eConnT e))
  else if (T <? 0)%Z then (false, 0%Z)
  else if (Z.of_N (eConnT e) <=? T)%Z then (eConn e, Z.of_N (eConnT e)) else (false, T).

(** clientconn.go:125-136, ws/client/conn.go:29-44: the calls are made if the size is positive; an error is only logged
    ([eRb], [eWb] are therefore not looked at) *)
Definition setBufs (cfg : dialCfg) (s : nat) : list sev :=
  (if (RBufSize cfg >? 0)%Z then [SRBuf s (RBufSize cfg)] else []) ++
  (if (WBufSize cfg >? 0)%Z then [SWBuf s (WBufSize cfg)] else []).

(** A finished dial: the connection (its socket) or an error, the time taken, the sockets. *)
Record dialed := mkDialed { dConn : option nat; dTime : Z; dNet : netst }.

(** clientconn.go:117-150 *)
Definition dialTCP (cfg : dialCfg) (e : denv) (n : netst) : dialed :=
  let (ok, t) := netDialTimeout (DialTimeout cfg) e in
  if ok then
    let s := nxt n in
    let n1 := emit (mkNet (S s) (slog n)) (SOpen s :: setBufs cfg s) in
    if TLSConf cfg then
      let t' := (t + Z.of_N (eTlsT e))%Z in
      if eTls e then mkDialed (Some s) t' (emit n1 [STls s]) else mkDialed None t' (emit n1 [SClose s])
    else mkDialed (Some s) t n1
  else mkDialed None t n.

(** ws/client/conn.go:17-62: NetDial, then the TLS handshake (wss) and the upgrade inside websocket.Dialer.Dial *)
Definition DialConn (cfg : dialCfg) (e : denv) (n : netst) : dialed :=
  let (ok, t) := netDialTimeout (DialTimeout cfg) e in
  if ok then
    let s := nxt n in
    let n1 := emit (mkNet (S s) (slog n)) (SOpen s :: setBufs cfg s) in
    let t1 := if TLSConf cfg then (t + Z.of_N (eTlsT e))%Z else t in
    if TLSConf cfg && negb (eTls e) then mkDialed None t1 (emit n1 [SClose s])
    else
      let n2 := if TLSConf cfg then emit n1 [STls s] else n1 in
      let t2 := (t1 + Z.of_N (eUpgT e))%Z in
      if eUpg e then mkDialed (Some s) t2 n2 else mkDialed None t2 (emit n2 [SClose s])
  else mkDialed None t n.

(** clientconn_reuse.go:14: neither buffer sizes nor TLS nor an overlay *)
Definition dialReuse (cfg : dialCfg) (e : denv) (n : netst) : dialed :=
  let (ok, t) := netDialTimeout (DialTimeout cfg) e in
  if ok then mkDialed (Some (nxt n)) t (emit (mkNet (S (nxt n)) (slog n)) [SOpen (nxt n)]) else mkDialed None t n.

(** How the connection is made: clientconn.go:102-106 (OverlayNetwork nil, or the websocket one) and NewReusedConnection. *)
Inductive dkind := KTcp | KWs | KReuse.

(** clientconn.go:102-106, 275-279; clientconn_reuse.go:14 *)
Definition dialAny (k : dkind) (cfg : dialCfg) (e : denv) (n : netst) : dialed :=
  match k with KTcp => dialTCP cfg e n | KWs => DialConn cfg e n | KReuse => dialReuse cfg e n end.

(** the DialConfig built without TLSConf: clientconn.go:167, 169, 276, 278 *)
Definition noTLS (cfg : dialCfg) : dialCfg := mkCfg (DialTimeout cfg) (WBufSize cfg) (RBufSize cfg) false.

(** A Connection: its control state (Model/Dial.v), the sockets, and the socket in conn.rwc if [rwc ctl]
    (clientconn.go:48). *)
Record cst := mkC { ctl : dst; net : netst; cur : nat }.

(** clientconn.go:99-115 and clientconn_reuse.go:13-21: no Connection if the dial fails; and the time it took. *)
Definition newConn (k : dkind) (cfg : dialCfg) (hdl : bool) (e : denv) (n : netst) : option cst * netst * Z :=
  let d := dialAny k cfg e n in
  match dConn d with
  | Some s => (Some (mkC (NewConnection hdl (TLSConf cfg)) (dNet d) s), dNet d, dTime d)
  | None => (None, dNet d, dTime d)
  end.

(** clientconn.go:153-176 (na addresses; the kinds are KTcp and KWs) *)
Definition newReconn (k : dkind) (cfg : dialCfg) (na : nat) (hdl : bool) (e : denv) (n : netst) : cst * Z :=
  let d := dialAny k (noTLS cfg) e n in
  (mkC (NewConnectionWithReconnect na hdl (TLSConf cfg) (match dConn d with Some _ => true | None => false end))
       (dNet d) (match dConn d with Some s => s | None => 0 end), dTime d).

(** The atomic actions: those of Model/Dial.v, where a dial comes with its environment, and RequestFrame.Close on a
    client-side frame, which may be called at any time if the frame was kept (frame.go:76-92). *)
Inductive clabel :=
| CDial (e : denv)
| CFrameClose
| CDo (l : dlabel).

(** closeRWC as far as the socket and conn.rwc are concerned: clientconn.go:429-437 *)
Definition closeRWC (s : cst) : netst := if rwc (ctl s) then emit (net s) [SClose (cur s)] else net s.
(** conn.rwc = nil: clientconn.go:437 *)
Definition dropRwc (d : dst) : dst :=
  mkD (nAddrs d) (reconnect d) (handler d) (tlsConf d) (idx d) false (ctxDone d) (closed d) (loopDone d)
      (loopKeys d) (incarnation d) (dials d) (dpcs d).

(** One action: clientconn.go:213-305, 429-465. *)
Definition cstep (k : dkind) (cfg : dialCfg) (s : cst) (l : clabel) : option cst :=
  match l with
  | CDial e =>
    let d := dialAny k (noTLS cfg) e (net s) in
    match dConn d with
    | Some sk => match dstep (ctl s) (DDial true) with Some c => Some (mkC c (dNet d) sk) | None => None end
    | None => match dstep (ctl s) (DDial false) with Some c => Some (mkC c (dNet d) (cur s)) | None => None end
    end
  | CFrameClose => Some (mkC (dropRwc (ctl s)) (closeRWC s) (cur s))
  | CDo DLoopDone =>
    match dstep (ctl s) DLoopDone with Some c => Some (mkC c (closeRWC s) (cur s)) | None => None end
  | CDo (DDial _) | CDo DFrameClose => None (* above *)
  | CDo l => match dstep (ctl s) l with Some c => Some (mkC c (net s) (cur s)) | None => None end
  end.
