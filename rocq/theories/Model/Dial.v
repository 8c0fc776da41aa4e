(** Model of dialing, reconnecting and closing on the client: clientconn.go NewConnection,
    NewConnectionWithReconnect, newConnection, loop, connect, closeRWC, Close; and of the context
    lookups of frame.go.  One machine per Connection; the environment decides every dial outcome, when
    the link fails and when Close is called.

    Simplified: contexts are reduced to "cancelled or not" and to which keys they carry; the reader and
    writer goroutines are reduced to the fact that they cancel the loop context when the link fails and
    have returned before the next connect (loopWG.Wait, clientconn.go:240); sleeping is not modelled. *)
From Verif Require Import Model.GoBase Model.Machine.
Open Scope nat_scope.

(** Which values a context carries: ConnectionInfoKey (serveconn.go:64), ClientConnectionInfoKey
    (clientconn.go:180). *)
Record ctxKeys := mkCtx { hasConnectionInfo : bool; hasClientConnectionInfo : bool }.

(** frame.go:59-63 ClientConnectionInfo: the type assertion panics ([false]) if the key is missing. *)
Definition ClientConnectionInfo_ok (c : ctxKeys) : bool := hasClientConnectionInfo c.
(** frame.go:76-92 RequestFrame.Close; [fromClient]: the request id is odd. *)
Definition Close_ok (c : ctxKeys) (fromClient : bool) : bool :=
  if fromClient then hasConnectionInfo c
  else if hasClientConnectionInfo c then true else hasConnectionInfo c.
(** frame.go:117-124 StreamInitiator *)
Definition StreamInitiator_ok (c : ctxKeys) : bool :=
  if hasConnectionInfo c then true else hasClientConnectionInfo c.

(** One dial: index into the (shuffled) address list and whether DialConfig.TLSConf was set. *)
Record dial := mkDial { dAddr : nat; dTLS : bool }.

(** Where the goroutine started by newConnection (clientconn.go:209) is. *)
Inductive dpc :=
| PConnect    (* connect(): conn.rwc != nil?  clientconn.go:261-263 *)
| PDial       (* loop head of connect: clientconn.go:267-283 *)
| PFailed     (* dial failed: 294-302 *)
| PServe      (* connected: waiting on loopCtx.Done(), clientconn.go:233 *)
| PEnded      (* closeRWC .. endLoop done: 234-241 *)
| PExit.      (* loop returned *)

(** clientconn.go:25-59: the fields of a Connection used here, and what its goroutines hold. *)
Record dst := mkD {
  nAddrs : nat; reconnect : bool; handler : bool; tlsConf : bool;   (* immutable configuration *)
  idx : nat;              (* conn.idx *)
  rwc : bool;             (* conn.rwc != nil *)
  ctxDone : bool;         (* conn.ctx cancelled *)
  closed : bool;          (* conn.closed *)
  loopDone : bool;        (* current loop context cancelled by reader, writer or closeRWC's effect on them *)
  loopKeys : ctxKeys;     (* keys of the current loop context, inherited by every Stream's context *)
  incarnation : nat;      (* ghost: number of successful dials inside connect *)
  dials : list dial;      (* ghost: all dials so far, oldest first *)
  dpcs : dpc }.

(** setter (no counterpart in /repo). *)
Definition set_dpc (s : dst) (p : dpc) : dst :=
  mkD (nAddrs s) (reconnect s) (handler s) (tlsConf s) (idx s) (rwc s) (ctxDone s) (closed s) (loopDone s)
      (loopKeys s) (incarnation s) (dials s) p.

(** clientconn.go:99-115 NewConnection (after a successful dial; on failure there is no Connection) with
    clientconn.go:187-211 newConnection: the first loop context is derived from the plain ctx (line 204),
    not from c.ctx, which carries the key (line 199). *)
Definition NewConnection (hdl tls : bool) : dst :=
  mkD 1 false hdl tls 0 true false false false (mkCtx false false) 0 [mkDial 0 tls] PConnect.

(** clientconn.go:153-176 NewConnectionWithReconnect on a list of [n] addresses, already shuffled; the
    initial dial, to the last address, succeeds or not; the dial configuration has no TLSConf
    (lines 167, 169).  An empty address list panics there and is excluded by n > 0 in the theorems. *)
Definition NewConnectionWithReconnect (n : nat) (hdl tls ok : bool) : dst :=
  mkD n true hdl tls 0 ok false false false (mkCtx false false) 0 [mkDial (n - 1) false] PConnect.

(** The atomic actions: clientconn.go:213-305, 429-465. *)
Inductive dlabel :=
| DEnter              (* connect() looks at conn.rwc *)
| DDial (ok : bool)   (* one dial *)
| DCheck              (* select on conn.ctx.Done() after a failed dial *)
| DLoopDone           (* <-loopCtx.Done(); closeRWC; loopWG.Wait; endLoop: clientconn.go:233-241 *)
| DAgain              (* reconnect or return: clientconn.go:243-247 *)
| DLinkFails          (* reader or writer returns: defer conn.loopCancelCtx() *)
| DFrameClose         (* a handler calls RequestFrame.Close -> closeRWC (frame.go:89) *)
| DClose.             (* user calls Close, clientconn.go:453-465 *)

(** One action: clientconn.go:213-305, 429-465. *)
Definition dstep (s : dst) (l : dlabel) : option dst :=
  match l, dpcs s with
  | DEnter, PConnect => Some (set_dpc s (if rwc s then PServe else PDial))
  | DDial ok, PDial =>
    (* clientconn.go:267-292; the dial configuration has no TLSConf (276, 278) *)
    let ds := dials s ++ [mkDial (idx s mod nAddrs s) false] in
    if ok then
      Some (mkD (nAddrs s) (reconnect s) (handler s) (tlsConf s) (S (idx s)) true (ctxDone s) (closed s)
                (ctxDone s) (mkCtx false (handler s)) (S (incarnation s)) ds PServe)
    else
      Some (mkD (nAddrs s) (reconnect s) (handler s) (tlsConf s) (S (idx s)) (rwc s) (ctxDone s) (closed s)
                (loopDone s) (loopKeys s) (incarnation s) ds PFailed)
  | DCheck, PFailed => Some (set_dpc s (if ctxDone s then PExit else PDial))
  | DLoopDone, PServe =>
    if loopDone s then
      Some (mkD (nAddrs s) (reconnect s) (handler s) (tlsConf s) (idx s) false (ctxDone s) (closed s)
                (loopDone s) (loopKeys s) (incarnation s) (dials s) PEnded)
    else None
  | DAgain, PEnded =>
    if reconnect s then Some (set_dpc s PConnect)
    else Some (mkD (nAddrs s) (reconnect s) (handler s) (tlsConf s) (idx s) (rwc s) true true
                   (loopDone s) (loopKeys s) (incarnation s) (dials s) PExit)
  | DLinkFails, PServe =>
    Some (mkD (nAddrs s) (reconnect s) (handler s) (tlsConf s) (idx s) (rwc s) (ctxDone s) (closed s)
              true (loopKeys s) (incarnation s) (dials s) (dpcs s))
  | DFrameClose, PServe =>
    Some (mkD (nAddrs s) (reconnect s) (handler s) (tlsConf s) (idx s) false (ctxDone s) (closed s)
              (loopDone s) (loopKeys s) (incarnation s) (dials s) (dpcs s))
  | DClose, _ =>
    (* a second Close returns ErrConnAlreadyClosed and changes nothing; cancelling conn.ctx cancels the
       loop contexts derived from it *)
    Some (mkD (nAddrs s) (reconnect s) (handler s) (tlsConf s) (idx s) (rwc s) true true
              true (loopKeys s) (incarnation s) (dials s) (dpcs s))
  | _, _ => None
  end.
