(** The sockets that come out of a listener: TCPKeepAliveListener.Accept, TLSKeepAliveListener.Accept (server.go:363-408) and the
    accept loop that calls them (Model/Accept.v).

    Simplified: the results of SetKeepAlive, SetKeepAlivePeriod, SetWriteBuffer and SetReadBuffer are ignored (the code ignores or
    logs them); overlay networks are not modelled (ws: Model/WsListener.v); serving is one action. *)
From Verif Require Import Model.GoBase Model.Accept.
Open Scope N_scope.

(** server.go:210-231, conf.go: KeepAliveListenerConfig as ListenAll fills it (durations in ms; sizes not positive: 0), TLSConf set or
    not, OnAccept and OnClose set or not. *)
Record lconf := mkLc { keepMs : N; wbufSize : N; rbufSize : N; useTLS : bool; onAccept : bool; onClose : bool }.

(** What the listener underneath returns: a temporary error, another error, or socket [c], which has the methods of TCPConn or not
    (server.go:376, 385), and is refused by OnAccept, if set, or not (server.go:323). *)
Inductive raw := RTemp | RFatal | RSock (c : N) (tcp refused : bool).

(** What is done with a socket: server.go:391, 392, 395, 401, 370, 323, and the actions of the accept loop. *)
Inductive sockAct :=
| SKeepAlive (c : N) | SPeriod (c ms : N) | SWriteBuf (c n : N) | SReadBuf (c n : N)
| STLS (c : N)                    (* tls.Server *)
| SCheck (c : N)                  (* OnAccept *)
| SDo (a : acceptAct).

(** server.go:390-405. *)
Definition options (cf : lconf) (c : N) : list sockAct :=
  (if 0 <? keepMs cf then [SKeepAlive c; SPeriod c (keepMs cf)] else []) ++
  (if 0 <? wbufSize cf then [SWriteBuf c (wbufSize cf)] else []) ++
  (if 0 <? rbufSize cf then [SReadBuf c (rbufSize cf)] else []).

(** server.go:364-408: Accept of the listener that ListenAll makes: what it does, and what Serve sees.  [done]: doneChan is closed by the
    time the error is looked at (server.go:298-302).  ErrListenerAcceptReturnType is no net.Error (server.go:272, 386). *)
Definition kalAccept (cf : lconf) (done : bool) (r : raw) : list sockAct * acceptOut :=
  match r with
  | RTemp => ([], if done then ADone else ATemp)
  | RFatal => ([], if done then ADone else AFatal)
  | RSock c false _ => ([], if done then ADone else AFatal)
  | RSock c true refused => (options cf c ++ (if useTLS cf then [STLS c] else []), AConn c refused)
  end.

(** OnAccept is called for a connection: server.go:322-323. *)
Definition checkOf (cf : lconf) (o : acceptOut) : list sockAct :=
  match o with AConn c _ => if onAccept cf then [SCheck c] else [] | _ => [] end.

(** Serve: server.go:294-338. *)
Fixpoint sockLoop (cf : lconf) (tempDelay : N) (rs : list (bool * raw)) : list (list sockAct) :=
  match rs with
  | [] => []
  | (done, r) :: rs =>
    let '(pre, o) := kalAccept cf done r in
    let '(d, acts, go) := acceptRound (onAccept cf) (onClose cf) tempDelay o in
    (pre ++ checkOf cf o ++ map SDo acts) :: (if go then sockLoop cf d rs else [])
  end.

(** server.go:281-284: tempDelay is 0 at first. *)
Definition serveSocks (cf : lconf) (rs : list (bool * raw)) : list (list sockAct) := sockLoop cf 0 rs.
