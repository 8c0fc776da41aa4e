(** Model of ListenAll (server.go:195-237) and of the listeners it makes: TCPKeepAliveListener.Accept (server.go:375-408),
    TLSKeepAliveListener.Accept (server.go:364-372), feeding the accept loop of Model/Accept.v.

    Sockets and connections are numbers.  Which listen calls succeed and what the inner listeners accept are inputs. *)
From Verif Require Import Model.GoBase Model.Accept.
Open Scope Z_scope.

(** The fields of ServerBinding that matter here (conf.go:30-54): address, whether ListenFunc, OverlayNetwork and TLSConf are
    set, and the buffer sizes. *)
Record binding := mkBind { addr : N; hasListenFunc : bool; hasOverlay : bool; hasTLS : bool; wBufSize : Z; rBufSize : Z }.

(** KeepAliveListenerConfig (conf.go:87-91), the duration in seconds *)
Record kaConf := mkKa { kaSeconds : Z; kaWBuf : Z; kaRBuf : Z }.

(** server.go:187-191 *)
Definition DefaultKeepAliveSeconds : Z := 20.

(** binding.ln (server.go:219-233): a TCPKeepAliveListener over socket [s], the same with TLS, or the overlay's listener made
    from the TCPKeepAliveListener and the TLS configuration. *)
Inductive ln :=
| Kal (s : N) (conf : kaConf)
| TlsKal (s : N) (conf : kaConf)
| Overlaid (s : N) (conf : kaConf) (tls : bool).

(** server.go:210-233: the listener for one binding over the socket it got *)
Definition wrap (b : binding) (s : N) : ln :=
  let conf := mkKa DefaultKeepAliveSeconds (wBufSize b) (rBufSize b) in
  if hasOverlay b then Overlaid s conf (hasTLS b)
  else if hasTLS b then TlsKal s conf else Kal s conf.

(** The listen calls made: with ListenFunc or net.Listen, and the address (server.go:201-205). *)
Inductive listenCall := ByListenFunc (a : N) | ByNetListen (a : N).

(** server.go:195-237 ListenAll from binding [i] on; [res i] is the socket that the call for binding [i] gives, None an
    error.  Returns the calls, the listeners set (binding.ln), the sockets opened, and whether it returned an error. *)
Fixpoint listenFrom (i : nat) (bs : list binding) (res : nat -> option N) : list listenCall * list (option ln) * list N * bool :=
  match bs with
  | [] => ([], [], [], false)
  | b :: bs =>
    let c := if hasListenFunc b then ByListenFunc (addr b) else ByNetListen (addr b) in
    match res i with
    | None => ([c], None :: map (fun _ => None) bs, [], true)
    | Some s =>
      let '(cs, lns, opened, e) := listenFrom (S i) bs res in (c :: cs, Some (wrap b s) :: lns, s :: opened, e)
    end
  end.
(** server.go:195-237 *)
Definition ListenAll (bs : list binding) (res : nat -> option N) := listenFrom 0 bs res.

(** The sockets that Shutdown closes when ListenAll was all that happened: it closes srv.listeners (server.go:596-607), which
    hold only listeners registered by Serve (server.go:286, 410-418). *)
Definition shutdownCloses (registered : list (option N)) : list N :=
  flat_map (fun r => match r with Some s => [s] | None => [] end) registered.
(** NewServer makes srv.listeners with all entries nil (server.go:168) *)
Definition registeredByListenAll (bs : list binding) : list (option N) := map (fun _ => None) bs.

(** Options set on an accepted connection (server.go:391-405); their errors are ignored or logged. *)
Inductive sockOpt := OKeepAlive | OPeriod (seconds : Z) | OWriteBuffer (n : Z) | OReadBuffer (n : Z).

(** What the inner listener's Accept returns: an error, after doneChan was closed or not, temporary or not; or connection [c],
    a TCPConn or not (server.go:349-355, 385-388). *)
Inductive inner := IErr (done temporary : bool) | IConn (c : N) (isTCPConn refused : bool) (done : bool).

(** server.go:375-408 TCPKeepAliveListener.Accept on a connection: the options set; false: ErrListenerAcceptReturnType, the
    connection is returned along with it but nobody looks at it (server.go:296-318). *)
Definition kaAccept (conf : kaConf) (isTCPConn : bool) : list sockOpt * bool :=
  if isTCPConn then
    ((if kaSeconds conf >? 0 then [OKeepAlive; OPeriod (kaSeconds conf)] else []) ++
     (if kaWBuf conf >? 0 then [OWriteBuffer (kaWBuf conf)] else []) ++
     (if kaRBuf conf >? 0 then [OReadBuffer (kaRBuf conf)] else []), true)
  else ([], false).

(** What Serve sees of it (server.go:296-319): the wrong type is an error that is not temporary. *)
Definition seen (conf : kaConf) (o : inner) : acceptOut :=
  match o with
  | IErr true _ => ADone
  | IErr false true => ATemp
  | IErr false false => AFatal
  | IConn c isTCP refused done => if snd (kaAccept conf isTCP) then AConn c refused else if done then ADone else AFatal
  end.

(** Serve over a plain or TLS listener (server.go:281-339, 364-372): tls.Server only wraps. *)
Definition serveOver (conf : kaConf) (hasOnAccept hasOnClose : bool) (os : list inner) : list (list acceptAct) :=
  Serve hasOnAccept hasOnClose (map (seen conf) os).
