(** Model of the accept loop of Server.Serve (server.go:281-339).  Times in milliseconds. *)
From Verif Require Import Model.GoBase.
Open Scope N_scope.

(** server.go:296-322: what one round sees: ln.Accept fails after doneChan was closed; fails with a temporary net.Error; fails
    otherwise; or returns connection [c], which OnAccept (if set) refuses or not. *)
Inductive acceptOut := ADone | ATemp | AFatal | AConn (c : N) (refused : bool).

(** What a round does: server.go:300, 313, 317, 325-327, 333-336. *)
Inductive acceptAct :=
| ASleep (ms : N)     (* time.Sleep *)
| AReturn             (* return ErrServerClosed *)
| ACloseConn (c : N)  (* rw.Close() *)
| AOnClose (c : N)    (* closeNotifyFunc(rw) *)
| AServe (c : N).     (* goroutine running newConn and serve *)

(** server.go:294-338, one round: new tempDelay, actions, and whether the loop goes on.  waitThrottle (server.go:295) is in
    Model/Throttle.v. *)
Definition acceptRound (hasOnAccept hasOnClose : bool) (tempDelay : N) (o : acceptOut) : N * list acceptAct * bool :=
  match o with
  | ADone => (tempDelay, [AReturn], false)                                  (* server.go:298-302 *)
  | ATemp =>                                                                (* server.go:303-315 *)
    let d := if tempDelay =? 0 then 5 else tempDelay * 2 in
    let d := if 1000 <? d then 1000 else d in
    (d, [ASleep d], true)
  | AFatal => (tempDelay, [ASleep 1000], true)                              (* server.go:316-318 *)
  | AConn c refused =>                                                      (* server.go:320-336 *)
    if hasOnAccept && refused
    then (0, ACloseConn c :: (if hasOnClose then [AOnClose c] else []), true)
    else (0, [AServe c], true)
  end.

(** The loop: the actions of each round: server.go:294-338. *)
Fixpoint acceptLoop (hasOnAccept hasOnClose : bool) (tempDelay : N) (os : list acceptOut) : list (list acceptAct) :=
  match os with
  | [] => []
  | o :: os =>
    let '(d, a, go) := acceptRound hasOnAccept hasOnClose tempDelay o in
    a :: (if go then acceptLoop hasOnAccept hasOnClose d os else [])
  end.
(** server.go:281-284: tempDelay is 0 at first *)
Definition Serve hasOnAccept hasOnClose os := acceptLoop hasOnAccept hasOnClose 0 os.
