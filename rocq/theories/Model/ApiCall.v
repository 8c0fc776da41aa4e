(** Model of one call through the API: api.go:79-182 and 218-236, with what it sends.  Other goroutines may do anything in
    between, so all that the call sees of the shared state (connections found or not, dials, the outcomes of Request and of
    waiting) is an input; Model/Api.v has the shared state itself.  Connections are told apart by endpoint index only. *)
From Verif Require Import Model.GoBase.
Open Scope N_scope.

(** GetFrameWithContext (clientconn.go:79-89): a frame, or an error (context expired or cancelled, stream closed). *)
Inductive wait := GotFrame (f : N) | WaitErr (e : N).

(** conn.Request (clientconn.go:328-334) and, if it succeeds, the wait.  [Failed onWire e]: Request returned an error; the
    frame may have been written all the same (clientconn.go:413-414: the caller leaves while the writer has the frame). *)
Inductive reqOut := Wrote (w : wait) | Failed (onWire : bool) (e : N).

(** What a call returns: a frame, or an error. *)
Definition res : Type := N + N.

(** api.go:148, 168, 181, 229: the result of the wait is returned *)
Definition ofWait (w : wait) : res := match w with GotFrame f => inl f | WaitErr e => inr e end.

(** the endpoints to which one Request has written the frame (an observation, not in the code; whether the peer gets it is not
    modelled) *)
Definition sent (i : N) (r : reqOut) : list N := match r with Wrote _ => [i] | Failed w _ => if w then [i] else [] end.

(** What callWithoutConn sees (api.go:151-182): whether a connection is found (153), the error of reconnectIdx if any (156),
    the outcome of Request on the connection found or made (163, 174). *)
Record without := mkWo { found : bool; dialErr : option N; req2 : reqOut }.

(** api.go:151-182 callWithoutConn *)
Definition callWithoutConn (i : N) (w : without) : list N * res :=
  match found w, dialErr w with
  | false, Some e => ([], inr e)
  | _, _ => (sent i (req2 w), match req2 w with Wrote x => ofWait x | Failed _ e => inr e end)
  end.

(** What callViaIdx sees (api.go:135-149): a connection in the map or not (136), the outcome of Request on it (142), and what
    callWithoutConn sees (138, 146). *)
Record via := mkVia { hasConn : bool; req1 : reqOut; wo1 : without }.

(** api.go:135-149 callViaIdx *)
Definition callViaIdx (i : N) (v : via) : list N * res :=
  if hasConn v then
    match req1 v with
    | Wrote x => ([i], ofWait x)
    | Failed _ _ => let '(d, r) := callWithoutConn i (wo1 v) in (sent i (req1 v) ++ d, r)
    end
  else callWithoutConn i (wo1 v).

(** What callViaActiveConns sees (api.go:218-236): the index of the connection the Range visits first, if any (the function
    given to Range returns false), the outcome of Request on it (223), and what callWithoutConn sees (227). *)
Record active := mkAct { picked : option N; req3 : reqOut; wo3 : without }.

(** api.go:123 ErrNotActiveConn, as an error number *)
Definition errNotActive : N := 0.

(** api.go:218-236 callViaActiveConns *)
Definition callViaActiveConns (a : active) : list N * res :=
  match picked a with
  | None => ([], inr errNotActive)
  | Some i =>
    match req3 a with
    | Failed _ _ => let '(d, r) := callWithoutConn i (wo3 a) in (sent i (req3 a) ++ d, r)
    | Wrote x => ([i], ofWait x)
    end
  end.

(** api.go:79-89 Call, with the index getIdx returned *)
Definition apiCall (i : N) (v : via) (a : active) : list N * res :=
  let '(d, r) := callViaIdx i v in
  match r with
  | inl f => (d, inl f)
  | inr _ => let '(d', r') := callViaActiveConns a in (d ++ d', r')
  end.

(** api.go:126-133 CallOne: [io] is the index of the endpoint in idxMap, if any; None: ErrEndPointNotExists *)
Definition apiCallOne (io : option N) (v : via) : list N * option res :=
  match io with
  | None => ([], None)
  | Some i => let '(d, r) := callViaIdx i v in (d, Some r)
  end.

(** api.go:97-115 CallAll: what all the goroutines together send, up to order *)
Definition apiCallAll (n : nat) (v : N -> via) : list N :=
  flat_map (fun i => fst (callViaIdx (N.of_nat i) (v (N.of_nat i)))) (seq 0 n).
