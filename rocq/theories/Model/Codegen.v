(** Model of codegen/client.go (Client.Request) and codegen/service_handler.go.
    Strings are byte lists.  Error values are reduced to what the caller can tell apart. *)
From Verif Require Import Model.GoBase Model.Qrpc Model.Pb.
Open Scope nat_scope.

(** ** codegen/client.go *)

(** What qrpc.Connection.Request followed by Response.GetFrameWithContext do on one connection
    (codegen/client.go:51, 55): the request is refused, or it is accepted under a request id and then
    the wait fails ([inl] of an error) or yields a frame (its cmd and payload). *)
Inductive connAnswer :=
| Refused
| Accepted (requestID : N) (frame : N + Cmd * bytes).

(** Calls made on the connections, in order. *)
Inductive connCall :=
| CallRequest (j : nat) (cmd : Cmd) (flags : FrameFlag) (payload : bytes)
| CallReset (j : nat) (requestID : N).

(** codegen/client.go:36 and the error results of Request: Marshal failed, ErrServiceNA, the error of
    the wait, errors.New(payload of an errCmd frame). *)
Inductive clientResult :=
| Out (outBytes : bytes)
| MarshalErr
| ServiceNA
| WaitErr (e : N)
| RemoteErr (msg : bytes).

(** codegen/client.go:50-71: the loop, at round [i] of [n] with [k] rounds left.  [idx] is the value
    AddUint32 returned; int is 64 bits wide so [i + int(idx)] does not overflow.  [len = 0] cannot
    occur inside the loop. *)
Fixpoint requestLoop (cmd errCmd : Cmd) (n : nat) (idx : N) (answer : nat -> connAnswer)
    (body : bytes) (k i : nat) : list connCall * clientResult :=
  match k with
  | O => ([], ServiceNA)
  | S k =>
    let j := ((i + N.to_nat idx) mod n)%nat in
    let c := CallRequest j cmd NBFlag body in
    match answer j with
    | Refused =>
      let '(cs, r) := requestLoop cmd errCmd n idx answer body k (S i) in (c :: cs, r)
    | Accepted rid (inl e) => ([c; CallReset j rid], WaitErr e)
    | Accepted rid (inr (fcmd, payload)) =>
      if N.eqb fcmd errCmd then ([c], RemoteErr payload) else ([c], Out payload)
    end
  end.

(** codegen/client.go:39-75 Client.Request for a client with [n] connections whose counter holds
    [idx] (uint32); returns the new counter, the calls made and the result.  Several goroutines may
    interleave; the only shared state is the counter, taken by one atomic add. *)
Definition clientRequest (cmd errCmd : Cmd) (n : nat) (idx : N) (answer : nat -> connAnswer)
    (ns name inBytes : bytes) : N * list connCall * clientResult :=
  match Marshal (mkReq ns name inBytes []) with
  | None => (idx, [], MarshalErr)
  | Some body =>
    let idx := u32 (idx + 1) in
    (idx, fst (requestLoop cmd errCmd n idx answer body n 0), snd (requestLoop cmd errCmd n idx answer body n 0))
  end.

(** ** codegen/service_handler.go *)

(** codegen/service_handler.go:27-29: fmt.Sprintf("%s:%s") *)
Definition colon : N := 58.
(** codegen/service_handler.go:27-29. *)
Definition FQMethod (ns method : bytes) : bytes := ns ++ [colon] ++ method.

(** What a MethodCall does with its params: bytes, or an error's text.  (A panicking method is
    recovered by handleRequestPanic, see Model/Serve.v.) *)
Definition methodCall := bytes -> bytes + bytes.

(** Effects of the handler on its FrameWriter and connection. *)
Inductive svcEvent :=
| Called (m : methodCall) (params : bytes)
| Wrote (requestID : N) (cmd : Cmd) (flags : FrameFlag) (payload : bytes)
| ClosedConn.

(** equality of Go strings, as byte sequences (language). *)
Fixpoint beq (a b : bytes) : bool :=
  match a, b with
  | [], [] => true
  | x :: a, y :: b => N.eqb x y && beq a b
  | _, _ => false
  end.

(** codegen/service_handler.go:16-19: map[string]MethodCall; the first entry with the key counts. *)
Fixpoint callback (table : list (bytes * methodCall)) (key : bytes) : option methodCall :=
  match table with
  | [] => None
  | (k, m) :: table => if beq k key then Some m else callback table key
  end.

(** codegen/service_handler.go:32-68 ServeQRPC.  [errText] gives err.Error() of a decoding error; the
    result of EndWrite is ignored by the code.  [None] is a panic inside Unmarshal. *)
Definition noSuchService : bytes := [110;111;32;115;117;99;104;32;115;101;114;118;105;99;101]%N.
(** codegen/service_handler.go:32-68, as described above. *)
Definition ServeQRPC (errCmd : Cmd) (table : list (bytes * methodCall)) (errText : pbErr -> bytes)
    (requestID : N) (cmd : Cmd) (payload : bytes) : option (list svcEvent) :=
  match Unmarshal payload with
  | Panic | NoFuel => None
  | Err e => Some [Wrote requestID errCmd 0%N (errText e); ClosedConn]
  | Ok rpcReq =>
    let key := FQMethod (NS rpcReq) (Method rpcReq) in
    match callback table key with
    | None => Some [Wrote requestID errCmd 0%N noSuchService; ClosedConn]
    | Some cb =>
      match cb (Params rpcReq) with
      | inr msg => Some [Called cb (Params rpcReq); Wrote requestID errCmd 0%N msg; ClosedConn]
      | inl respBytes => Some [Called cb (Params rpcReq); Wrote requestID cmd 0%N respBytes]
      end
    end
  end.

(** codegen/generator.go:272, 319: the table the generated ServiceMux registers, from (ns, method)
    pairs; a later registration of the same key overwrites an earlier one (Go map assignment), so the
    newest comes first here. *)
Definition register (table : list (bytes * methodCall)) (ns method : bytes) (m : methodCall) :=
  (FQMethod ns method, m) :: table.
(** codegen/generator.go:272, 319: all registrations, in order. *)
Definition registerAll (regs : list (bytes * bytes * methodCall)) : list (bytes * methodCall) :=
  fold_left (fun t '(ns, me, m) => register t ns me m) regs [].
