(** Model of the code that codegen/generator.go generates for one method: the client's method and the callback that the
    ServiceMux registers, and of a call from one to the other.  The text itself (imports, names, formatting) is not
    modelled here.  encoding/json and the types' own Marshal and Unmarshal are parameters. *)
From Verif Require Import Model.GoBase Model.Qrpc Model.Pb Model.Codegen.
Open Scope nat_scope.

(** A Go type as the generator sees it (codegen/generator.go:385-388, 273-276): whether its pointer implements Marshaler
    (codegen/io.go:4-7), and what the four functions do on its values; [inr] is an error's text. *)
Record goType := mkType {
  val : Type;
  isMarshaler : bool;
  ownMarshal : val -> bytes + bytes;
  ownUnmarshal : bytes -> val + bytes;
  jsonMarshal : val -> bytes + bytes;
  jsonUnmarshal : bytes -> val + bytes
}.

(** codegen/generator.go:271-301 (main service) and 313-342 (sub services, the same text): the callback for a method
    [svc] with input type [tin] and output type [tout].  The generator decides how to encode the output from
    [outTypes[0]], but sets [outTypes] to the input types (lines 274 and 316), so it looks at the type of the context:
    [ctxPtrIsMarshaler] is whether a pointer to that type implements Marshaler. *)
Definition genCallback (ctxPtrIsMarshaler : bool) (tin tout : goType) (svc : val tin -> val tout) : methodCall :=
  fun inBytes =>
  match (if isMarshaler tin then ownUnmarshal tin inBytes else jsonUnmarshal tin inBytes) with
  | inr e => inr e
  | inl input =>
    let output := svc input in
    if ctxPtrIsMarshaler then ownMarshal tout output else jsonMarshal tout output
  end.

(** What the caller of a generated method gets: the output, or an output on which SetError was called, and why. *)
Inductive callResult (T : Type) :=
| Output (v : T)
| InputErr (e : bytes)
| RequestErr (r : clientResult)
| OutputErr (e : bytes).
Arguments Output {T} v.
Arguments InputErr {T} e.
Arguments RequestErr {T} r.
Arguments OutputErr {T} e.

(** codegen/generator.go:401-427: the generated client's method, on a client with [n] connections and counter [idx]
    (see clientRequest in Model/Codegen.v). *)
Definition genClientMethod (tin tout : goType) (cmd errCmd : Cmd) (n : nat) (idx : N) (answer : bytes -> nat -> connAnswer)
    (ns name : bytes) (input : val tin) : callResult (val tout) :=
  match (if isMarshaler tin then ownMarshal tin input else jsonMarshal tin input) with
  | inr e => InputErr e
  | inl inBytes =>
    match snd (clientRequest cmd errCmd n idx (answer inBytes) ns name inBytes) with
    | Out outBytes =>
      match (if isMarshaler tout then ownUnmarshal tout outBytes else jsonUnmarshal tout outBytes) with
      | inl v => Output v
      | inr e => OutputErr e
      end
    | r => RequestErr r
    end
  end.

(** What happens on the way to and from connection [j]'s server; not code of /repo but the possibilities left open by
    qrpc.Connection.Request and GetFrameWithContext (see connAnswer in Model/Codegen.v). *)
Inductive connFate :=
| FRefuse
| FLost (requestID : N) (e : N)
| FAnswered (requestID : N).

(** The answer a client gets from a server that runs [ServeQRPC] (codegen/service_handler.go:32-68) over [table]: the
    frame it writes.  [noFrame] stands for what the wait gives when the handler panicked or wrote nothing. *)
Definition serverAnswer (errCmd : Cmd) (table : list (bytes * methodCall)) (errText : pbErr -> bytes) (noFrame : N)
    (requestID : N) (cmd : Cmd) (body : bytes) : N + Cmd * bytes :=
  match ServeQRPC errCmd table errText requestID cmd body with
  | None => inl noFrame
  | Some evs =>
    match flat_map (fun e => match e with Wrote _ c _ p => [(c, p)] | _ => [] end) evs with
    | (c, p) :: _ => inr (c, p)
    | [] => inl noFrame
    end
  end.

(** A call of the generated client with connection [j] suffering [fate j] and all servers serving [table]: the body is
    what Client.Request sends (codegen/client.go:41-42). *)
Definition answerFrom (errCmd : Cmd) (table : list (bytes * methodCall)) (errText : pbErr -> bytes) (noFrame : N)
    (cmd : Cmd) (fate : nat -> connFate) (ns name : bytes) (inBytes : bytes) (j : nat) : connAnswer :=
  match fate j with
  | FRefuse => Refused
  | FLost rid e => Accepted rid (inl e)
  | FAnswered rid =>
    match Marshal (mkReq ns name inBytes []) with
    | None => Refused
    | Some body => Accepted rid (serverAnswer errCmd table errText noFrame rid cmd body)
    end
  end.
