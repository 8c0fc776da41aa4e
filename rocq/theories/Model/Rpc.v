(** A server whose handlers include the generated ServiceMux, called by a generated client (codegen/client.go,
    codegen/service_handler.go, codegen/generator.go:351-359) over the connections of Model/Call.v. *)
From Verif Require Import Model.GoBase Model.Machine Model.Qrpc Model.FrameReader Model.Stream Model.Pair Model.Call Model.Codegen.
From Verif Require Model.Mux Model.Response.
Open Scope N_scope.

(** The server's side: the two cmds (codegen/generator.go:356), the registered methods (codegen/service_handler.go:16-19) and
    the texts of decoding errors. *)
Record service := mkService { s_cmd : Cmd; s_err : Cmd; s_table : list (bytes * methodCall); s_text : Pb.pbErr -> bytes }.

(** Which handler of the server's ServeMux gets a frame (server.go:86-124): the generated one is registered under s_cmd by
    codegen/generator.go:356, what else is registered is left open.  [true] is the generated one. *)
Definition rpcMux (v : service) : option (Mux.mux unit) := Mux.Handle Mux.emptyMux (s_cmd v) (Some tt).
(** server.go:110-124 *)
Definition isRpc (v : service) (q : Frame) : bool :=
  match rpcMux v with
  | Some m => match Mux.ServeQRPC m (fCmd q) with Mux.Call _ => true | Mux.CloseConn => false end
  | None => false
  end.

(** codegen/service_handler.go:32-68: the frame the handler writes: cmd, flags, payload.  None if it panics or writes nothing. *)
Definition written (v : service) (q : Frame) : option (Cmd * FrameFlag * bytes) :=
  match ServeQRPC (s_err v) (s_table v) (s_text v) (fRequestID q) (fCmd q) (fPayload q) with
  | None => None
  | Some evs => hd_error (flat_map (fun e => match e with Wrote _ c fl p => [(c, fl, p)] | _ => [] end) evs)
  end.

(** What can happen: the generated handler of the stream s answers, or an action of Model/Call.v that is not its answer.
    Simplified: that the handler closes the connection after an error is one of the ways a connection may be lost at any time,
    and the handler may write its answer more than once (more behaviours than the code). *)
Inductive rlabel := RServe (s : N) | ROp (l : clabel).

(** one action: codegen/service_handler.go:32-68 for RServe, clientconn.go and serveconn.go as in Model/Call.v for the rest *)
Definition rstep (lim : bool -> Z) (v : service) (j : cst) (l : rlabel) : option cst :=
  match l with
  | RServe s =>
    match got (heap (ep (pp j) false) s) with
    | q :: _ => if isRpc v q then match written v q with Some (c, fl, p) => cstep lim j (JAnswer s c fl p) | None => None end else None
    | [] => None
    end
  | ROp (JAnswer s cmd fl payload) =>
    match got (heap (ep (pp j) false) s) with
    | q :: _ => if isRpc v q then None else cstep lim j (JAnswer s cmd fl payload)
    | [] => None
    end
  | ROp l => cstep lim j l
  end.

(** codegen/client.go:53: the request of a generated client *)
Definition rpcRequest (cmd : Cmd) (body : bytes) : clabel := JCall false cmd NBFlag body.
(** codegen/client.go:63-71: what Client.Request makes of the frame *)
Definition rpcResult (errCmd : Cmd) (f : Frame) : clientResult :=
  if fCmd f =? errCmd then RemoteErr (fPayload f) else Out (fPayload f).
