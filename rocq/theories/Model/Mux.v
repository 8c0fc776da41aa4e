(** Model of ServeMux (server.go:70-124) and of middleware (middleware.go). *)
From Verif Require Import Model.GoBase Model.Qrpc.

Section MUX.
Context {H : Type}.

(** server.go:71-74 ServeMux.m (a nil map reads as empty, lines 98-100) *)
Definition mux := N -> option H.
(** server.go:77: NewServeMux. *)
Definition emptyMux : mux := fun _ => None.

(** server.go:86-106 ServeMux.Handle; [None] is a panic, after which the map is unchanged.
    [handler = None] is a nil Handler.  Middleware is part of the handler value here. *)
Definition Handle (m : mux) (cmd : Cmd) (handler : option H) : option mux :=
  match handler with
  | None => None
  | Some h =>
    if MaxCmd <? cmd then None
    else match m cmd with
         | Some _ => None
         | None => Some (fun c => if c =? Routing cmd then Some h else m c)
         end
  end.

(** server.go:110-124 ServeMux.ServeQRPC *)
Inductive dispatch := Call (h : H) | CloseConn.
(** server.go:110-124. *)
Definition ServeQRPC (m : mux) (cmd : Cmd) : dispatch :=
  match m (Routing cmd) with Some h => Call h | None => CloseConn end.

(** A sequence of Handle calls, each panic recovered by the caller. *)
Fixpoint handleAll (m : mux) (regs : list (Cmd * option H)) : mux * list bool (* panicked? *) :=
  match regs with
  | [] => (m, [])
  | (c, h) :: regs' =>
    match Handle m c h with
    | Some m' => let '(m2, ps) := handleAll m' regs' in (m2, false :: ps)
    | None => let '(m2, ps) := handleAll m regs' in (m2, true :: ps)
    end
  end.
End MUX.
Arguments mux : clear implicits.
Arguments dispatch : clear implicits.

Section MW.
Context {S : Type}.
(** A middleware acts on the world and returns true/false; [None] is a panic. *)
Definition middleware := S -> S * option bool.
(** A handler as a state transformer: server.go:50-65 Handler. *)
Definition handlerFn := S -> S.

(** what ran: middleware.go:17-25 (an observation). *)
Inductive mwEvent := RanMW (i : nat) (res : option bool) | RanHandler.

(** middleware.go:17-25 handlerMW.ServeQRPC, recording which functions ran.  With no
    middleware HandlerWithMW (middleware.go:4-10) returns the handler itself, which is
    the same behaviour. *)
Fixpoint runMW (i : nat) (mws : list middleware) (h : handlerFn) (s : S) : S * list mwEvent :=
  match mws with
  | [] => (h s, [RanHandler])
  | m :: mws' =>
    let '(s1, r) := m s in
    match r with
    | Some true => let '(s2, t) := runMW (Datatypes.S i) mws' h s1 in (s2, RanMW i r :: t)
    | _ => (s1, [RanMW i r])
    end
  end.
End MW.
