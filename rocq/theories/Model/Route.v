(** Model of where a frame that was read goes: the part of readFrames after ReadFrame, on both sides
    (serveconn.go:385-436, clientconn.go:494-541). *)
From Verif Require Import Model.GoBase Model.Qrpc Model.FrameReader.

(** What becomes of the frame. *)
Inductive dest :=
| DSub                     (* SubFunc is called with it *)
| DResp (reset : bool)     (* the pending Response is given it; reset: is closed instead *)
| DHandler (block : bool)  (* it is dispatched to the Handler; block: and reading waits until the handler has returned *)
| DDrop                    (* nothing happens *)
| DQuit.                   (* readFrames returns: the connection is torn down *)

(** serveconn.go:385-436.  [sub]: SubFunc is set; [pending id]: ci.respes has an entry for id. *)
Definition serverRoute (sub : bool) (pending : N -> bool) (f : Frame) : dest :=
  if IsPush (fFlags f) then (if sub then DSub else DDrop)
  else if FromServer (fRequestID f) && pending (fRequestID f) then DResp (IsRst (fFlags f))
  else DHandler (negb (IsNonBlock (fFlags f))).

(** clientconn.go:494-541.  [handler]: conf.Handler is set; [closed]: conn.rwc is nil. *)
Definition clientRoute (sub handler closed : bool) (pending : N -> bool) (f : Frame) : dest :=
  if IsPush (fFlags f) then (if sub then DSub else DDrop)
  else if pending (fRequestID f) then DResp (IsRst (fFlags f))
  else if closed then DQuit
  else if handler then
    if negb (FromServer (fRequestID f)) then DQuit
    else if negb (IsNonBlock (fFlags f)) then DQuit
    else DHandler false
  else DDrop.
