(** Messages pushed by the server: the client of Model/Call.v with the frames its subscriber was called with, and
    Server.GetPushID.  A push is a frame with PushFlag written by the server (framewriter.go:50-94, serveconn.go:648).
    Simplified: SubFunc is one action (it returns; clientconn.go:494-501 calls it from the reader, so nothing is read before
    it does); the record of its calls begins again with every connection, like the ghosts of Model/Pair.v. *)
From Verif Require Import Model.GoBase Model.Machine Model.Qrpc Model.FrameReader Model.Ids Model.Stream Model.Pair Model.Call.
Open Scope N_scope.

(** The client and the calls of its SubFunc (clientconn.go:33, 494-501) on the current connection. *)
Record ust := mkU {
  uj : cst;
  subs : list Frame;       (* ghost: the frames SubFunc was called with, in order *)
}.

(** clientconn.go:487-501: a frame with the push flag that ReadFrame returned goes to the subscriber, if there is one *)
Definition given (hasSub : bool) (j : cst) (l : clabel) : list Frame :=
  match l, ret j with
  | JLook, Some f => if IsPush (fFlags f) && hasSub then [f] else []
  | _, _ => []
  end.

(** One action.  [hasSub]: a subscriber was given (clientconn.go:187-211). *)
Definition ustep (lim : bool -> Z) (hasSub : bool) (u : ust) (l : clabel) : option ust :=
  match cstep lim (uj u) l with
  | Some j' =>
    match l with
    | JReconnect => Some (mkU j' [])
    | _ => Some (mkU j' (subs u ++ given hasSub (uj u) l))
    end
  | None => None
  end.

(** a client that has just connected: clientconn.go:187-211 *)
Definition uinit : ust := mkU cinit [].

(** server.go:561-565 Server.GetPushID: an atomic add on a uint64; the new counter is the result *)
Definition getPushID (pushID : N) : N * N := let v := u64 (pushID + 1) in (v, v).
(** the results of [n] calls, in the order of the atomic adds (no counterpart in /repo) *)
Fixpoint pushIDs (n : nat) (pushID : N) : list N :=
  match n with
  | O => []
  | S n' => let '(c, v) := getPushID pushID in v :: pushIDs n' c
  end.
