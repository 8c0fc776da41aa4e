(** One channel.Sender used by several goroutines: clientSender.Send and End (channel/clienttransport.go:66-112) with the
    StreamWriter they share (framewriter.go:50-55, 67-70, 129-143, 176-201), step by step.
    Simplified: flags are left out (C43 is about [end]); Marshal succeeds; a frame the connection takes goes onto the wire
    at once as the buffer is then (a frame that waits is C60's matter) or is refused; StreamRequest is one action (it has a
    buffer of its own: clientconn.go:360-368); a goroutine waiting in Lock does not hold up RLock (a restriction on schedules
    only). *)
From Verif Require Import Model.GoBase Model.Machine.
Open Scope N_scope.

(** a message: cmd and the marshalled value *)
Record msg := mkMsg { m_cmd : N; m_bytes : list N }.

(** Where a goroutine is in Send: not in it, before RLock (72), before streamWriter is read (84), in StreamRequest (85), before
    its result is stored (85), before StartWrite (89), WriteBytes (90), the length is written (framewriter.go:131-138), in
    writeFrameBytes (140), before the buffer is cut (141). *)
Inductive tpc :=
| TIdle | TLock (m : msg) | TLook (m : msg) | TReq (m : msg) | TSet (m : msg) (w : option N)
| TStart (m : msg) (w : N) | TBytes (m : msg) (w : N) | TLen (m : msg) (w : N) | TQueue (m : msg) (w : N) | TCut (m : msg) (w : N) (ok : bool).

(** What happens: Send called, a frame put on the wire (stream, length field, cmd, payload), Send returned, End put a reset on the
    wire or returned without *)
Inductive cev := ESend (t : N) (m : msg) | EPut (k len cmd : N) (payload : list N) | ERet (t : N) (m : msg) (ok : bool) | EEnd.

(** wbuf of a StreamWriter: length field, cmd field, what follows the header.  framewriter.go:13-20 *)
Record wbuf := mkBuf { b_len : N; b_cmd : N; b_pay : list N }.

(** clientSender: channel/clienttransport.go:15-23 *)
Record cst := mkC {
  closed : bool;
  sw : option N;            (* streamWriter: of which stream *)
  nstr : N;                 (* the streams opened so far *)
  buf : N -> wbuf;          (* of the StreamWriter of each stream *)
  held : list N;            (* who has the read lock *)
  thr : N -> tpc;
  clog : list cev }.        (* ghost: what happened, oldest first *)

(** channel/clienttransport.go:44-45 *)
Definition cinit : cst := mkC false None 0 (fun _ => mkBuf 0 0 []) [] (fun _ => TIdle) [].

(** The atomic actions: channel/clienttransport.go:66-112 *)
Inductive clabel :=
| LCall (t : N) (m : msg)     (* 66-70 *)
| LLock (t : N)               (* 72-78 *)
| LLook (t : N)               (* 84 *)
| LReq (t : N) (ok : bool)    (* 85: StreamRequest *)
| LSet (t : N)                (* 85-86, 73 *)
| LStart (t : N)              (* 89: framewriter.go:67-70 *)
| LBytes (t : N)              (* 90: framewriter.go:174 *)
| LLen (t : N)                (* 91: framewriter.go:131-138 *)
| LPut (t : N) (ok : bool)    (* framewriter.go:140: the connection takes the frame, or refuses it *)
| LCut (t : N)                (* framewriter.go:141, channel/clienttransport.go:93, 73 *)
| LEnd (reset : bool).        (* 96-112: all of End, under the lock; [reset]: the reset frame goes onto the wire *)

(** one goroutine moves (no counterpart in /repo) *)
Definition go (s : cst) (t : N) (p : tpc) : cst := mkC (closed s) (sw s) (nstr s) (buf s) (held s) (upd (thr s) t p) (clog s).
(** Send returns, with the lock: the deferred RUnlock (channel/clienttransport.go:73) *)
Definition ret (s : cst) (t : N) (m : msg) (ok : bool) : cst :=
  mkC (closed s) (sw s) (nstr s) (buf s) (remove N.eq_dec t (held s)) (upd (thr s) t TIdle) (clog s ++ [ERet t m ok]).
(** a buffer changes (framewriter.go:67-70, 131-138, 141, 174) *)
Definition setBuf (s : cst) (w : N) (b : wbuf) : cst := mkC (closed s) (sw s) (nstr s) (upd (buf s) w b) (held s) (thr s) (clog s).
(** something happened (ghost, no counterpart in /repo) *)
Definition say (s : cst) (e : cev) : cst := mkC (closed s) (sw s) (nstr s) (buf s) (held s) (thr s) (clog s ++ [e]).

(** 24 bits of the cmd are sent: framewriter.go:69 *)
Definition cmd24 (c : N) : N := N.land c 0xffffff.
(** the length field of a frame with this payload: framewriter.go:133 *)
Definition lenOf (p : list N) : N := 12 + N.of_nat (length p).

(** One action.  The lines are given in [clabel]. *)
Definition cstep (s : cst) (l : clabel) : option cst :=
  match l with
  | LCall t m => match thr s t with TIdle => Some (say (go s t (TLock m)) (ESend t m)) | _ => None end
  | LLock t =>
    match thr s t with
    | TLock m =>
      if closed s then Some (ret s t m false)
      else Some (mkC (closed s) (sw s) (nstr s) (buf s) (t :: held s) (upd (thr s) t (TLook m)) (clog s))
    | _ => None
    end
  | LLook t =>
    match thr s t with TLook m => Some (go s t (match sw s with None => TReq m | Some w => TStart m w end)) | _ => None end
  | LReq t ok =>
    match thr s t with
    | TReq m =>
      if ok then
        let k := nstr s + 1 in
        let p := m_bytes m in
        Some (mkC (closed s) (sw s) k (upd (buf s) k (mkBuf (lenOf p) (cmd24 (m_cmd m)) [])) (held s) (upd (thr s) t (TSet m (Some k)))
                  (clog s ++ [EPut k (lenOf p) (cmd24 (m_cmd m)) p]))
      else Some (go s t (TSet m None))
    | _ => None
    end
  | LSet t =>
    match thr s t with
    | TSet m w =>
      let s' := ret s t m (match w with Some _ => true | None => false end) in
      Some (mkC (closed s') w (nstr s') (buf s') (held s') (thr s') (clog s'))
    | _ => None
    end
  | LStart t =>
    match thr s t with
    | TStart m w => let b := buf s w in Some (setBuf (go s t (TBytes m w)) w (mkBuf (b_len b) (cmd24 (m_cmd m)) (b_pay b)))
    | _ => None
    end
  | LBytes t =>
    match thr s t with
    | TBytes m w => let b := buf s w in Some (setBuf (go s t (TLen m w)) w (mkBuf (b_len b) (b_cmd b) (b_pay b ++ m_bytes m)))
    | _ => None
    end
  | LLen t =>
    match thr s t with
    | TLen m w => let b := buf s w in Some (setBuf (go s t (TQueue m w)) w (mkBuf (lenOf (b_pay b)) (b_cmd b) (b_pay b)))
    | _ => None
    end
  | LPut t ok =>
    match thr s t with
    | TQueue m w =>
      let b := buf s w in
      let s' := go s t (TCut m w ok) in Some (if ok then say s' (EPut w (b_len b) (b_cmd b) (b_pay b)) else s')
    | _ => None
    end
  | LCut t =>
    match thr s t with
    | TCut m w ok => let b := buf s w in Some (ret (setBuf s w (mkBuf (b_len b) (b_cmd b) [])) t m ok)
    | _ => None
    end
  | LEnd reset =>
    match held s with
    | [] => if closed s then None
      else Some (mkC true (sw s) (nstr s) (buf s) [] (thr s) (if (match sw s with Some _ => reset | None => false end) then clog s ++ [EEnd] else clog s))
    | _ :: _ => None
    end
  end.
