(** Model of ws/server/conn.go:24-65 (Read of the websocket overlay). *)
From Verif Require Import Model.GoBase.
Open Scope nat_scope.

(** message types of gorilla/websocket (a library, not in /repo). *)
Inductive msgType := MBinary | MText | MClose | MPing | MPong.

(** What ReadMessage will return: messages, then an error that is sticky (gorilla keeps
    returning a read error).  [closeFails] : whether wc.Close() returns an error. *)
Record wsconn := mkWs { wbuffer : bytes; msgs : list (msgType * bytes); closed : bool; closeFails : bool }.

(** the errors of Read: ws/server/conn.go:24-65. *)
Inductive wsErr := WsRead | WsClose.

(** conn.go:61-65 readBuffer with len(b) = n *)
Definition readBuffer (c : wsconn) (n : nat) : wsconn * (bytes + wsErr) :=
  (mkWs (skipn n (wbuffer c)) (msgs c) (closed c) (closeFails c), inl (firstn n (wbuffer c))).

(** conn.go:33-57 the loop of Read.  Messages already buffered may still be returned after
    wc.Close(), so [msgs] is not cut by a Close. *)
Fixpoint wsLoop (ms : list (msgType * bytes)) (cl cf : bool) (n : nat) : wsconn * (bytes + wsErr) :=
  match ms with
  | [] => (mkWs [] [] cl cf, inr WsRead)
  | (t, m) :: ms' =>
    match t with
    | MBinary => match m with
                 | [] => wsLoop ms' cl cf n
                 | _ => readBuffer (mkWs m ms' cl cf) n
                 end
    | _ => if cf then (mkWs [] ms' true cf, inr WsClose) else wsLoop ms' true cf n
    end
  end.

(** conn.go:24-59 Read with len(b) = n *)
Definition wsRead (c : wsconn) (n : nat) : wsconn * (bytes + wsErr) :=
  match wbuffer c with
  | _ :: _ => readBuffer c n
  | [] => wsLoop (msgs c) (closed c) (closeFails c) n
  end.

(** successive calls of Read (no counterpart in /repo). *)
Fixpoint wsReads (c : wsconn) (ns : list nat) : wsconn * list (bytes + wsErr) :=
  match ns with
  | [] => (c, [])
  | n :: ns' => let '(c1, x) := wsRead c n in
                let '(c2, xs) := wsReads c1 ns' in (c2, x :: xs)
  end.
