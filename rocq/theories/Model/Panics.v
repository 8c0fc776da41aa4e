(** Functions of the user that panic while the server runs them to close or kick a connection: OnKickCB
    (server.go:505-509), the functions given to NotifyWhenClose (serveconn.go:122-133, 790-792).  On top of Model/Lifecycle.v.

    A panic ends the calls the goroutine is in.  In a goroutine that runs a handler it is recovered by handleRequestPanic
    (serveconn.go:197-201, 213-219, 243-278).  The goroutine that reads frames, one that writes, and the deferred function of
    serve (serveconn.go:150-162, which calls Close after its recover) have nothing around them that recovers
    (util.GoFunc does not), so the process ends; the same holds for a goroutine of the user without a recover of its own.
    Which goroutines are in a handler is a parameter. *)
From Verif Require Import Model.GoBase Model.Machine Model.Lifecycle.
Open Scope N_scope.

(** The server and, as ghosts, the connections whose OnKickCB panicked and the functions that were registered on a
    connection and are not called any more. *)
Record xst := mkX { xl : lst; crashed : bool; zom : N -> bool; dropped : N -> N -> nat }.

(** What can happen: as in Model/Lifecycle.v, or the function that goroutine g runs panics. *)
Inductive xlabel := XL (l : llabel) | XPanic (g : N).

(** add functions to those that are not called (ghost: no counterpart in /repo) *)
Definition drop (d : N -> N -> nat) (c : N) (fs : list N) : N -> N -> nat := upd d c (fun f => d c f + count_occ N.eq_dec fs f)%nat.

(** the panic, as seen by the goroutine: server.go:507, serveconn.go:127, 791; the functions after it are not called *)
Definition thrown (s : xst) (g : N) : option xst :=
  let l := xl s in
  match lp l g with
  | LKickCB c _ =>
    Some (mkX (mkL (id2 l) (cid l) (untr l) (utch l) (act l) (clsd l) (ctxd l) (nfy l) (upd (lp l) g LIdle) (bound l) (kickedBy l) (kl l)
                   (regs l) (ran l) (upd (cbs l) c (S (cbs l c))) (dclose l)) (crashed s) (upd (zom s) c true) (dropped s))
  | LNotify c (f :: fs) _ =>
    Some (mkX (mkL (id2 l) (cid l) (untr l) (utch l) (act l) (clsd l) (ctxd l) (nfy l) (upd (lp l) g LIdle) (bound l) (kickedBy l) (kl l)
                   (regs l) (call (ran l) c f) (cbs l) (dclose l)) (crashed s) (zom s) (drop (dropped s) c fs))
  | LLate c f =>
    Some (mkX (mkL (id2 l) (cid l) (untr l) (utch l) (act l) (clsd l) (ctxd l) (nfy l) (upd (lp l) g LIdle) (bound l) (kickedBy l) (kl l)
                   (regs l) (call (ran l) c f) (cbs l) (dclose l)) (crashed s) (zom s) (dropped s))
  | _ => None
  end.

(** One action (serveconn.go:150-162, 197-219, 243-278, and Model/Lifecycle.v). *)
Definition xstep (guarded : N -> bool) (s : xst) (l : xlabel) : option xst :=
  if crashed s then None
  else match l with
  | XL l => option_map (fun l' => mkX l' false (zom s) (dropped s)) (lstep (xl s) l)
  | XPanic g => option_map (fun s' => mkX (xl s') (negb (guarded g)) (zom s') (dropped s')) (thrown s g)
  end.

(** a server just made: server.go:421-443 *)
Definition xinit : xst := mkX linit false (fun _ => false) (fun _ _ => 0%nat).
