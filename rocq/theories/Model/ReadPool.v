(** The pool of buffered readers that all connections of a process share (reader.go:33-54): a connection takes one, reads through
    it, and gives it back when its reader has ended.
    Simplified: what a socket will deliver is fixed beforehand (Model/Reader.v [net], every way of cutting it up); a connection is one
    socket (a reconnecting client has a new one for each link: clientconn.go:485-486); sync.Pool hands out any of its elements or
    makes a new one, and may drop elements. *)
From Verif Require Import Model.GoBase Model.Machine Model.Reader.
Open Scope N_scope.

(** Where the goroutine that reads connection k is: not started; has bufReader from the pool, before Reset (reader.go:43); in use; it was
    reset, before Put (reader.go:51); ended *)
Inductive ppc := PNew | PGot (p : N) | PUse (p : N) | PCleared (p : N) | PEnd.

(** A bufio.Reader: what is buffered, and the socket it reads from (reader.go:33-35) *)
Record bufr := mkB { b_buf : bytes; b_src : option N }.

(** The readers, the sockets, bufPool, how many readers were made, the goroutines; ghost: what each connection was given *)
Record pst := mkP {
  heap : N -> bufr;
  sock : N -> net;
  pool : list N;
  made : N;
  ppcs : N -> ppc;
  given : N -> bytes }.

(** Nothing opened yet (reader.go:33-35); [ins]: what the sockets will deliver *)
Definition pinit (ins : N -> net) : pst := mkP (fun _ => mkB [] None) ins [] 0 (fun _ => PNew) (fun _ => []).

(** The atomic actions *)
Inductive plabel :=
| PGet (k : N) (o : option N)   (* bufPool.Get: an element, or a new one.  reader.go:42 *)
| PReset (k : N)                (* Reset(conn).  reader.go:43 *)
| PRead (k : N) (n : nat)       (* one Read of n > 0 bytes through it, as io.ReadFull makes them.  reader.go:95 *)
| PClear (k : N)                (* Reset(nil).  reader.go:50 *)
| PPut (k : N)                  (* Put; r.reader = nil.  reader.go:51-52 *)
| PLeave (k : N)                (* the goroutine returns without Finalize: serveconn.go:413-441 *)
| PDrop (p : N).                (* sync.Pool lets an element go *)

(** One action.  The lines are given in [plabel]. *)
Definition pstep (s : pst) (l : plabel) : option pst :=
  match l with
  | PGet k o =>
    match ppcs s k, o with
    | PNew, Some p =>
      if existsb (N.eqb p) (pool s) then Some (mkP (heap s) (sock s) (remove N.eq_dec p (pool s)) (made s) (upd (ppcs s) k (PGot p)) (given s)) else None
    | PNew, None => Some (mkP (upd (heap s) (made s) (mkB [] None)) (sock s) (pool s) (made s + 1) (upd (ppcs s) k (PGot (made s))) (given s))
    | _, _ => None
    end
  | PReset k =>
    match ppcs s k with
    | PGot p => Some (mkP (upd (heap s) p (mkB [] (Some k))) (sock s) (pool s) (made s) (upd (ppcs s) k (PUse p)) (given s))
    | _ => None
    end
  | PRead k n =>
    match ppcs s k with
    | PUse p =>
      if (n =? 0)%nat then None else
      match b_src (heap s p) with
      | Some j =>
        let '(r, x) := bufioRead (mkRdr (b_buf (heap s p)) (sock s j) 0%Z) n in
        Some (mkP (upd (heap s) p (mkB (rbuf r) (Some j))) (upd (sock s) j (conn r)) (pool s) (made s) (ppcs s)
                  (upd (given s) k (given s k ++ match x with inl bs => bs | inr _ => [] end)))
      | None => None
      end
    | _ => None
    end
  | PClear k =>
    match ppcs s k with
    | PUse p => Some (mkP (upd (heap s) p (mkB [] None)) (sock s) (pool s) (made s) (upd (ppcs s) k (PCleared p)) (given s))
    | _ => None
    end
  | PPut k =>
    match ppcs s k with
    | PCleared p => Some (mkP (heap s) (sock s) (p :: pool s) (made s) (upd (ppcs s) k PEnd) (given s))
    | _ => None
    end
  | PLeave k =>
    match ppcs s k with
    | PUse p => Some (mkP (heap s) (sock s) (pool s) (made s) (upd (ppcs s) k PEnd) (given s))
    | _ => None
    end
  | PDrop p => Some (mkP (heap s) (sock s) (remove N.eq_dec p (pool s)) (made s) (ppcs s) (given s))
  end.
