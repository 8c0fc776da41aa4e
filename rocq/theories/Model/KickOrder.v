(** What SetID returns (serveconn.go:95-108, server.go:446-488): Model/Lifecycle.v with the counter kickOrder and the
    results kick and ko of bindID.

    Simplified: one counter for one binding (kickOrder is global, so kicks on other bindings and servers only add
    to it: label [KOther]); goroutines only. *)
From Verif Require Import Model.GoBase Model.Machine Model.Lifecycle.
Open Scope N_scope.

(** What a goroutine in bindID does next with the counter: nothing; the add after closeUntracked, server.go:481-482;
    the load after it bound connection c, server.go:487-488. *)
Inductive kpc := KNo | KAdd | KLoad (c : N).

(** server.go:446 (kickOrder), 452 (the results of bindID). *)
Record kst := mkK {
  kc : lst;
  kord : N;                     (* kickOrder, a uint64 *)
  kp : N -> kpc;
  kick : N -> bool;             (* the result kick of the goroutine's bindID so far *)
  ret : N -> option (bool * N); (* ghost: what SetID on the connection returned *)
  kcount : N }.                 (* ghost: number of adds *)

(** no SetID was called; the counter is anything that [k0] adds lead to (server.go:446). *)
Definition kinit (k0 : N) : kst := mkK linit (u64 k0) (fun _ => KNo) (fun _ => false) (fun _ => None) k0.

(** Labels: those of Model/Lifecycle.v and the operations on the counter, server.go:481-488. *)
Inductive klabel :=
| KL (l : llabel)
| KG (g : N)       (* goroutine g adds or loads *)
| KOther.          (* bindID of another binding or server adds: server.go:481 *)

(** The goroutine of an action of Model/Lifecycle.v. *)
Definition gor (l : llabel) : N := match l with LSetID g _ _ | LClose g _ | LReg g _ _ | LG g => g end.

(** What goroutine g has to do with the counter after its step from s to s', and what is returned without it:
    server.go:454-488. *)
Definition after (s s' : lst) (g : N) : kpc :=
  match lp s g with
  | LBind c i => match id2 s i with None => KLoad c | Some _ => KNo end
  | LIdle => KNo
  | _ => match lp s' g with LBind _ _ => KAdd | _ => KNo end
  end.

(** One action: server.go:450-488, serveconn.go:95-108. *)
Definition kstep (k : kst) (l : klabel) : option kst :=
  match l with
  | KL l =>
    let g := gor l in
    match kp k g with
    | KNo =>
      match lstep (kc k) l with
      | Some s' =>
        match l with
        | LSetID g c i => Some (mkK s' (kord k) (kp k) (upd (kick k) g false) (ret k) (kcount k))
        | LG g =>
          let r := match lp (kc k) g with
                   | LBind c i => match id2 (kc k) i with
                                  | Some v => if v =? c then upd (ret k) c (Some (kick k g, 0)) else ret k   (* server.go:459-461 *)
                                  | None => ret k
                                  end
                   | _ => ret k
                   end in
          Some (mkK s' (kord k) (upd (kp k) g (after (kc k) s' g)) (kick k) r (kcount k))
        | _ => Some (mkK s' (kord k) (kp k) (kick k) (ret k) (kcount k))
        end
      | None => None
      end
    | _ => None
    end
  | KG g =>
    match kp k g with
    | KNo => None
    | KAdd => Some (mkK (kc k) (u64 (kord k + 1)) (upd (kp k) g KNo) (upd (kick k) g true) (ret k) (kcount k + 1))
    | KLoad c => Some (mkK (kc k) (kord k) (upd (kp k) g KNo) (kick k) (upd (ret k) c (Some (kick k g, kord k))) (kcount k))
    end
  | KOther => Some (mkK (kc k) (u64 (kord k + 1)) (kp k) (kick k) (ret k) (kcount k + 1))
  end.
