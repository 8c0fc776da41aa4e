(** Model of api.go: weighted choice, CallOne, CallAll and the connection bookkeeping. *)
From Verif Require Import Model.GoBase Model.Machine.

(** *** Weighted choice *)

(** api.go:30-42 NewAPI: weights and their total.  Integers do not overflow in the model. *)
Definition newWeights (nEndpoints : nat) (weights : option (list Z)) : list Z * Z :=
  match weights with
  | None => (repeat 1%Z nEndpoints, Z.of_nat nEndpoints)
  | Some ws => (ws, fold_left Z.add ws 0%Z)
  end.

(** api.go:240-249: the loop of getIdx; index 0 after the "getIdx bug" log line. *)
Fixpoint getIdxLoop (ws : list Z) (idx : nat) (sum target : Z) : nat :=
  match ws with
  | [] => 0
  | w :: ws =>
    let sum := (sum + w)%Z in
    if (target <? sum)%Z then idx else getIdxLoop ws (S idx) sum target
  end.

(** api.go:238-250 getIdx.  [draw] is the value rand.Intn(totalWeight) returned, uniform over
    0..totalWeight-1; rand.Intn panics ([None]) when totalWeight <= 0. *)
Definition getIdx (ws : list Z) (total draw : Z) : option nat :=
  if (total <=? 0)%Z then None else Some (getIdxLoop ws 0 0 draw).

(** *** CallAll / CallOne *)
Section Calls.
  Context {E R : Type} (eqE : E -> E -> bool).
  (** Go map[string]X as an association list without duplicate keys, newest value kept. *)
  Fixpoint mput {V} (m : list (E * V)) (k : E) (v : V) : list (E * V) :=
    match m with
    | [] => [(k, v)]
    | (k', v') :: m => if eqE k k' then (k, v) :: m else (k', v') :: mput m k v
    end.
  Fixpoint mget {V} (m : list (E * V)) (k : E) : option V :=
    match m with
    | [] => None
    | (k', v) :: m => if eqE k k' then Some v else mget m k
    end.

  (** api.go:97-115 CallAll.  [order] is the order in which the goroutines take the mutex; [outcome]
      what callViaIdx returned for each index. *)
  Definition CallAll (endpoints : list E) (d : E) (outcome : nat -> R) (order : list nat) : list (E * R) :=
    fold_left (fun m i => mput m (nth i endpoints d) (outcome i)) order [].

  (** api.go:47, 50-51: idxMap built by NewAPI. *)
  Definition idxMap (endpoints : list E) : list (E * nat) :=
    snd (fold_left (fun '(i, m) e => (S i, mput m e i)) endpoints (O, [])).

  (** api.go:126-133 CallOne: [None] is ErrEndPointNotExists (nothing is sent). *)
  Definition CallOne (endpoints : list E) (outcome : nat -> R) (e : E) : option R :=
    match mget (idxMap endpoints) e with
    | Some i => Some (outcome i)
    | None => None
    end.
End Calls.

(** *** Connection bookkeeping as a machine: any number of goroutines calling Call / CallOne /
    CallAll / Close.  Connections are numbered in creation order.  Abstracted: the outcome of
    conn.Request and NewConnection (label), the response wait (no shared state), context expiry, and
    the weighted choice (any index).  Each pc is one access to shared state. *)
Inductive kont := KRetry | KReturn.   (* what follows safeCloseDeleteConn *)
Inductive apc :=
| AIdle
| AIdx (i : N)            (* callViaIdx, api.go:136 *)
| AReq (i c : N)          (* conn.Request, api.go:142 *)
| AWo (i : N)             (* callWithoutConn: mu.Lock, api.go:152 *)
| AWoLoad (i : N)         (* api.go:153 *)
| AWoClosed (i : N)       (* reconnectIdx: load closed, api.go:206 *)
| AWoDial (i : N)         (* NewConnection, api.go:209 *)
| AWoErrUnlock            (* api.go:158 / 171 unlock and return or request *)
| AWoStore (i c : N)      (* safeStoreConnLocked: check and conns.Store, api.go:197-201 *)
| AWoStore2 (i c : N)     (* activeConns.Store, api.go:202 *)
| AWoUnlock (i c : N)     (* api.go:162 *)
| AWoUnlock2 (i c : N)    (* api.go:171 *)
| AReq2 (i c : N)         (* conn.Request, api.go:163 / 174 *)
| AScd (i c : N) (k : kont)      (* safeCloseDeleteConn: conn.Close, api.go:185 *)
| AScdLock (i c : N) (k : kont)  (* api.go:186 *)
| AScdDel (i c : N) (k : kont)   (* api.go:189-192 *)
| AScdDel2 (i c : N) (k : kont)  (* api.go:193, then deferred Unlock *)
| AActive                 (* callViaActiveConns: Range, api.go:221 *)
| AClose                  (* Close: CompareAndSwap, api.go:253 *)
| ACloseLock              (* api.go:258 *)
| ACloseRange             (* api.go:261-264 *)
| APanicked.              (* api.go:199 *)

(** api.go:65-77 defaultAPI: conns, activeConns, mu, closed; the connections and the goroutines calling it. *)
Record apist := mkApi {
  conns : N -> option N;       (* api.conns: index -> connection *)
  active : N -> option N;      (* api.activeConns: connection -> index *)
  mu : option N;               (* holder of api.mu *)
  aclosed : bool;              (* api.closed *)
  next : N;                    (* number of connections created so far *)
  cclosed : N -> bool;         (* connection closed? *)
  cidx : N -> N;               (* ghost: index a connection was created for *)
  pcs : N -> apc;
  closeRet : bool;             (* ghost: some Close returned nil *)
}.

(** The atomic actions of callers (api.go:80-266) and of connections. *)
Inductive alabel :=
| ACallIdx (t i : N)      (* goroutine t enters callViaIdx i (from Call, CallOne, CallAll) *)
| ACallActive (t : N)     (* Call falls back to callViaActiveConns *)
| ACallClose (t : N)      (* goroutine t calls Close *)
| AStep (t : N)           (* deterministic step of t *)
| AReqRes (t : N) (ok : bool)      (* outcome of conn.Request *)
| ADialRes (t : N) (ok : bool)     (* outcome of NewConnection *)
| APick (t c : N)         (* Range of callViaActiveConns visits c *)
| APickNone (t : N)       (* Range visits nothing *)
| ACloseOne (t c : N)     (* Close's Range closes c *)
| ACloseDone (t : N)      (* Close's Range is over *)
| AConnDies (c : N).      (* a connection closes by itself *)

(** setter (no counterpart in /repo): goroutine t is at p. *)
Definition setpc (s : apist) (t : N) (p : apc) : apist :=
  mkApi (conns s) (active s) (mu s) (aclosed s) (next s) (cclosed s) (cidx s) (upd (pcs s) t p) (closeRet s).
(** setter (no counterpart in /repo). *)
Definition setmu (s : apist) (m : option N) : apist :=
  mkApi (conns s) (active s) m (aclosed s) (next s) (cclosed s) (cidx s) (pcs s) (closeRet s).
(** setter (no counterpart in /repo): api.conns. *)
Definition setconns (s : apist) (x : N -> option N) : apist :=
  mkApi x (active s) (mu s) (aclosed s) (next s) (cclosed s) (cidx s) (pcs s) (closeRet s).
(** setter (no counterpart in /repo): api.activeConns. *)
Definition setactive (s : apist) (x : N -> option N) : apist :=
  mkApi (conns s) x (mu s) (aclosed s) (next s) (cclosed s) (cidx s) (pcs s) (closeRet s).
(** Connection.Close (clientconn.go:454-465) as seen from here: the connection is closed. *)
Definition closeConn (s : apist) (c : N) : apist :=
  mkApi (conns s) (active s) (mu s) (aclosed s) (next s) (upd (cclosed s) c true) (cidx s) (pcs s) (closeRet s).

(** every active connection has been visited (and so closed) *)
Definition allActiveClosed (s : apist) : bool :=
  forallb (fun c => match active s c with Some _ => cclosed s c | None => true end)
          (map N.of_nat (seq 0 (N.to_nat (next s)))).

(** One action: api.go:135-266; the lines are given case by case. *)
Definition astep (s : apist) (l : alabel) : option apist :=
  match l with
  | ACallIdx t i => match pcs s t with AIdle => Some (setpc s t (AIdx i)) | _ => None end
  | ACallActive t => match pcs s t with AIdle => Some (setpc s t AActive) | _ => None end
  | ACallClose t => match pcs s t with AIdle => Some (setpc s t AClose) | _ => None end
  | AStep t =>
    match pcs s t with
    | AIdx i =>                                            (* api.go:136-141 *)
      match conns s i with
      | Some c => Some (setpc s t (AReq i c))
      | None => Some (setpc s t (AWo i))
      end
    | AWo i => match mu s with None => Some (setpc (setmu s (Some t)) t (AWoLoad i)) | Some _ => None end
    | AWoLoad i =>                                         (* api.go:153-155 *)
      match conns s i with
      | Some c => Some (setpc s t (AWoUnlock2 i c))
      | None => Some (setpc s t (AWoClosed i))
      end
    | AWoClosed i =>                                       (* api.go:206-208 *)
      if aclosed s then Some (setpc s t AWoErrUnlock) else Some (setpc s t (AWoDial i))
    | AWoErrUnlock => Some (setpc (setmu s None) t AIdle)
    | AWoStore i c =>                                      (* api.go:197-201 *)
      match conns s i with
      | Some _ => Some (setpc s t APanicked)
      | None => Some (setpc (setconns s (upd (conns s) i (Some c))) t (AWoStore2 i c))
      end
    | AWoStore2 i c => Some (setpc (setactive s (upd (active s) c (Some i))) t (AWoUnlock i c))
    | AWoUnlock i c | AWoUnlock2 i c => Some (setpc (setmu s None) t (AReq2 i c))
    | AScd i c k => Some (setpc (closeConn s c) t (AScdLock i c k))
    | AScdLock i c k =>
      match mu s with None => Some (setpc (setmu s (Some t)) t (AScdDel i c k)) | Some _ => None end
    | AScdDel i c k =>                                     (* api.go:189-192 *)
      match conns s i with
      | Some c' =>
        if N.eqb c' c then Some (setpc (setconns s (upd (conns s) i None)) t (AScdDel2 i c k))
        else Some (setpc s t (AScdDel2 i c k))
      | None => Some (setpc s t (AScdDel2 i c k))
      end
    | AScdDel2 i c k =>                                    (* api.go:193 and deferred unlock *)
      Some (setpc (setmu (setactive s (upd (active s) c None)) None) t
                  (match k with KRetry => AWo i | KReturn => AIdle end))
    | AClose =>                                            (* api.go:253-256 *)
      if aclosed s then Some (setpc s t AIdle)
      else Some (setpc (mkApi (conns s) (active s) (mu s) true (next s) (cclosed s) (cidx s) (pcs s) (closeRet s)) t ACloseLock)
    | ACloseLock => match mu s with None => Some (setpc (setmu s (Some t)) t ACloseRange) | Some _ => None end
    | _ => None
    end
  | AReqRes t ok =>
    match pcs s t with
    | AReq i c => Some (setpc s t (if ok then AIdle else AScd i c KRetry))     (* api.go:142-148 *)
    | AReq2 i c => Some (setpc s t (if ok then AIdle else AScd i c KReturn))   (* api.go:163-168, 174-181 *)
    | _ => None
    end
  | ADialRes t ok =>                                       (* api.go:209-215 *)
    match pcs s t with
    | AWoDial i =>
      if ok then
        Some (setpc (mkApi (conns s) (active s) (mu s) (aclosed s) (next s + 1) (upd (cclosed s) (next s) false)
                           (upd (cidx s) (next s) i) (pcs s) (closeRet s)) t (AWoStore i (next s)))
      else Some (setpc s t AWoErrUnlock)
    | _ => None
    end
  | APick t c =>                                           (* api.go:222-230 *)
    match pcs s t, active s c with
    | AActive, Some i => Some (setpc s t (AReq i c))
    | _, _ => None
    end
  | APickNone t => match pcs s t with AActive => Some (setpc s t AIdle) | _ => None end
  | ACloseOne t c =>
    match pcs s t, active s c with
    | ACloseRange, Some _ => Some (closeConn s c)
    | _, _ => None
    end
  | ACloseDone t =>                                        (* api.go:264-266 *)
    match pcs s t with
    | ACloseRange =>
      if allActiveClosed s then
        Some (setpc (mkApi (conns s) (active s) None (aclosed s) (next s) (cclosed s) (cidx s) (pcs s) true) t AIdle)
      else None
    | _ => None
    end
  | AConnDies c => if c <? next s then Some (closeConn s c) else None
  end.

(** api.go:47-60 NewAPI: [dialed] tells for each endpoint index whether NewConnection succeeded. *)
Fixpoint apiInit (dialed : list bool) (i : N) (s : apist) : apist :=
  match dialed with
  | [] => s
  | false :: r => apiInit r (i + 1) s
  | true :: r =>
    apiInit r (i + 1)
      (mkApi (upd (conns s) i (Some (next s))) (upd (active s) (next s) (Some i)) None false (next s + 1)
             (cclosed s) (upd (cidx s) (next s) i) (pcs s) false)
  end.
(** api.go:48: before the loop of NewAPI. *)
Definition api0 : apist :=
  mkApi (fun _ => None) (fun _ => None) None false 0 (fun _ => false) (fun _ => 0) (fun _ => AIdle) false.
(** api.go:30-63 NewAPI. *)
Definition newAPI (dialed : list bool) : apist := apiInit dialed 0 api0.
