(** Model of Serve, Shutdown and the listeners together (server.go:281-339, 410-418, 515-545, 596-607): n bindings, whose
    Serve calls each run in a goroutine, any number of Shutdown calls, and the connections srv.wg counts.

    Simplified: the critical sections of srv.mu are atomic; sleeping between Accept calls and waitThrottle are left out
    (Model/Accept.v, Model/Throttle.v); the shutdown functions are in Model/Shutdown.v; a connection is a number, and may
    end at any time; Close of a listener closes it also if it returns an error (which listener fails is up to the environment). *)
From Verif Require Import Model.GoBase Model.Machine.
Open Scope nat_scope.

(** Where Serve of a binding is: server.go:281-339. *)
Inductive vpc :=
| VIdle            (* before trackListener: 286 *)
| VWait            (* at ln.Accept: 296 *)
| VGot (c : nat)   (* it returned connection c: 320-336 *)
| VErr             (* it returned an error: 297-319 *)
| VRet             (* returning ErrServerClosed: cancelFunc and trackListener(false): 287, 293 *)
| VLast            (* the deferred ln.Close: 283 *)
| VGone.           (* returned *)

(** Where a Shutdown call is, after its critical section (server.go:515-545): at close(doneChan) (534), at wg.Wait (541). *)
Inductive upc := UChan | UWg.

(** The server (server.go:127-147: listeners, mu, done, doneChan, wg), the listeners' state, and counters. *)
Record vst := mkV {
  vp : nat -> vpc; (* the Serve call of each binding *)
  opn : nat -> bool; (* its listener is open *)
  trk : nat -> bool; (* srv.listeners[i] is not nil *)
  done : bool; (* srv.done *)
  dchan : bool; (* doneChan is closed *)
  ups : list upc; (* Shutdown calls under way *)
  conns : list nat; (* connections being served: what srv.wg counts *)
  acc : nat; (* connections accepted so far; also the next connection's number *)
  okRet : nat; (* Shutdown calls that returned nil *)
  errRet : nat }. (* and an error *)

(** NewServer and ListenAll: server.go:154-235 *)
Definition vinit : vst := mkV (fun _ => VIdle) (fun _ => true) (fun _ => false) false false [] [] 0 0 0.

(** setters of the record above (no counterpart in /repo) *)
Definition v_vp (v : nat -> vpc) (s : vst) : vst := mkV v (opn s) (trk s) (done s) (dchan s) (ups s) (conns s) (acc s) (okRet s) (errRet s).
(** setter of a field of [vst] (no counterpart in /repo) *)
Definition v_opn (v : nat -> bool) (s : vst) : vst := mkV (vp s) v (trk s) (done s) (dchan s) (ups s) (conns s) (acc s) (okRet s) (errRet s).
(** setter of a field of [vst] (no counterpart in /repo) *)
Definition v_trk (v : nat -> bool) (s : vst) : vst := mkV (vp s) (opn s) v (done s) (dchan s) (ups s) (conns s) (acc s) (okRet s) (errRet s).
(** setter of a field of [vst] (no counterpart in /repo) *)
Definition v_done (v : bool) (s : vst) : vst := mkV (vp s) (opn s) (trk s) v (dchan s) (ups s) (conns s) (acc s) (okRet s) (errRet s).
(** setter of a field of [vst] (no counterpart in /repo) *)
Definition v_dchan (v : bool) (s : vst) : vst := mkV (vp s) (opn s) (trk s) (done s) v (ups s) (conns s) (acc s) (okRet s) (errRet s).
(** setter of a field of [vst] (no counterpart in /repo) *)
Definition v_ups (v : list upc) (s : vst) : vst := mkV (vp s) (opn s) (trk s) (done s) (dchan s) v (conns s) (acc s) (okRet s) (errRet s).
(** setter of a field of [vst] (no counterpart in /repo) *)
Definition v_conns (v : list nat) (s : vst) : vst := mkV (vp s) (opn s) (trk s) (done s) (dchan s) (ups s) v (acc s) (okRet s) (errRet s).
(** setter of a field of [vst] (no counterpart in /repo) *)
Definition v_acc (v : nat) (s : vst) : vst := mkV (vp s) (opn s) (trk s) (done s) (dchan s) (ups s) (conns s) v (okRet s) (errRet s).
(** setter of a field of [vst] (no counterpart in /repo) *)
Definition v_okRet (v : nat) (s : vst) : vst := mkV (vp s) (opn s) (trk s) (done s) (dchan s) (ups s) (conns s) (acc s) v (errRet s).
(** setter of a field of [vst] (no counterpart in /repo) *)
Definition v_errRet (v : nat) (s : vst) : vst := mkV (vp s) (opn s) (trk s) (done s) (dchan s) (ups s) (conns s) (acc s) (okRet s) v.

(** index assignment, as in srv.listeners[idx] = ln: server.go:410-418 *)
Definition nset {A : Type} (f : nat -> A) (i : nat) (v : A) : nat -> A := fun j => if (j =? i)%nat then v else f j.

(** server.go:596-607: the listeners before index k that are tracked are closed and forgotten *)
Definition closeUpTo (k : nat) (s : vst) : vst :=
  v_opn (fun i => if (i <? k) && trk s i then false else opn s i)
    (v_trk (fun i => if (i <? k) then false else trk s i) s).

(** list helpers for the Shutdown calls under way (no counterpart in /repo) *)
Fixpoint dropNth {A} (l : list A) (k : nat) : list A :=
  match l, k with [], _ => [] | _ :: l, O => l | x :: l, S k => x :: dropNth l k end.
(** as above: the k-th element replaced *)
Fixpoint putNth {A} (l : list A) (k : nat) (v : A) : list A :=
  match l, k with [], _ => [] | _ :: l, O => v :: l | x :: l, S k => x :: putNth l k v end.

(** The atomic actions of Serve (server.go:281-339), of Shutdown (515-545) and of the environment. *)
Inductive vlabel :=
| EServe (i : nat)                (* Serve(ln, i) is called and reaches trackListener: 283-287 *)
| EAccept (i : nat)               (* Accept returns a connection: 296 *)
| EAcceptErr (i : nat)            (* Accept fails: always possible (closed, or too many open files) *)
| ECheck (i : nat)                (* 298-302; a retry: 303-318 *)
| ERefuse (i : nat)               (* OnAccept refuses: 322-331 *)
| ESpawn (i : nat)                (* util.GoFunc: 333-336 *)
| ERet (i : nat)                  (* the deferred functions of Serve, in order *)
| EEnd (c : nat)                  (* serve of connection c returns *)
| EShutdown (bad : option nat)    (* Shutdown, up to Unlock: 517-532; bad: the listener whose Close fails *)
| EShut (k : nat).                (* the k-th Shutdown call goes on: 534, 541-543 *)

(** One action: server.go:281-339 (Serve), 410-418 (trackListener), 515-545 (Shutdown), 596-607 (closeListenersLocked). *)
Definition vstep (n : nat) (s : vst) (l : vlabel) : option vst :=
  match l with
  | EServe i => match vp s i with VIdle => if i <? n then Some (v_trk (nset (trk s) i true) (v_vp (nset (vp s) i VWait) s)) else None | _ => None end
  | EAccept i => match vp s i with VWait => if opn s i then Some (v_acc (S (acc s)) (v_vp (nset (vp s) i (VGot (acc s))) s)) else None | _ => None end
  | EAcceptErr i => match vp s i with VWait => Some (v_vp (nset (vp s) i VErr) s) | _ => None end
  | ECheck i => match vp s i with VErr => Some (v_vp (nset (vp s) i (if dchan s then VRet else VWait)) s) | _ => None end
  | ERefuse i => match vp s i with VGot _ => Some (v_vp (nset (vp s) i VWait) s) | _ => None end
  | ESpawn i => match vp s i with VGot c => Some (v_conns (c :: conns s) (v_vp (nset (vp s) i VWait) s)) | _ => None end
  | ERet i =>
    match vp s i with
    | VRet => Some (v_trk (nset (trk s) i false) (v_vp (nset (vp s) i VLast) s))
    | VLast => Some (v_opn (nset (opn s) i false) (v_vp (nset (vp s) i VGone) s))
    | _ => None
    end
  | EEnd c => if existsb (Nat.eqb c) (conns s) then Some (v_conns (filter (fun x => negb (x =? c)) (conns s)) s) else None
  | EShutdown bad =>
    if done s then Some (v_ups (ups s ++ [UWg]) s)
    else
      match bad with
      | Some b => if (b <? n) && trk s b then Some (v_errRet (S (errRet s)) (v_opn (nset (opn (closeUpTo b s)) b false) (closeUpTo b s))) else None
      | None => Some (v_ups (ups s ++ [UChan]) (v_done true (closeUpTo n s)))
      end
  | EShut k =>
    match nth_error (ups s) k with
    | Some UChan => Some (v_ups (putNth (ups s) k UWg) (v_dchan true s))
    | Some UWg => match conns s with [] => Some (v_okRet (S (okRet s)) (v_ups (dropNth (ups s) k) s)) | _ => None end
    | None => None
    end
  end.
