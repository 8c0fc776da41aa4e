(** Model of ServeAll (server.go:243-258): a run.Group with one actor per binding, whose execute function is Serve and whose
    interrupt function is Shutdown, on top of Model/ServeAll.v.

    run.Group (github.com/oklog/run, not part of /repo) is described by its documented behaviour: Run starts all execute
    functions in goroutines, waits for the first to return, calls all interrupt functions one after the other, waits for
    the other execute functions and returns the first error; with no actors it returns nil at once. *)
From Verif Require Import Model.GoBase Model.Machine Model.ServeAll.
Open Scope nat_scope.

(** Where ServeAll is: server.go:244-257. *)
Inductive gpc :=
| GNew            (* not called *)
| GWait           (* Run: waiting for the first Serve to return *)
| GInt (k : nat)  (* the k-th interrupt function: about to enter Shutdown (515-519) *)
| GIntChan (k : nat) (* in it, after its critical section: 534 *)
| GIntWg (k : nat)   (* in it, at wg.Wait: 541 *)
| GDrain          (* Run: waiting for the other Serve calls *)
| GRet.           (* returned *)

(** The server (Model/ServeAll.v), ServeAll, and how many errors Run has received: server.go:244-257 *)
Record gst := mkG { vs : vst; gp : gpc; got : nat }.

(** before ServeAll: server.go:154-237 *)
Definition ginit : gst := mkG vinit GNew 0.

(** how many of the n Serve calls have returned (their errors are in the channel of Run): server.go:250-251 *)
Definition finished (n : nat) (s : vst) : nat :=
  length (filter (fun i => match vp s i with VGone => true | _ => false end) (seq 0 n)).

(** The actions: the call of ServeAll; Run receives the first error; the next action of the interrupt functions; Run
    receives another error; and those of Serve, of other Shutdown calls and of the environment.  server.go:244-339, 515-545 *)
Inductive glabel := GServeAll | GFirst | GShut | GNext | GEnv (l : vlabel).

(** One action: server.go:244-257 and Model/ServeAll.v.  After the last interrupt function, and after each error received,
    Run returns if it has received n errors. *)
Definition gstep (n : nat) (g : gst) (l : glabel) : option gst :=
  match l with
  | GServeAll => match gp g with GNew => Some (mkG (vs g) (if n =? 0 then GRet else GWait) 0) | _ => None end
  | GFirst => match gp g with GWait => if 0 <? finished n (vs g) then Some (mkG (vs g) (GInt 0) 1) else None | _ => None end
  | GShut =>
    match gp g with
    | GInt k => if done (vs g) then Some (mkG (vs g) (GIntWg k) (got g))
                else Some (mkG (v_done true (closeUpTo n (vs g))) (GIntChan k) (got g))
    | GIntChan k => Some (mkG (v_dchan true (vs g)) (GIntWg k) (got g))
    | GIntWg k =>
      match conns (vs g) with
      | [] => Some (mkG (vs g) (if S k =? n then (if got g =? n then GRet else GDrain) else GInt (S k)) (got g))
      | _ => None
      end
    | _ => None
    end
  | GNext =>
    match gp g with
    | GDrain => if got g <? finished n (vs g) then Some (mkG (vs g) (if S (got g) =? n then GRet else GDrain) (S (got g))) else None
    | _ => None
    end
  | GEnv l =>
    match l, gp g with
    | EServe _, GNew => None (* Serve is called by Run *)
    | _, _ => match vstep n (vs g) l with Some s => Some (mkG s (gp g) (got g)) | None => None end
    end
  end.
