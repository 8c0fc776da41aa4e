(** Model of the websocket listener, ws/server/overlay.go:39-95.  One label per atomic action: a handler of the HTTP server that
    has upgraded a connection, the two ways out of its select, the two ways out of Accept's select, Close.  Connections are
    numbered in the order of their upgrades.  Not modelled: failing upgrades (they leave nothing behind here), TLS, Addr, and the
    result of closing the TCP listener.  HTTP requests already accepted are still handled after Close (nothing calls the HTTP
    server's Close or Shutdown), so upgrades remain possible. *)
From Verif Require Import Model.GoBase Model.Machine.
Open Scope N_scope.

(** overlay.go:23-30 qrpcOverWS and the handlers inside overlay.go:54-57; the last three fields are observations: what Accept has
    returned, what the handlers have let go, and how many upgrades there have been. *)
Record wsl := mkWsl {
  chq : list N;        (* acceptCh, oldest first *)
  cancelled : bool;    (* ctx is done *)
  tcpClosed : bool;    (* the TCP listener is closed *)
  handlers : list N;   (* upgraded, in the select of 54-57 *)
  returned : list N;   (* by Accept, oldest first *)
  dropped : list N;    (* the handler returned by 56, oldest first *)
  upgrades : N }.

(** overlay.go:13-15 backlog *)
Definition backlog : nat := 128.

(** overlay.go:62-71 newOverlay *)
Definition wslInit : wsl := mkWsl [] false false [] [] [] 0.

(** The atomic actions of overlay.go:46-58, 79-94. *)
Inductive wslLabel :=
| WUpgrade          (* 48: Upgrade succeeds *)
| WEnqueue (c : N)  (* 55 *)
| WDrop (c : N)     (* 56 *)
| WAccept           (* 81-83 *)
| WAcceptErr        (* 84-86 *)
| WCancel           (* 91 *)
| WCloseTcp.        (* 92 *)

(** overlay.go:54-57: handler c leaves its select *)
Definition leave (c : N) (l : list N) : list N := filter (fun x => negb (N.eqb x c)) l.

(** overlay.go:46-58, 79-94 *)
Definition wslStep (s : wsl) (l : wslLabel) : option wsl :=
  match l with
  | WUpgrade => Some (mkWsl (chq s) (cancelled s) (tcpClosed s) (handlers s ++ [upgrades s]) (returned s) (dropped s) (upgrades s + 1))
  | WEnqueue c =>
    if existsb (N.eqb c) (handlers s) && Nat.ltb (length (chq s)) backlog
    then Some (mkWsl (chq s ++ [c]) (cancelled s) (tcpClosed s) (leave c (handlers s)) (returned s) (dropped s) (upgrades s)) else None
  | WDrop c =>
    if existsb (N.eqb c) (handlers s) && cancelled s
    then Some (mkWsl (chq s) (cancelled s) (tcpClosed s) (leave c (handlers s)) (returned s) (dropped s ++ [c]) (upgrades s)) else None
  | WAccept =>
    match chq s with
    | [] => None
    | c :: q => Some (mkWsl q (cancelled s) (tcpClosed s) (handlers s) (returned s ++ [c]) (dropped s) (upgrades s))
    end
  | WAcceptErr => if cancelled s then Some s else None
  | WCancel => Some (mkWsl (chq s) true (tcpClosed s) (handlers s) (returned s) (dropped s) (upgrades s))
  | WCloseTcp => if cancelled s then Some (mkWsl (chq s) (cancelled s) true (handlers s) (returned s) (dropped s) (upgrades s)) else None
  end.
