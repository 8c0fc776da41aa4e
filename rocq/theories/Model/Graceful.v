(** Model of what Shutdown does to requests being handled, for one binding: Serve cancels the context of all its connections
    when it returns (server.go:292-293), serve and readFrames of each connection see that and close it
    (serveconn.go:151-162, 191-193, 372-379; reader.go:60-113 checks the context), EndWrite gives up when the context is done
    (serveconn.go:460-465, 483-484, 536-537), and Shutdown waits for srv.wg (server.go:515-545), serve for sc.wg
    (serveconn.go:158-159).

    Connections and requests are numbers.  Simplified: Serve has registered its listener, and a connection is counted by srv.wg
    as soon as it is accepted (the windows in between are in Model/ServeAll.v); closing the listener does not fail; a handler
    writes its response at most once, in one step, when the link is up (how writes are done: Model/WriteCombine.v); blocking
    requests are handlers like the others (serve handles them itself, so it returns after them as well). *)
From Verif Require Import Model.GoBase Model.Machine.
Open Scope N_scope.

(** Where Shutdown is (server.go:515-545): not called; listeners closed and done set; doneChan closed, running the shutdown
    functions or waiting for srv.wg; returned. *)
Inductive shutPhase := SNo | SClosed | SWait | SReturned.

(** A connection: not accepted; its serve loop runs; serve has closed it and waits for its goroutines; serve has returned. *)
Inductive connPhase := CNone | CLoop | CWait | CEnded.

(** A request handed to a handler: its connection, whether its handler is still running, the result of its EndWrite
    ([true] = nil, the response is on the wire), whether it had started when Shutdown was called. *)
Record greq := mkReq { rconn : N; running : bool; wrote : option bool; before : bool }.

(** The state: Shutdown, whether Serve has returned, the connections, whether their link is up, whether it was lost for a
    reason other than Shutdown, the handlers running on each (sc.wg), the requests, the connections srv.wg counts. *)
Record gst := mkG {
  shut : shutPhase; served : bool; conn : N -> connPhase; link : N -> bool; lostLink : N -> bool;
  hs : N -> list N; reqs : N -> option greq; act : list N }.

(** NewServer and Serve's start: server.go:154-175, 281-293 *)
Definition ginit : gst := mkG SNo false (fun _ => CNone) (fun _ => false) (fun _ => false) (fun _ => []) (fun _ => None) [].

(** The actions:
    - [GAccept c]: a connection is accepted and served (server.go:296, 333-336)
    - [GRequest r c]: serve starts a handler (serveconn.go:194-218)
    - [GWrite r], [GWriteErr r]: the handler's EndWrite returns nil or an error (serveconn.go:452-541)
    - [GReturn r]: the handler returns
    - [GShutdown], [GDoneChan], [GShutReturn]: Shutdown up to Unlock, close(doneChan), the return from wg.Wait (server.go:515-545)
    - [GServeReturn]: Serve sees the closed listener and doneChan and returns; serveCtx is cancelled (server.go:298-302, 293)
    - [GLost c]: the link fails, a limit is exceeded or a handler closes the connection
    - [GClose c]: readFrames closes the connection (serveconn.go:373)
    - [GLoopEnd c]: serve's loop returns and closes the connection (serveconn.go:191-193, 158)
    - [GConnEnd c]: sc.wg.Wait returns and so does serve (serveconn.go:159). *)
Inductive glabel :=
| GAccept (c : N) | GRequest (r c : N) | GWrite (r : N) | GWriteErr (r : N) | GReturn (r : N)
| GShutdown | GDoneChan | GShutReturn | GServeReturn | GLost (c : N) | GClose (c : N) | GLoopEnd (c : N) | GConnEnd (c : N).

(** The machine (the lines are with the labels). *)
Definition gstep (s : gst) (l : glabel) : option gst :=
  match l with
  | GAccept c =>
    match shut s, conn s c with
    | SNo, CNone => Some (mkG (shut s) (served s) (upd (conn s) c CLoop) (upd (link s) c true) (lostLink s) (hs s) (reqs s) (c :: act s))
    | _, _ => None
    end
  | GRequest r c =>
    match conn s c, reqs s r with
    | CLoop, None => Some (mkG (shut s) (served s) (conn s) (link s) (lostLink s) (upd (hs s) c (r :: hs s c))
        (upd (reqs s) r (Some (mkReq c true None (match shut s with SNo => true | _ => false end)))) (act s))
    | _, _ => None
    end
  | GWrite r =>
    match reqs s r with
    | Some q => if running q && link s (rconn q) then
        match wrote q with
        | None => Some (mkG (shut s) (served s) (conn s) (link s) (lostLink s) (hs s) (upd (reqs s) r (Some (mkReq (rconn q) true (Some true) (before q)))) (act s))
        | Some _ => None
        end else None
    | None => None
    end
  | GWriteErr r =>
    match reqs s r with
    | Some q => if running q && (served s || lostLink s (rconn q) || negb (link s (rconn q))) then
        match wrote q with
        | None => Some (mkG (shut s) (served s) (conn s) (link s) (lostLink s) (hs s) (upd (reqs s) r (Some (mkReq (rconn q) true (Some false) (before q)))) (act s))
        | Some _ => None
        end else None
    | None => None
    end
  | GReturn r =>
    match reqs s r with
    | Some q => if running q then
        Some (mkG (shut s) (served s) (conn s) (link s) (lostLink s) (upd (hs s) (rconn q) (filter (fun x => negb (N.eqb x r)) (hs s (rconn q))))
          (upd (reqs s) r (Some (mkReq (rconn q) false (wrote q) (before q)))) (act s)) else None
    | None => None
    end
  | GShutdown => match shut s with SNo => Some (mkG SClosed (served s) (conn s) (link s) (lostLink s) (hs s) (reqs s) (act s)) | _ => None end
  | GDoneChan => match shut s with SClosed => Some (mkG SWait (served s) (conn s) (link s) (lostLink s) (hs s) (reqs s) (act s)) | _ => None end
  | GServeReturn => match shut s with
      | SWait | SReturned => Some (mkG (shut s) true (conn s) (link s) (lostLink s) (hs s) (reqs s) (act s)) | _ => None end
  | GShutReturn =>
    match shut s, act s with
    | SWait, [] => Some (mkG SReturned (served s) (conn s) (link s) (lostLink s) (hs s) (reqs s) [])
    | _, _ => None
    end
  | GLost c => match conn s c with CLoop => Some (mkG (shut s) (served s) (conn s) (link s) (upd (lostLink s) c true) (hs s) (reqs s) (act s)) | _ => None end
  | GClose c =>
    match conn s c with
    | CLoop => if served s || lostLink s c then Some (mkG (shut s) (served s) (conn s) (upd (link s) c false) (lostLink s) (hs s) (reqs s) (act s)) else None
    | _ => None
    end
  | GLoopEnd c =>
    match conn s c with
    | CLoop => if served s || lostLink s c then Some (mkG (shut s) (served s) (upd (conn s) c CWait) (upd (link s) c false) (lostLink s) (hs s) (reqs s) (act s)) else None
    | _ => None
    end
  | GConnEnd c =>
    match conn s c, hs s c with
    | CWait, [] => Some (mkG (shut s) (served s) (upd (conn s) c CEnded) (link s) (lostLink s) (hs s) (reqs s) (filter (fun x => negb (N.eqb x c)) (act s)))
    | _, _ => None
    end
  end.
