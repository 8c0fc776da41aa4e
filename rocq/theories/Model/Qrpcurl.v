(** tool/qrpcurl: what the command line makes it do (tool/qrpcurl/main.go:25-108).
    By contract: urfave/cli's parsing of options (the model gets the two arguments, -f and -w), strings.Split, strconv.Atoi.
    Simplified: the first request of the connection is written on a link that is up (Model/FirstFrame.v for the bytes, id 3:
    clientconn.go:346-349, and no codec: tool/qrpcurl/main.go:67, 69); what is printed is left out. *)
From Verif Require Import Model.GoBase Model.Qrpc Model.FrameWriter Model.FirstFrame.
Open Scope N_scope.

(** strings.Split with a separator of one byte (tool/qrpcurl/main.go:34, 57) *)
Fixpoint split (sep : N) (l : bytes) : list bytes :=
  match l with
  | [] => [[]]
  | b :: l' =>
    let r := split sep l' in
    if b =? sep then [] :: r
    else match r with p :: ps => (b :: p) :: ps | [] => [[b]] end
  end.

(** the digits of strconv.Atoi (tool/qrpcurl/main.go:46), most significant first *)
Fixpoint digits (acc : N) (l : bytes) : option N :=
  match l with
  | [] => Some acc
  | b :: l' => if (48 <=? b) && (b <=? 57) then digits (acc * 10 + (b - 48)) l' else None
  end.

(** strconv.Atoi for a 64 bit int (tool/qrpcurl/main.go:46): an optional sign and at least one digit, in range *)
Definition atoi (l : bytes) : option Z :=
  let '(neg, ds) := match l with b :: r => if b =? 43 then (false, r) else if b =? 45 then (true, r) else (false, l) | [] => (false, l) end in
  match ds with
  | [] => None
  | _ :: _ =>
    match digits 0 ds with
    | None => None
    | Some n =>
      if (neg : bool) then (if n <=? 2 ^ 63 then Some (- Z.of_N n)%Z else None)
      else (if n <? 2 ^ 63 then Some (Z.of_N n) else None)
    end
  end.

(** How it ends: the usage or a message was printed; the process exits with an error; a nil pointer was dereferenced; it waits for
    the answer and prints it (tool/qrpcurl/main.go:95-105). *)
Inductive fin := FHelp | FMsg | FErr | FPanic | FWait.

(** What it did: dialed an address (as a websocket or not), sent a frame, and how it ended *)
Record outc := mkOut { o_dial : option (bytes * bool); o_wire : option bytes; o_fin : fin }.

(** tool/qrpcurl/main.go:25-105.  [dialOk]: the server can be reached. *)
Definition curl (args : list bytes) (flag : Z) (web dialOk : bool) : outc :=
  match args with
  | [url; payload] =>
    match split 47 url with
    | [] | [_] => mkOut None None FMsg                                          (* 35-37 *)
    | [hostAndPort; cmdStr] =>
      match atoi cmdStr with
      | None => mkOut None None FErr                                            (* 46-50 *)
      | Some cmdInt =>
        if (cmdInt <? 0)%Z || (Z.of_N MaxCmd <? cmdInt)%Z then mkOut None None FMsg (* 52-55 *)
        else if negb (length (split 58 hostAndPort) =? 2)%nat then mkOut None None FMsg (* 57-60 *)
        else if negb dialOk then mkOut (Some (hostAndPort, web)) None FErr      (* 66-74 *)
        else if (flag <? 0)%Z || (255 <? flag)%Z then mkOut (Some (hostAndPort, web)) None FMsg (* 76-80 *)
        else
          match snd (clientRequest None fresh 3 (Z.to_N cmdInt) (Z.to_N flag) payload) with (* 82 *)
          | EwSent wire => mkOut (Some (hostAndPort, web)) (Some wire) (if IsPush (Z.to_N flag) then FPanic else FWait) (* 95; clientconn.go:357-364 *)
          | _ => mkOut (Some (hostAndPort, web)) None FErr                      (* 83-86 *)
          end
      end
    | _ :: _ :: _ :: _ => mkOut None None FHelp                                 (* 38-41 *)
    end
  | _ => mkOut None None FHelp                                                  (* 26-29 *)
  end.
