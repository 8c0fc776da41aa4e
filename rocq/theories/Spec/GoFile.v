(** What a Go source file has to be like for the compiler to take it, for the kind of files that
    codegen/generator.go prints.  Not code of /repo: conditions of the Go language specification, as far as they
    depend on the names, types, imports and signatures in the file; fixed text inside functions is not looked at. *)
From Coq Require Import String Ascii.
From Verif Require Import Model.GoBase.
Open Scope string_scope.
Open Scope list_scope.

(** A type as written: [alias.name] or, with an empty alias, [name]; a pointer; a type of the language in fixed text. *)
Inductive texpr := TRef (alias name : string) | TPtr (t : texpr) | TWord (w : string).

(** A method or function signature.  [None]: no parameter list is written. *)
Record fsig := mkSig { sName : string; sParams : option (list texpr); sResults : list texpr }.

(** A function body. *)
Record body := mkBody {
  bTypes : list texpr;                            (* types written in it *)
  bQuals : list string;                           (* package names in its expressions *)
  bBlocks : list (list string);                   (* variables each block declares alone *)
  bCases : list string;                           (* constants of a switch *)
  bReturns : list texpr;                          (* types of the composite literals it returns *)
  bCalls : list (list texpr * list texpr);        (* function literals assigned to a codegen.MethodCall *)
  bUses : list (texpr * string) }.                (* methods called on a variable of a type *)

(** Declarations; a struct has its fields' names (the last name of an embedded type) and types. *)
Inductive decl :=
| DInterface (n : string) (ms : list fsig)
| DStruct (n : string) (fields : list (string * texpr))
| DFunc (s : fsig) (b : body)
| DMethod (ptr : bool) (recv : string) (s : fsig) (b : body).

(** imports: path and name. *)
Record file := mkFile { fImports : list (string * string); fDecls : list decl }.

(** *** Syntax: what format.Source checks *)

(** letters, digits and underscores, not beginning with a digit *)
Definition letter (a : ascii) : bool :=
  let n := N_of_ascii a in
  ((65 <=? n) && (n <=? 90) || (97 <=? n) && (n <=? 122) || (n =? 95))%N.
Definition digit (a : ascii) : bool := let n := N_of_ascii a in ((48 <=? n) && (n <=? 57))%N.
Fixpoint allb (p : ascii -> bool) (s : string) : bool := match s with EmptyString => true | String a s => p a && allb p s end.
Definition ident (s : string) : bool :=
  match s with EmptyString => false | String a s => letter a && allb (fun a => letter a || digit a) s end.

Fixpoint okType (t : texpr) : bool :=
  match t with TRef a n => (String.eqb a "" || ident a) && ident n | TPtr t => okType t | TWord _ => true end.
Definition okSig (s : fsig) : bool :=
  ident (sName s) && match sParams s with Some ps => forallb okType ps | None => false end && forallb okType (sResults s).
Definition okBody (b : body) : bool :=
  forallb okType (bTypes b) && forallb ident (bQuals b) && forallb okType (bReturns b) &&
  forallb (fun c => forallb okType (fst c) && forallb okType (snd c)) (bCalls b).
Definition okDecl (d : decl) : bool :=
  match d with
  | DInterface n ms => ident n && forallb okSig ms
  | DStruct n fs => ident n && forallb (fun f => ident (fst f) && okType (snd f)) fs
  | DFunc s b => okSig s && okBody b
  | DMethod _ r s b => ident r && okSig s && okBody b
  end.
Definition parses (f : file) : bool := forallb (fun i => ident (snd i)) (fImports f) && forallb okDecl (fDecls f).

(** *** Names and types: what the compiler checks *)

(** the names declared at package level; the types among them *)
Definition declared (d : decl) : list string :=
  match d with DInterface n _ => [n] | DStruct n _ => [n] | DFunc s _ => [sName s] | DMethod _ _ _ _ => [] end.
Definition declaredTypes (d : decl) : list string := match d with DInterface n _ => [n] | DStruct n _ => [n] | _ => [] end.
Definition names (f : file) : list string := flat_map declared (fDecls f).

(** the predeclared types *)
Definition predeclared : list string :=
  ["bool"; "byte"; "complex64"; "complex128"; "error"; "float32"; "float64"; "int"; "int8"; "int16"; "int32"; "int64"; "rune"; "string";
   "uint"; "uint8"; "uint16"; "uint32"; "uint64"; "uintptr"].

(** what belongs to type n: its methods and fields, whichever kind it is *)
Definition members (n : string) (d : decl) : list string :=
  match d with
  | DInterface m ms => if String.eqb m n then map sName ms else []
  | DStruct m fs => if String.eqb m n then map fst fs else []
  | DFunc _ _ => []
  | DMethod _ r s _ => if String.eqb r n then [sName s] else []
  end.

(** the types and package names written in a declaration *)
Definition sigTypes (s : fsig) : list texpr := match sParams s with Some ps => ps | None => [] end ++ sResults s.
Definition bodyTypes (b : body) : list texpr := bTypes b ++ bReturns b ++ flat_map (fun c => fst c ++ snd c) (bCalls b).
Definition types (d : decl) : list texpr :=
  match d with
  | DInterface _ ms => flat_map sigTypes ms
  | DStruct _ fs => map snd fs
  | DFunc s b => sigTypes s ++ bodyTypes b
  | DMethod _ r s b => TRef "" r :: sigTypes s ++ bodyTypes b
  end.
Definition quals (d : decl) : list string := match d with DFunc _ b => bQuals b | DMethod _ _ _ b => bQuals b | _ => [] end.
Definition bodies (d : decl) : list body := match d with DFunc _ b => [b] | DMethod _ _ _ b => [b] | _ => [] end.
Fixpoint alias (t : texpr) : string := match t with TRef a _ => a | TPtr t => alias t | TWord _ => "" end.

(** the type meant: of package p, of this file, of the language *)
Inductive rtexpr := RPkg (p n : string) | ROwn (n : string) | RPtr (t : rtexpr) | RWord (w : string).
Definition pathOf (f : file) (a : string) : option string :=
  match find (fun i => String.eqb (snd i) a) (fImports f) with Some i => Some (fst i) | None => None end.
Fixpoint resolve (f : file) (t : texpr) : option rtexpr :=
  match t with
  | TRef a n =>
    if String.eqb a "" then
      if existsb (String.eqb n) (predeclared ++ flat_map declaredTypes (fDecls f)) then Some (ROwn n) else None
    else match pathOf f a with Some p => Some (RPkg p n) | None => None end
  | TPtr t => match resolve f t with Some r => Some (RPtr r) | None => None end
  | TWord w => Some (RWord w)
  end.

(** method s of type r, called on a value or on a pointer, is the method [want] of an interface *)
Definition same (f : file) (s want : fsig) : Prop :=
  sName s = sName want /\
  option_map (map (resolve f)) (sParams s) = option_map (map (resolve f)) (sParams want) /\ map (resolve f) (sResults s) = map (resolve f) (sResults want).
Definition implements (f : file) (r : string) (onPtr : bool) (i : string) : Prop :=
  forall ms want, In (DInterface i ms) (fDecls f) -> In want ms ->
  exists ptr s b, In (DMethod ptr r s b) (fDecls f) /\ (ptr = true -> onPtr = true) /\ same f s want.
Definition returnsOk (f : file) (s : fsig) (b : body) : Prop :=
  forall t, In t (bReturns b) ->
  exists i, sResults s = [TRef "" i] /\
    match t with
    | TRef a r => a = "" /\ implements f r false i
    | TPtr (TRef a r) => a = "" /\ implements f r true i
    | _ => False
    end.

(** codegen.MethodCall (codegen/service_handler.go:13) *)
Definition methodCallOk (f : file) (c : list texpr * list texpr) : Prop :=
  map (resolve f) (fst c) = [Some (RPkg "context" "Context"); Some (RWord "[]byte")] /\
  map (resolve f) (snd c) = [Some (RWord "[]byte"); Some (RWord "error")].

(** The compiler takes the file.  [has t m]: a variable of type t has the method m (fixed text calls it with the right
    number and types of arguments). *)
Record accepted (has : rtexpr -> string -> bool) (f : file) : Prop := {
  a_parses : parses f = true;
  a_names : NoDup (names f ++ map snd (fImports f));
  a_members : forall n, In n (flat_map declaredTypes (fDecls f)) -> NoDup (flat_map (members n) (fDecls f));
  a_types : forall d t, In d (fDecls f) -> In t (types d) -> resolve f t <> None;
  a_quals : forall d a, In d (fDecls f) -> In a (quals d) -> pathOf f a <> None;
  a_imports : forall p a, In (p, a) (fImports f) -> exists d, In d (fDecls f) /\ (In a (quals d) \/ exists t, In t (types d) /\ alias t = a);
  a_blocks : forall d b, In d (fDecls f) -> In b (bodies d) -> (forall vs, In vs (bBlocks b) -> NoDup vs) /\ NoDup (bCases b);
  a_returns : forall d, In d (fDecls f) -> match d with DFunc s b => returnsOk f s b | DMethod _ _ s b => returnsOk f s b | _ => True end;
  a_calls : forall d b c, In d (fDecls f) -> In b (bodies d) -> In c (bCalls b) -> methodCallOk f c;
  a_uses : forall d b t m, In d (fDecls f) -> In b (bodies d) -> In (t, m) (bUses b) -> exists r, resolve f t = Some r /\ has r m = true }.
