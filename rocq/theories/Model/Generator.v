(** Model of the code generator (codegen/generator.go): what Register and RegisterSub take, and the file that Generate
    prints and Output formats, as the declarations of Spec/GoFile.v instead of characters.

    Simplified: the methods of a service (util.ScanMethods) and the types of its inputs and outputs (reflect) are
    given; generator.CamelCase is a parameter; [al] gives the package names that
    generator.RegisterUniquePackageName chose; a map is a list in some order, the same for each range over it (it
    only permutes declarations); Generate is called once.  Inside functions only what Spec/GoFile.v looks at is
    kept.  Not modelled: the package clause, the file Output writes, cmd values. *)
From Coq Require Import String Ascii.
From Verif Require Import Model.GoBase Spec.GoFile.
Open Scope string_scope.
Open Scope list_scope.

(** concatenation of strings (no counterpart in /repo) *)
Infix "+++" := String.append (right associativity, at level 60).

(** A type by reflection: PkgPath() and Name(); whether it implements context.Context; whether a pointer to it
    implements Output and Marshaler (codegen/generator.go:76-97, codegen/io.go). *)
Record rtype := mkT { pkgPath : string; tname : string; isCtx : bool; ptrOutput : bool; ptrMarsh : bool }.

(** A method: name, util.FuncInputTypes and util.FuncOutputTypes (codegen/generator.go:59-66, 80-97). *)
Record rmethod := mkM { mname : string; ins : list rtype; outs : list rtype }.

(** codegen/generator.go:80-97; false: panics *)
Definition checkFuncIO (m : rmethod) : bool :=
  match ins m, outs m with
  | [c; _], [o] => isCtx c && ptrOutput o
  | _, _ => false
  end.

(** Generator: codegen/generator.go:21-27 (without cmds and buffer). *)
Record gen := mkGen { svc : string; services : list (string * list rmethod) }.

(** New and NewWithCmd: codegen/generator.go:35-42 *)
Definition New (camel : string -> string) (serviceName : string) : gen := mkGen (camel serviceName) [].

(** codegen/generator.go:58-74; None: panics *)
Definition registerSub (camel : string -> string) (g : gen) (ns : string) (methods : list rmethod) : option gen :=
  match methods with
  | [] => None
  | _ =>
    if forallb checkFuncIO methods then
      let ns := camel ns in
      if existsb (fun s => String.eqb (fst s) ns) (services g) then None
      else Some (mkGen (svc g) (services g ++ [(ns, methods)]))
    else None
  end.

(** codegen/generator.go:44-48 *)
Definition Register (camel : string -> string) (g : gen) (methods : list rmethod) : option gen := registerSub camel g "" methods.

(** codegen/generator.go:50-56 *)
Definition RegisterSub (camel : string -> string) (g : gen) (ns : string) (methods : list rmethod) : option gen :=
  if String.eqb ns "" then None else registerSub camel g ns methods.

(** inTypes[1], outTypes[0] and inTypes[0] of a checked method (codegen/generator.go:127-130); [mkT] is never used *)
Definition noType : rtype := mkT "" "" false false false.
(** inTypes[1]: codegen/generator.go:129 *)
Definition tin (m : rmethod) : rtype := nth 1 (ins m) noType.
(** outTypes[0]: codegen/generator.go:130 *)
Definition tout (m : rmethod) : rtype := nth 0 (outs m) noType.
(** inTypes[0]: codegen/generator.go:84; also outTypes[0] of lines 274 and 316, where outTypes are the input types *)
Definition tctx (m : rmethod) : rtype := nth 0 (ins m) noType.

(** codegen/generator.go:99-105 *)
Definition contextPkg := "context".
(** codegen/generator.go:101 *)
Definition qrpcPkg := "github.com/zhiqiangxu/qrpc".
(** codegen/generator.go:102 *)
Definition codegenPkg := "github.com/zhiqiangxu/qrpc/codegen".
(** codegen/generator.go:103 *)
Definition jsonPkg := "encoding/json".
(** codegen/generator.go:104 *)
Definition fmtPkg := "fmt".

(** all methods *)
Definition methods (g : gen) : list rmethod := flat_map snd (services g).
(** methods of the main service: g.services[""] (codegen/generator.go:207) *)
Definition mainMethods (g : gen) : list rmethod := flat_map (fun s => if String.eqb (fst s) "" then snd s else []) (services g).
(** the sub services (codegen/generator.go:211-214, 222-225, 306-309) *)
Definition subs (g : gen) : list (string * list rmethod) := filter (fun s => negb (String.eqb (fst s) "")) (services g).

(** the keys of allPkgs: codegen/generator.go:124-150 *)
Definition pkgs (g : gen) : list string :=
  nodup string_dec
    (filter (fun p => negb (String.eqb p "")) (flat_map (fun m => [pkgPath (tin m); pkgPath (tout m)]) (methods g))
     ++ [contextPkg; qrpcPkg; codegenPkg; fmtPkg; jsonPkg]).

(** codegen/generator.go:152-156 *)
Definition imports (g : gen) (al : string -> string) : list (string * string) := map (fun p => (p, al p)) (pkgs g).

(** ToLower of a letter of ASCII (strings.ToLower of other bytes is not modelled) *)
Definition lower (a : ascii) : ascii :=
  let n := N_of_ascii a in if ((65 <=? n) && (n <=? 90))%N then ascii_of_N (n + 32) else a.

(** codegen/generator.go:361; None: panics *)
Definition unexport (s : string) : option string := match s with EmptyString => None | String a r => Some (String (lower a) r) end.

(** A type in the text: codegen/generator.go:277-283, 368-377, 392-401. *)
Definition tyText (al : string -> string) (t : rtype) : texpr :=
  TRef (if String.eqb (pkgPath t) "" then "" else al (pkgPath t)) (tname t).

(** codegen/generator.go:363-379 *)
Definition clientSignature (al : string -> string) (m : rmethod) : fsig :=
  mkSig (mname m) (Some [TRef (al contextPkg) "Context"; tyText al (tin m)]) [tyText al (tout m)].

(** codegen/generator.go:381-429.  [recv]: unexport(g.serviceName) + ns + "Client". *)
Definition clientMethod (al : string -> string) (recv : string) (m : rmethod) : decl :=
  DMethod false recv (clientSignature al m)
    (mkBody [] ((if ptrMarsh (tin m) then [] else [al jsonPkg]) ++ (if ptrMarsh (tout m) then [] else [al jsonPkg]))
            [["c"; "ctx"; "input"; "output"; "cc"; "inBytes"; "err"; "outBytes"]] [] [] []
            ((if ptrMarsh (tin m) then [(tyText al (tin m), "Marshal")] else []) ++ [(tyText al (tout m), "SetError")]
             ++ (if ptrMarsh (tout m) then [(tyText al (tout m), "Unmarshal")] else []))).

(** The callback of a method: codegen/generator.go:272-303 and 318-343.  The types in the function literal; the
    literal text names package context. *)
Definition callback : list texpr * list texpr := ([TRef "context" "Context"; TWord "[]byte"], [TWord "[]byte"; TWord "error"]).
(** package names in a callback: codegen/generator.go:272, 285-299 *)
Definition callbackQuals (al : string -> string) (m : rmethod) : list string :=
  al codegenPkg :: (if ptrMarsh (tin m) then [] else [al jsonPkg]) ++ (if ptrMarsh (tctx m) then [] else [al jsonPkg]).

(** methods of the input and the output called in a callback: codegen/generator.go:285-299 *)
Definition callbackUses (al : string -> string) (m : rmethod) : list (texpr * string) :=
  (if ptrMarsh (tin m) then [(tyText al (tin m), "Unmarshal")] else []) ++ (if ptrMarsh (tctx m) then [(tyText al (tout m), "Marshal")] else []).

(** Generate: codegen/generator.go:173-359, with x = unexport(g.serviceName), in the order of printing. *)
Definition fileOf (g : gen) (al : string -> string) (x : string) : file :=
  let X := svc g in
  let cx := al contextPkg in let qr := al qrpcPkg in let cg := al codegenPkg in let fm := al fmtPkg in
  mkFile (imports g al) (
    (* 181-194 *)
    [DInterface (X +++ "Client")
       (flat_map (fun s => if String.eqb (fst s) "" then map (clientSignature al) (snd s)
                           else [mkSig (fst s +++ "Client") (Some []) [TRef "" (X +++ fst s +++ "Client")]]) (services g));
     (* 196-200 *)
     DStruct (x +++ "Client") [("Client", TPtr (TRef cg "Client"))];
     (* 201-204 *)
     DFunc (mkSig ("New" +++ X +++ "Client") (Some [TWord "[]string"; TRef qr "ConnectionConfig"]) [TRef "" (X +++ "Client")])
           (mkBody [] [cg; qr] [["addrs"; "conf"]] [] [TRef "" (x +++ "Client")] [] [])]
    (* 207-209 *)
    ++ map (clientMethod al (x +++ "Client")) (mainMethods g)
    (* 211-219: no parameter list, and the literal's type lacks "Client" *)
    ++ map (fun s => DMethod false (x +++ "Client") (mkSig (fst s +++ "Client") None []) (mkBody [TRef "" (x +++ fst s)] [] [["c"]] [] [] [] [])) (subs g)
    (* 222-246 *)
    ++ flat_map (fun s =>
         [DInterface (X +++ fst s +++ "Client") (map (clientSignature al) (snd s));
          DStruct (x +++ fst s +++ "Client") [("Client", TPtr (TRef cg "Client"))]]
         ++ map (clientMethod al (x +++ fst s +++ "Client")) (snd s)) (subs g)
    ++ [(* 249-254 *)
        DInterface (X +++ "ServiceMux")
          [mkSig "Register" (Some [TRef "" (X +++ "Service")]) []; mkSig "RegisterSub" (Some [TWord "string"; TWord "interface{}"]) [];
           mkSig "Mux" (Some []) [TPtr (TRef qr "ServeMux")]];
        (* 255-260 *)
        DInterface (X +++ "Service") (map (clientSignature al) (mainMethods g));
        (* 261-265 *)
        DStruct (x +++ "ServiceMux") [("callback", TRef cg "MethodCall"); ("mux", TPtr (TRef qr "ServeMux"))];
        (* 266-269 *)
        DFunc (mkSig ("New" +++ X +++ "ServiceMux") (Some []) [TRef "" (X +++ "ServiceMux")])
              (mkBody [] [cg] [] [] [TPtr (TRef "" (x +++ "ServiceMux"))] [] []);
        (* 270-303 *)
        DMethod true (x +++ "ServiceMux") (mkSig "Register" (Some [TRef "" (X +++ "Service")]) [])
              (mkBody (map (fun m => tyText al (tin m)) (mainMethods g)) (flat_map (callbackQuals al) (mainMethods g))
                      [["m"; "s"]; ["ctx"; "inBytes"; "outBytes"; "err"; "input"; "output"]] [] []
                      (map (fun _ => callback) (mainMethods g)) (flat_map (callbackUses al) (mainMethods g)));
        (* 304-349: ssInterface is declared once for each method, in the same clause *)
        DMethod true (x +++ "ServiceMux") (mkSig "RegisterSub" (Some [TWord "string"; TWord "interface{}"]) [])
              (mkBody (flat_map (fun s => map (fun m => tyText al (tin m)) (snd s) ++ map (fun _ => TRef "" (X +++ fst s +++ "Client")) (snd s)) (subs g))
                      (fm :: flat_map (fun s => flat_map (callbackQuals al) (snd s)) (subs g))
                      (["m"; "ns"; "ss"] :: map (fun s => map (fun _ => "ssInterface") (snd s)) (subs g))
                      (map fst (subs g)) []
                      (flat_map (fun s => map (fun _ => callback) (snd s)) (subs g))
                      (flat_map (fun s => flat_map (callbackUses al) (snd s)) (subs g)));
        (* 350-358: the literal text names package qrpc *)
        DMethod true (x +++ "ServiceMux") (mkSig "Mux" (Some []) [TPtr (TRef "qrpc" "ServeMux")])
              (mkBody [] [qr; cg] [["m"; "mux"]] [] [] [] [])]).

(** Generate and Output: codegen/generator.go:173-359, 440-457; None: panics (line 445: format.Source fails). *)
Definition Output (g : gen) (al : string -> string) : option file :=
  match unexport (svc g) with
  | None => None
  | Some x => let f := fileOf g al x in if parses f then Some f else None
  end.
