(** C76: the source file the code generator writes. *)
From Coq Require Import String Ascii.
From Verif Require Import Model.GoBase Spec.GoFile Model.Generator.
Open Scope string_scope.
Open Scope list_scope.

(** *** Strings *)

Lemma len_app : forall s t, String.length (s +++ t) = (String.length s + String.length t)%nat.
Proof. induction s as [|a s IH]; intro t; [reflexivity|]. cbn. rewrite IH. reflexivity. Qed.

Lemma allb_app : forall p s t, allb p (s +++ t) = allb p s && allb p t.
Proof. induction s as [|a s IH]; intro t; [reflexivity|]. cbn. rewrite IH, andb_assoc. reflexivity. Qed.

Definition word (a : ascii) : bool := letter a || digit a.

Lemma ident_app : forall s t, ident s = true -> allb word t = true -> ident (s +++ t) = true.
Proof.
  intros [|a s] t H T; [discriminate|]. cbn [ident String.append] in *. apply andb_prop in H. destruct H as [A B]. rewrite A, allb_app. cbn.
  unfold word in T. rewrite T, B. reflexivity.
Qed.

Lemma ident_word : forall s, ident s = true -> allb word s = true.
Proof. intros [|a s] H; [reflexivity|]. cbn in *. apply andb_prop in H. destruct H as [A B]. unfold word in *. rewrite A, B. reflexivity. Qed.

Lemma letter_lower : forall a, letter a = true -> letter (lower a) = true.
Proof. intros [[|] [|] [|] [|] [|] [|] [|] [|]] H; vm_compute in *; congruence. Qed.

Lemma ident_unexport : forall s x, ident s = true -> unexport s = Some x -> ident x = true.
Proof.
  intros [|a s] x H E; [discriminate|]. cbn in *. inversion E; subst. cbn. apply andb_prop in H. destruct H as [A B].
  rewrite (letter_lower a A), B. reflexivity.
Qed.

Lemma eqb_ne : forall a b, a <> b -> String.eqb a b = false.
Proof. intros a b H. apply String.eqb_neq. assumption. Qed.

(** *** What can be registered *)

(** A generator after some calls of Register and RegisterSub that did not panic; the methods of a Go type have
    different names. *)
Inductive made (camel : string -> string) : gen -> Prop :=
| made_new : forall n, made camel (New camel n)
| made_main : forall g ms g', made camel g -> NoDup (map mname ms) -> Register camel g ms = Some g' -> made camel g'
| made_sub : forall g ns ms g', made camel g -> NoDup (map mname ms) -> RegisterSub camel g ns ms = Some g' -> made camel g'.

Lemma made_ok : forall camel g, made camel g ->
  NoDup (map fst (services g)) /\ forall ns ms, In (ns, ms) (services g) -> ms <> [] /\ NoDup (map mname ms) /\ forall m, In m ms -> checkFuncIO m = true.
Proof.
  intros camel.
  assert (R : forall g ns ms g', NoDup (map mname ms) -> registerSub camel g ns ms = Some g' ->
    (NoDup (map fst (services g)) /\ forall ns ms, In (ns, ms) (services g) -> ms <> [] /\ NoDup (map mname ms) /\ forall m, In m ms -> checkFuncIO m = true) ->
    (NoDup (map fst (services g')) /\ forall ns ms, In (ns, ms) (services g') -> ms <> [] /\ NoDup (map mname ms) /\ forall m, In m ms -> checkFuncIO m = true)).
  { intros g ns ms g' ND H [A B]. unfold registerSub in H. destruct ms as [|m0 ms0]; [discriminate|].
    destruct (forallb checkFuncIO (m0 :: ms0)) eqn:F; [|discriminate]. destruct (existsb (fun s => String.eqb (fst s) (camel ns)) (services g)) eqn:E; [discriminate|].
    inversion H; subst g'; clear H. cbn [services]. split.
    - rewrite map_app. cbn [map fst]. rewrite <- (rev_involutive (map fst (services g) ++ [camel ns])). apply NoDup_rev. rewrite rev_app_distr. cbn.
      constructor; [|apply NoDup_rev; assumption]. rewrite <- in_rev. intro X. apply in_map_iff in X. destruct X as (s & X & Y).
      assert (Z : existsb (fun s => String.eqb (fst s) (camel ns)) (services g) = true) by (apply existsb_exists; exists s; split; [assumption|apply String.eqb_eq; assumption]).
      congruence.
    - intros ns' ms' X. apply in_app_or in X. destruct X as [X|[X|[]]]; [apply (B ns' ms' X)|]. inversion X; subst. split; [discriminate|]. split; [assumption|].
      rewrite forallb_forall in F. assumption. }
  intros g H. induction H as [n|g ms g' H IH ND E|g ns ms g' H IH ND E].
  - split; [constructor|intros ? ? []].
  - apply (R g "" ms g' ND E IH).
  - unfold RegisterSub in E. destruct (String.eqb ns ""); [discriminate|]. apply (R g ns ms g' ND E IH).
Qed.

(** the type itself *)
Definition typeOf (t : rtype) : rtexpr := if String.eqb (pkgPath t) "" then ROwn (tname t) else RPkg (pkgPath t) (tname t).

(** What reflection, the Go language and generator.RegisterUniquePackageName (by contract) provide: named types of a
    package have an identifier as name, other named types are predeclared; method names are identifiers; package
    names are identifiers and unique; the first parameters (contexts) are no Marshalers; a variable of a type has the
    methods that reflection finds for a pointer to it. *)
Record provided (has : rtexpr -> string -> bool) (g : gen) (al : string -> string) : Prop := {
  p_ident : forall p, In p (pkgs g) -> ident (al p) = true;
  p_inj : forall p q, In p (pkgs g) -> In q (pkgs g) -> al p = al q -> p = q;
  p_type : forall m t, In m (methods g) -> t = tin m \/ t = tout m ->
    if String.eqb (pkgPath t) "" then tname t = "" \/ In (tname t) predeclared else ident (tname t) = true;
  p_method : forall m, In m (methods g) -> ident (mname m) = true;
  p_ctx : forall m, In m (methods g) -> ptrMarsh (tctx m) = false;
  p_has : forall m t, In m (methods g) -> t = tin m \/ t = tout m ->
    has (typeOf t) "SetError" = ptrOutput t /\ (ptrMarsh t = true -> has (typeOf t) "Marshal" = true /\ has (typeOf t) "Unmarshal" = true) }.

Definition C76_statement : Prop :=
  forall has camel g al, made camel g -> provided has g al -> exists f, Output g al = Some f /\ accepted has f.

(** *** The file for one main service *)

Definition top (X x : string) : list string :=
  [X +++ "Client"; x +++ "Client"; "New" +++ X +++ "Client"; X +++ "ServiceMux"; X +++ "Service"; x +++ "ServiceMux"; "New" +++ X +++ "ServiceMux"].

(** exactly when the file is accepted *)
Definition fit (g : gen) (al : string -> string) : Prop :=
  exists ms x, services g = [("", ms)] /\ ident (svc g) = true /\ unexport (svc g) = Some x /\ x <> svc g /\
    (forall m, In m ms -> tname (tin m) <> "" /\ tname (tout m) <> "" /\ mname m <> "Client") /\
    al qrpcPkg = "qrpc" /\ al contextPkg = "context" /\
    forall p, In p (pkgs g) -> ~ In (al p) (top (svc g) x).

Section Main.
  Variables (X x : string) (ms : list rmethod) (al : string -> string).
  Let g := mkGen X [("", ms)].
  Let cg := al codegenPkg.
  Let qr := al qrpcPkg.

  Definition pre : list decl :=
    [DInterface (X +++ "Client") (map (clientSignature al) ms);
     DStruct (x +++ "Client") [("Client", TPtr (TRef cg "Client"))];
     DFunc (mkSig ("New" +++ X +++ "Client") (Some [TWord "[]string"; TRef qr "ConnectionConfig"]) [TRef "" (X +++ "Client")])
           (mkBody [] [cg; qr] [["addrs"; "conf"]] [] [TRef "" (x +++ "Client")] [] [])].
  Definition post : list decl :=
    [DInterface (X +++ "ServiceMux")
       [mkSig "Register" (Some [TRef "" (X +++ "Service")]) []; mkSig "RegisterSub" (Some [TWord "string"; TWord "interface{}"]) [];
        mkSig "Mux" (Some []) [TPtr (TRef qr "ServeMux")]];
     DInterface (X +++ "Service") (map (clientSignature al) ms);
     DStruct (x +++ "ServiceMux") [("callback", TRef cg "MethodCall"); ("mux", TPtr (TRef qr "ServeMux"))];
     DFunc (mkSig ("New" +++ X +++ "ServiceMux") (Some []) [TRef "" (X +++ "ServiceMux")])
           (mkBody [] [cg] [] [] [TPtr (TRef "" (x +++ "ServiceMux"))] [] []);
     DMethod true (x +++ "ServiceMux") (mkSig "Register" (Some [TRef "" (X +++ "Service")]) [])
           (mkBody (map (fun m => tyText al (tin m)) ms) (flat_map (callbackQuals al) ms)
                   [["m"; "s"]; ["ctx"; "inBytes"; "outBytes"; "err"; "input"; "output"]] [] [] (map (fun _ => callback) ms)
                   (flat_map (callbackUses al) ms));
     DMethod true (x +++ "ServiceMux") (mkSig "RegisterSub" (Some [TWord "string"; TWord "interface{}"]) [])
           (mkBody [] [al fmtPkg] [["m"; "ns"; "ss"]] [] [] [] []);
     DMethod true (x +++ "ServiceMux") (mkSig "Mux" (Some []) [TPtr (TRef "qrpc" "ServeMux")])
           (mkBody [] [qr; cg] [["m"; "mux"]] [] [] [] [])].

  Lemma fileOf_main : fileOf g al x = mkFile (imports g al) (pre ++ map (clientMethod al (x +++ "Client")) ms ++ post).
  Proof. unfold fileOf, pre, post, mainMethods, subs, g. cbn [services svc flat_map fst snd String.eqb filter negb map]. rewrite !app_nil_r. reflexivity. Qed.
End Main.

(** *** Names *)

Lemma names_main : forall X x ms al, names (mkFile (imports (mkGen X [("", ms)]) al) (pre X x ms al ++ map (clientMethod al (x +++ "Client")) ms ++ post X x ms al)) = top X x.
Proof.
  intros. unfold names. cbn [fDecls]. rewrite !flat_map_app.
  replace (flat_map declared (map (clientMethod al (x +++ "Client")) ms)) with (@nil string); [reflexivity|].
  induction ms as [|m l IH]; [reflexivity|]. cbn. assumption.
Qed.

Lemma typeNames_main : forall X x ms al, flat_map declaredTypes (pre X x ms al ++ map (clientMethod al (x +++ "Client")) ms ++ post X x ms al) =
  [X +++ "Client"; x +++ "Client"; X +++ "ServiceMux"; X +++ "Service"; x +++ "ServiceMux"].
Proof.
  intros. rewrite !flat_map_app.
  replace (flat_map declaredTypes (map (clientMethod al (x +++ "Client")) ms)) with (@nil string); [reflexivity|].
  induction ms as [|m l IH]; [reflexivity|]. cbn. assumption.
Qed.

Lemma cons_ne : forall a b r s t, a <> b -> String a r +++ s <> String b r +++ t.
Proof. intros a b r s t H E. cbn in E. inversion E. contradiction. Qed.

Ltac bylen := let EE := fresh in intro EE; apply (f_equal String.length) in EE; rewrite ?len_app in EE; cbn in EE; rewrite ?len_app in EE; cbn in EE; lia.

Lemma top_nodup : forall a b r, a <> b -> NoDup (top (String a r) (String b r)).
Proof.
  intros a b r H. unfold top.
  repeat constructor; cbn [In]; intros Q;
    repeat match goal with Q : _ \/ _ |- _ => destruct Q as [Q|Q] end; try contradiction;
    first [ exact (cons_ne _ _ _ _ _ H Q) | exact (cons_ne _ _ _ _ _ H (eq_sym Q)) | (revert Q; bylen) ].
Qed.

Lemma imports_snd : forall g al, map snd (imports g al) = map al (pkgs g).
Proof. intros. unfold imports. rewrite map_map. reflexivity. Qed.

Lemma nodup_map_inj : forall A B (h : A -> B) l, NoDup l -> (forall p q, In p l -> In q l -> h p = h q -> p = q) -> NoDup (map h l).
Proof.
  intros A B h l ND. induction ND as [|p l NI ND IH]; intro H; cbn; [constructor|]. constructor.
  - intro Y. apply in_map_iff in Y. destruct Y as (q & E & Y). rewrite (H p q) in NI; [contradiction|left; reflexivity|right; assumption|auto].
  - apply IH. intros p' q' A' B'. apply H; right; assumption.
Qed.

Lemma nodup_app : forall A (l l' : list A), NoDup l -> NoDup l' -> (forall x, In x l -> In x l' -> False) -> NoDup (l ++ l').
Proof.
  intros A l l' ND ND' H. induction ND as [|a l NI ND IH]; cbn; [assumption|]. constructor.
  - intro Y. apply in_app_or in Y. destruct Y as [Y|Y]; [contradiction|apply (H a); [left; reflexivity|assumption]].
  - apply IH. intros y A1 A2. apply (H y); [right; assumption|assumption].
Qed.

Lemma nodup_app_split : forall A (l l' : list A), NoDup (l ++ l') -> NoDup l /\ NoDup l' /\ forall x, In x l -> In x l' -> False.
Proof.
  induction l as [|a l IH]; intros l' H; cbn in *.
  - split; [constructor|]. split; [assumption|]. intros x [].
  - inversion H; subst. destruct (IH l' H3) as (A1 & A2 & A3). split; [constructor; [intro Y; apply H2; apply in_or_app; auto|assumption]|]. split; [assumption|].
    intros x [->|Y] Z; [apply H2; apply in_or_app; auto|apply (A3 x); assumption].
Qed.

(** *** Packages *)

Lemma in_pkgs : forall g p, In p (pkgs g) <-> (p <> "" /\ exists m, In m (methods g) /\ (p = pkgPath (tin m) \/ p = pkgPath (tout m))) \/ In p [contextPkg; qrpcPkg; codegenPkg; fmtPkg; jsonPkg].
Proof.
  intros g p. unfold pkgs. rewrite nodup_In, in_app_iff, filter_In, in_flat_map. split.
  - intros [[(m & A & B) C]|A]; [left|right; assumption]. split; [intros ->; discriminate|]. exists m. split; [assumption|]. destruct B as [B|[B|[]]]; auto.
  - intros [[A (m & B & C)]|A]; [left|right; assumption]. split; [exists m; split; [assumption|]; cbn; destruct C as [->| ->]; auto|].
    apply Bool.negb_true_iff. apply eqb_ne. assumption.
Qed.

Lemma path_of : forall has g al p ds, provided has g al -> In p (pkgs g) -> pathOf (mkFile (imports g al) ds) (al p) = Some p.
Proof.
  intros has g al p ds P HI. unfold pathOf. cbn [fImports]. unfold imports.
  assert (Q : forall l, (forall q, In q l -> In q (pkgs g)) -> In p l -> find (fun i => String.eqb (snd i) (al p)) (map (fun q => (q, al q)) l) = Some (p, al p)).
  { induction l as [|q l IH]; intros A B; [contradiction|]. cbn. destruct (String.eqb_spec (al q) (al p)) as [E|NE].
    - rewrite (p_inj _ _ _ P q p (A q (or_introl eq_refl)) HI E). reflexivity.
    - destruct B as [->|B]; [congruence|]. apply IH; [intros; apply A; right; assumption|assumption]. }
  rewrite Q by auto. reflexivity.
Qed.

Lemma ident_ne : forall s, ident s = true -> s <> "".
Proof. intros [|a s] H; [discriminate|discriminate]. Qed.

Lemma path_some : forall g al a ds p, pathOf (mkFile (imports g al) ds) a = Some p -> In p (pkgs g) /\ al p = a.
Proof.
  intros g al a ds p H. unfold pathOf in H. cbn [fImports] in H. destruct (find (fun i => String.eqb (snd i) a) (imports g al)) as [[q b]|] eqn:E; [|discriminate].
  apply find_some in E. cbn in *. inversion H; subst q. destruct E as [E F]. apply String.eqb_eq in F. unfold imports in E. apply in_map_iff in E.
  destruct E as (q & E & G). inversion E; subst. auto.
Qed.

Lemma predeclared_ident : forall n, In n predeclared -> ident n = true.
Proof. intros n H. cbn in H. repeat (destruct H as [<-|H]; [reflexivity|]). contradiction. Qed.

(** *** A fit generator's file is accepted *)

Section Fit.
  Variables (a b : ascii) (r : string) (ms : list rmethod) (al : string -> string).
  Let X := String a r.
  Let x := String b r.
  Let g := mkGen X [("", ms)].
  Let ds := pre X x ms al ++ map (clientMethod al (x +++ "Client")) ms ++ post X x ms al.
  Let f := mkFile (imports g al) ds.
  Hypothesis AB : a <> b.
  Hypothesis IX : ident X = true.
  Hypothesis IY : ident x = true.
  Variable has : rtexpr -> string -> bool.
  Hypothesis P : provided has g al.
  Hypothesis ND : NoDup (map mname ms).
  Hypothesis NE : ms <> [].
  Hypothesis TN : forall m, In m ms -> tname (tin m) <> "" /\ tname (tout m) <> "" /\ mname m <> "Client".
  Hypothesis QR : al qrpcPkg = "qrpc".
  Hypothesis CX : al contextPkg = "context".
  Hypothesis NT : forall p, In p (pkgs g) -> ~ In (al p) (top X x).

  Lemma in_ms : forall m, In m ms -> In m (methods g).
  Proof. intros m H. unfold methods, g. cbn. rewrite app_nil_r. assumption. Qed.

  Lemma in_ds : forall d, In d ds -> In d (pre X x ms al) \/ (exists m, In m ms /\ d = clientMethod al (x +++ "Client") m) \/ In d (post X x ms al).
  Proof.
    intros d H. unfold ds in H. apply in_app_or in H. destruct H as [H|H]; [auto|]. apply in_app_or in H. destruct H as [H|H]; [|auto].
    apply in_map_iff in H. destruct H as (m & <- & H). right. left. exists m. auto.
  Qed.

  Lemma std_pkgs : forall p, In p [contextPkg; qrpcPkg; codegenPkg; fmtPkg; jsonPkg] -> In p (pkgs g).
  Proof. intros p H. apply in_pkgs. auto. Qed.

  Lemma std_ident : forall p, In p [contextPkg; qrpcPkg; codegenPkg; fmtPkg; jsonPkg] -> ident (al p) = true.
  Proof. intros p H. apply (p_ident _ _ _ P). apply std_pkgs. assumption. Qed.

  Lemma ty_pkg : forall m t, In m ms -> t = tin m \/ t = tout m -> pkgPath t <> "" -> In (pkgPath t) (pkgs g).
  Proof. intros m t H E N. apply in_pkgs. left. split; [assumption|]. exists m. split; [apply in_ms; assumption|]. destruct E as [->| ->]; auto. Qed.

  Lemma ty_ok : forall m t, In m ms -> t = tin m \/ t = tout m -> okType (tyText al t) = true.
  Proof.
    intros m t H E. assert (N : tname t <> "") by (destruct (TN m H) as (A & B & _); destruct E as [->| ->]; assumption).
    pose proof (p_type _ _ _ P m t (in_ms m H) E) as T. unfold tyText. cbn [okType]. destruct (String.eqb_spec (pkgPath t) "") as [Z|Z].
    - destruct T as [T|T]; [contradiction|]. cbn. apply predeclared_ident. assumption.
    - rewrite T, (p_ident _ _ _ P _ (ty_pkg m t H E Z)). rewrite orb_true_r. reflexivity.
  Qed.

  Lemma sig_ok : forall m, In m ms -> okSig (clientSignature al m) = true.
  Proof.
    intros m H. unfold okSig, clientSignature. cbn [sName sParams sResults forallb okType]. rewrite (p_method _ _ _ P m (in_ms m H)).
    rewrite (ty_ok m _ H (or_introl eq_refl)), (ty_ok m _ H (or_intror eq_refl)), (std_ident contextPkg) by (cbn; auto). rewrite orb_true_r. reflexivity.
  Qed.

  Lemma sigs_ok : forallb okSig (map (clientSignature al) ms) = true.
  Proof. apply forallb_forall. intros s H. apply in_map_iff in H. destruct H as (m & <- & H). apply sig_ok. assumption. Qed.

  Lemma idC : forall s, ident s = true -> ident (s +++ "Client") = true. Proof. intros. apply ident_app; [assumption|reflexivity]. Qed.
  Lemma idM : forall s, ident s = true -> ident (s +++ "ServiceMux") = true. Proof. intros. apply ident_app; [assumption|reflexivity]. Qed.
  Lemma idS : forall s, ident s = true -> ident (s +++ "Service") = true. Proof. intros. apply ident_app; [assumption|reflexivity]. Qed.
  Lemma idN : forall s, ident s = true -> ident ("New" +++ s) = true.
  Proof. intros s H. apply ident_app; [reflexivity|apply ident_word; assumption]. Qed.

  Lemma fit_parses : parses f = true.
  Proof.
    unfold parses. apply andb_true_intro. split.
    - apply forallb_forall. intros [p q] H. cbn in *. unfold f, imports in H. cbn in H. apply in_map_iff in H. destruct H as (p' & E & H). inversion E; subst. apply (p_ident _ _ _ P). assumption.
    - cbn [fDecls f]. apply forallb_forall. intros d H.
      pose proof (std_ident codegenPkg) as ICG. pose proof (std_ident qrpcPkg) as IQR. pose proof (std_ident fmtPkg) as IFM. pose proof (std_ident jsonPkg) as IJS.
      specialize (ICG ltac:(cbn; auto)). specialize (IQR ltac:(cbn; auto)). specialize (IFM ltac:(cbn; auto 6)). specialize (IJS ltac:(cbn; auto 6)).
      pose proof (idC X IX) as A1. pose proof (idC x IY) as A2. pose proof (idM X IX) as A3. pose proof (idM x IY) as A4. pose proof (idS X IX) as A5.
      pose proof (idN _ A1) as A6. pose proof (idN _ A3) as A7. pose proof sigs_ok as SO.
      destruct (in_ds d H) as [HP|[(m & HM & ->)|HP]].
      + unfold pre in HP. destruct HP as [<-|[<-|[<-|[]]]]; cbn [okDecl]; rewrite ?SO; unfold okSig, okBody; cbn [okType forallb fst snd sName sParams sResults bTypes bQuals bReturns bCalls];
          rewrite ?A1, ?A2, ?A6, ?SO, ?ICG, ?IQR, ?orb_true_r; reflexivity.
      + unfold clientMethod. cbn [okDecl]. rewrite A2, (sig_ok m HM). unfold okBody. cbn [bTypes bQuals bReturns bCalls forallb].
        destruct (ptrMarsh (tin m)), (ptrMarsh (tout m)); cbn; rewrite ?IJS; reflexivity.
      + assert (T1 : forallb okType (map (fun m => tyText al (tin m)) ms) = true).
        { apply forallb_forall. intros t Q. apply in_map_iff in Q. destruct Q as (m & <- & Q). apply (ty_ok m); auto. }
        assert (T2 : forallb ident (flat_map (callbackQuals al) ms) = true).
        { apply forallb_forall. intros q Q. apply in_flat_map in Q. destruct Q as (m & Q & QQ). unfold callbackQuals in QQ. destruct QQ as [<-|QQ]; [assumption|].
          destruct (ptrMarsh (tin m)), (ptrMarsh (tctx m)); cbn in QQ; repeat (destruct QQ as [<-|QQ]; [assumption|]); contradiction. }
        assert (T3 : forallb (fun c => forallb okType (fst c) && forallb okType (snd c)) (map (fun _ : rmethod => callback) ms) = true).
        { apply forallb_forall. intros c Q. apply in_map_iff in Q. destruct Q as (m & <- & Q). reflexivity. }
        unfold post in HP. destruct HP as [<-|[<-|[<-|[<-|[<-|[<-|[<-|[]]]]]]]];
          cbn [okDecl]; rewrite ?SO; unfold okSig, okBody; cbn [okType forallb fst snd sName sParams sResults bTypes bQuals bReturns bCalls];
          rewrite ?A1, ?A2, ?A3, ?A4, ?A5, ?A6, ?A7, ?SO, ?ICG, ?IQR, ?IFM, ?T1, ?T2, ?T3, ?orb_true_r; reflexivity.
  Qed.

  Lemma fit_names : NoDup (names f ++ map snd (fImports f)).
  Proof.
    unfold f, ds, g. rewrite (names_main X x ms al). fold g. cbn [fImports]. rewrite imports_snd. apply nodup_app.
    - apply top_nodup. assumption.
    - apply nodup_map_inj; [apply NoDup_nodup|apply (p_inj _ _ _ P)].
    - intros n A B. apply in_map_iff in B. destruct B as (p & <- & B). apply (NT p B A).
  Qed.

  Lemma members_ms : forall n, flat_map (members n) (map (clientMethod al (x +++ "Client")) ms) = if String.eqb (x +++ "Client") n then map mname ms else [].
  Proof.
    intro n. destruct (String.eqb (x +++ "Client") n) eqn:E; generalize ms; induction ms0 as [|m l IH]; try reflexivity; cbn [map flat_map clientMethod members]; rewrite E, IH; reflexivity.
  Qed.

  Lemma sigs_names : map sName (map (clientSignature al) ms) = map mname ms.
  Proof. rewrite map_map. reflexivity. Qed.

  Lemma fit_members : forall n, In n (flat_map declaredTypes (fDecls f)) -> NoDup (flat_map (members n) (fDecls f)).
  Proof.
    intros n H. cbn [fDecls f] in *. unfold ds in *. rewrite (typeNames_main X x ms al) in H. rewrite !flat_map_app, members_ms.
    assert (D1 : X +++ "Client" <> x +++ "Client") by (apply cons_ne; assumption).
    assert (D2 : X +++ "Client" <> X +++ "ServiceMux") by (unfold X; bylen).
    assert (D3 : X +++ "Client" <> X +++ "Service") by (unfold X; bylen).
    assert (D4 : X +++ "Client" <> x +++ "ServiceMux") by (unfold X, x; bylen).
    assert (D5 : x +++ "Client" <> X +++ "ServiceMux") by (unfold X, x; bylen).
    assert (D6 : x +++ "Client" <> X +++ "Service") by (unfold X, x; bylen).
    assert (D7 : x +++ "Client" <> x +++ "ServiceMux") by (unfold X, x; bylen).
    assert (D8 : X +++ "ServiceMux" <> X +++ "Service") by (unfold X, x; bylen).
    assert (D9 : X +++ "ServiceMux" <> x +++ "ServiceMux") by (apply cons_ne; assumption).
    assert (D0 : X +++ "Service" <> x +++ "ServiceMux") by (unfold X, x; bylen).
    unfold pre, post. destruct H as [<-|[<-|[<-|[<-|[<-|[]]]]]]; cbn [flat_map members];
      rewrite ?String.eqb_refl, ?(eqb_ne _ _ D1), ?(eqb_ne _ _ D2), ?(eqb_ne _ _ D3), ?(eqb_ne _ _ D4), ?(eqb_ne _ _ D5), ?(eqb_ne _ _ D6), ?(eqb_ne _ _ D7), ?(eqb_ne _ _ D8), ?(eqb_ne _ _ D9), ?(eqb_ne _ _ D0),
        ?(eqb_ne _ _ (not_eq_sym D1)), ?(eqb_ne _ _ (not_eq_sym D2)), ?(eqb_ne _ _ (not_eq_sym D3)), ?(eqb_ne _ _ (not_eq_sym D4)), ?(eqb_ne _ _ (not_eq_sym D5)), ?(eqb_ne _ _ (not_eq_sym D6)),
        ?(eqb_ne _ _ (not_eq_sym D7)), ?(eqb_ne _ _ (not_eq_sym D8)), ?(eqb_ne _ _ (not_eq_sym D9)), ?(eqb_ne _ _ (not_eq_sym D0)); rewrite ?sigs_names, ?app_nil_r; cbn [map app fst sName].
    - assumption.
    - constructor; [|assumption]. intro Q. apply in_map_iff in Q. destruct Q as (m & E & Q). destruct (TN m Q) as (_ & _ & C). contradiction.
    - repeat constructor; cbn; intuition discriminate.
    - assumption.
    - repeat constructor; cbn; intuition discriminate.
  Qed.

  Lemma res_pkg : forall p n, In p (pkgs g) -> resolve f (TRef (al p) n) = Some (RPkg p n).
  Proof.
    intros p n H. cbn [resolve]. rewrite (eqb_ne (al p) "") by (apply ident_ne; apply (p_ident _ _ _ P); assumption). unfold f. rewrite (path_of has g al p ds P H). reflexivity.
  Qed.

  Lemma res_own : forall n, In n predeclared \/ In n [X +++ "Client"; x +++ "Client"; X +++ "ServiceMux"; X +++ "Service"; x +++ "ServiceMux"] -> resolve f (TRef "" n) = Some (ROwn n).
  Proof.
    intros n H. cbn [resolve String.eqb]. replace (existsb (String.eqb n) (predeclared ++ flat_map declaredTypes (fDecls f))) with true; [reflexivity|]. symmetry. apply existsb_exists.
    exists n. split; [|apply String.eqb_refl]. apply in_or_app. cbn [fDecls f]. unfold ds. rewrite (typeNames_main X x ms al). assumption.
  Qed.

  Lemma res_ty : forall m t, In m ms -> t = tin m \/ t = tout m -> resolve f (tyText al t) <> None.
  Proof.
    intros m t H E. assert (N : tname t <> "") by (destruct (TN m H) as (A & B & _); destruct E as [->| ->]; assumption).
    pose proof (p_type _ _ _ P m t (in_ms m H) E) as T. unfold tyText. destruct (String.eqb_spec (pkgPath t) "") as [Z|Z].
    - destruct T as [T|T]; [contradiction|]. rewrite res_own by auto. discriminate.
    - rewrite (res_pkg _ _ (ty_pkg m t H E Z)). discriminate.
  Qed.

  Lemma fit_types : forall d t, In d (fDecls f) -> In t (types d) -> resolve f t <> None.
  Proof.
    intros d t H HT. cbn [fDecls f] in H.
    assert (SG : forall m t, In m ms -> In t (sigTypes (clientSignature al m)) -> resolve f t <> None).
    { intros m t0 HM Q. unfold sigTypes, clientSignature in Q. cbn in Q. destruct Q as [<-|[<-|[<-|[]]]].
      - rewrite (res_pkg contextPkg) by (apply std_pkgs; cbn; auto). discriminate.
      - apply (res_ty m); auto.
      - apply (res_ty m); auto. }
    assert (OWN : forall n, In n [X +++ "Client"; x +++ "Client"; X +++ "ServiceMux"; X +++ "Service"; x +++ "ServiceMux"] -> resolve f (TRef "" n) <> None).
    { intros n Q. rewrite res_own by auto. discriminate. }
    assert (RCG : forall n, resolve f (TRef (al codegenPkg) n) <> None) by (intro n; rewrite res_pkg by (apply std_pkgs; cbn; auto); discriminate).
    assert (RQR : forall n, resolve f (TRef (al qrpcPkg) n) <> None) by (intro n; rewrite res_pkg by (apply std_pkgs; cbn; auto); discriminate).
    assert (PTR : forall t, resolve f t <> None -> resolve f (TPtr t) <> None) by (intros t0 Q; cbn [resolve]; destruct (resolve f t0); [discriminate|contradiction]).
    assert (WD : forall w, resolve f (TWord w) <> None) by (intros w; discriminate).
    assert (SGS : In t (flat_map sigTypes (map (clientSignature al) ms)) -> resolve f t <> None).
    { intro Q. apply in_flat_map in Q. destruct Q as (s & Q1 & Q2). apply in_map_iff in Q1. destruct Q1 as (m & <- & Q1). apply (SG m); assumption. }
    destruct (in_ds d H) as [HP|[(m & HM & ->)|HP]].
    - unfold pre in HP. destruct HP as [<-|[<-|[<-|[]]]].
      + apply SGS. assumption.
      + cbn in HT. destruct HT as [<-|[]]. auto.
      + cbn in HT. destruct HT as [<-|[<-|[<-|[<-|[]]]]]; [auto|auto|apply OWN; cbn; auto|apply OWN; cbn; auto].
    - unfold clientMethod in HT. cbn [types] in HT. destruct HT as [<-|HT]; [apply OWN; cbn; auto|]. apply in_app_or in HT. destruct HT as [HT|HT]; [apply (SG m); assumption|].
      cbn in HT. contradiction.
    - unfold post in HP. destruct HP as [<-|[<-|[<-|[<-|[<-|[<-|[<-|[]]]]]]]].
      + cbn in HT. destruct HT as [<-|[<-|[<-|[<-|[]]]]]; [apply OWN; cbn; auto 6|auto|auto|auto].
      + apply SGS. assumption.
      + cbn in HT. destruct HT as [<-|[<-|[]]]; auto.
      + cbn in HT. destruct HT as [<-|[<-|[]]]; [apply OWN; cbn; auto 6|apply PTR; apply OWN; cbn; auto 6].
      + cbn [types sigTypes bodyTypes sParams sResults bTypes bReturns bCalls app] in HT. destruct HT as [<-|[<-|HT]]; [apply OWN; cbn; auto 6|apply OWN; cbn; auto 6|].
        apply in_app_or in HT. destruct HT as [HT|HT].
        * apply in_map_iff in HT. destruct HT as (m & <- & HM). apply (res_ty m); auto.
        * apply in_flat_map in HT. destruct HT as (c & HC & HT). apply in_map_iff in HC. destruct HC as (m & <- & HC). cbn in HT. destruct HT as [<-|[<-|[<-|[<-|[]]]]]; auto.
          rewrite <- CX. rewrite (res_pkg contextPkg) by (apply std_pkgs; cbn; auto). discriminate.
      + cbn in HT. destruct HT as [<-|[<-|[<-|[]]]]; [apply OWN; cbn; auto 6|auto|auto].
      + cbn in HT. destruct HT as [<-|[<-|[]]]; [apply OWN; cbn; auto 6|]. apply PTR. rewrite <- QR. apply RQR.
  Qed.

  Lemma fit_quals : forall d q, In d (fDecls f) -> In q (quals d) -> pathOf f q <> None.
  Proof.
    intros d q H HQ. cbn [fDecls f] in H.
    assert (S : forall p, In p [contextPkg; qrpcPkg; codegenPkg; fmtPkg; jsonPkg] -> pathOf f (al p) <> None).
    { intros p Q. unfold f. rewrite (path_of has g al p ds P (std_pkgs p Q)). discriminate. }
    destruct (in_ds d H) as [HP|[(m & HM & ->)|HP]].
    - unfold pre in HP. destruct HP as [<-|[<-|[<-|[]]]]; cbn in HQ; [contradiction|contradiction|]. destruct HQ as [<-|[<-|[]]]; apply S; cbn; auto.
    - cbn in HQ. apply in_app_or in HQ. destruct HQ as [HQ|HQ]; [destruct (ptrMarsh (tin m))|destruct (ptrMarsh (tout m))]; cbn in HQ; try contradiction; destruct HQ as [<-|[]]; apply S; cbn; auto 6.
    - unfold post in HP. destruct HP as [<-|[<-|[<-|[<-|[<-|[<-|[<-|[]]]]]]]]; cbn [quals bQuals] in HQ; try contradiction.
      + destruct HQ as [<-|[]]. apply S. cbn. auto.
      + apply in_flat_map in HQ. destruct HQ as (m & HM & HQ). unfold callbackQuals in HQ. destruct HQ as [<-|HQ]; [apply S; cbn; auto|].
        apply in_app_or in HQ. destruct HQ as [HQ|HQ]; [destruct (ptrMarsh (tin m))|destruct (ptrMarsh (tctx m))]; cbn in HQ; try contradiction; destruct HQ as [<-|[]]; apply S; cbn; auto 6.
      + destruct HQ as [<-|[]]. apply S. cbn. auto 6.
      + destruct HQ as [<-|[<-|[]]]; apply S; cbn; auto.
  Qed.

  Lemma in_pre : forall d, In d (pre X x ms al) -> In d ds. Proof. intros. apply in_or_app. auto. Qed.
  Lemma in_post : forall d, In d (post X x ms al) -> In d ds. Proof. intros. apply in_or_app. right. apply in_or_app. auto. Qed.

  Lemma fit_imports : forall p q, In (p, q) (fImports f) -> exists d, In d (fDecls f) /\ (In q (quals d) \/ exists t, In t (types d) /\ alias t = q).
  Proof.
    intros p q H. cbn [fImports f] in H. unfold imports in H. apply in_map_iff in H. destruct H as (p' & E & H). inversion E; subst p' q; clear E.
    apply in_pkgs in H. destruct H as [(PN & m & HM & HE)|H].
    - unfold methods, g in HM. cbn in HM. rewrite app_nil_r in HM. eexists. split; [apply in_pre; left; reflexivity|]. right. exists (tyText al (if String.eqb p (pkgPath (tin m)) then tin m else tout m)).
      split.
      + cbn [types]. apply in_flat_map. exists (clientSignature al m). split; [apply in_map; assumption|]. cbn. destruct (String.eqb p (pkgPath (tin m))); auto.
      + cbn. destruct (String.eqb_spec p (pkgPath (tin m))) as [->|N].
        * rewrite eqb_ne by assumption. reflexivity.
        * destruct HE as [->|HE]; [contradiction|]. subst p. rewrite eqb_ne by assumption. reflexivity.
    - assert (exists m, In m ms) as (m & HM). { destruct ms as [|m l]; [contradiction|]. exists m. left. reflexivity. }
      cbn in H. destruct H as [<-|[<-|[<-|[<-|[<-|[]]]]]].
      + eexists. split; [apply in_pre; left; reflexivity|]. right. exists (TRef (al contextPkg) "Context"). split; [|reflexivity]. cbn [types]. apply in_flat_map. exists (clientSignature al m).
        split; [apply in_map; assumption|]. cbn. auto.
      + eexists. split; [apply in_pre; right; right; left; reflexivity|]. left. cbn. auto.
      + eexists. split; [apply in_pre; right; right; left; reflexivity|]. left. cbn. auto.
      + eexists. split; [apply in_post; do 5 right; left; reflexivity|]. left. cbn. auto.
      + eexists. split; [apply in_post; do 4 right; left; reflexivity|]. left. cbn [quals bQuals]. apply in_flat_map. exists m. split; [assumption|]. unfold callbackQuals.
        rewrite (p_ctx _ _ _ P m (in_ms m HM)). right. apply in_or_app. right. left. reflexivity.
  Qed.

  Lemma fit_blocks : forall d bd, In d (fDecls f) -> In bd (bodies d) -> (forall vs, In vs (bBlocks bd) -> NoDup vs) /\ NoDup (bCases bd).
  Proof.
    intros d bd H HB. cbn [fDecls f] in H.
    destruct (in_ds d H) as [HP|[(m & HM & ->)|HP]].
    - unfold pre in HP. destruct HP as [<-|[<-|[<-|[]]]]; cbn in HB; try contradiction. destruct HB as [<-|[]]. cbn. split; [|constructor].
      intros vs [<-|[]]. repeat constructor; cbn; intuition discriminate.
    - cbn in HB. destruct HB as [<-|[]]. cbn. split; [|constructor]. intros vs [<-|[]]. repeat constructor; cbn; intuition discriminate.
    - unfold post in HP. destruct HP as [<-|[<-|[<-|[<-|[<-|[<-|[<-|[]]]]]]]]; cbn in HB; try contradiction; destruct HB as [<-|[]]; cbn; (split; [|constructor]); intros vs HV.
      + contradiction.
      + destruct HV as [<-|[<-|[]]]; repeat constructor; cbn; intuition discriminate.
      + destruct HV as [<-|[]]; repeat constructor; cbn; intuition discriminate.
      + destruct HV as [<-|[]]; repeat constructor; cbn; intuition discriminate.
  Qed.

  Lemma fit_calls : forall d bd c, In d (fDecls f) -> In bd (bodies d) -> In c (bCalls bd) -> methodCallOk f c.
  Proof.
    intros d bd c H HB HC. cbn [fDecls f] in H. destruct (in_ds d H) as [HP|[(m & HM & ->)|HP]].
    - unfold pre in HP. destruct HP as [<-|[<-|[<-|[]]]]; cbn in HB; try contradiction. destruct HB as [<-|[]]. cbn in HC. contradiction.
    - cbn in HB. destruct HB as [<-|[]]. cbn in HC. contradiction.
    - unfold post in HP. destruct HP as [<-|[<-|[<-|[<-|[<-|[<-|[<-|[]]]]]]]]; cbn in HB; try contradiction; destruct HB as [<-|[]]; cbn [bCalls] in HC; try contradiction.
      apply in_map_iff in HC. destruct HC as (m & <- & HM). unfold methodCallOk, callback. cbn [fst snd map]. rewrite <- CX at 1. rewrite (res_pkg contextPkg) by (apply std_pkgs; cbn; auto). split; reflexivity.
  Qed.

  Lemma res_typeOf : forall m t, In m ms -> t = tin m \/ t = tout m -> resolve f (tyText al t) = Some (typeOf t).
  Proof.
    intros m t H E. assert (N : tname t <> "") by (destruct (TN m H) as (A & B & _); destruct E as [->| ->]; assumption).
    pose proof (p_type _ _ _ P m t (in_ms m H) E) as T. unfold tyText, typeOf. destruct (String.eqb_spec (pkgPath t) "") as [Z|Z].
    - destruct T as [T|T]; [contradiction|]. apply res_own. auto.
    - apply (res_pkg _ _ (ty_pkg m t H E Z)).
  Qed.

  Lemma fit_uses : (forall m, In m ms -> ptrOutput (tout m) = true) ->
    forall d bd t n, In d (fDecls f) -> In bd (bodies d) -> In (t, n) (bUses bd) -> exists r, resolve f t = Some r /\ has r n = true.
  Proof.
    intros OU d bd t n H HB HC. cbn [fDecls f] in H.
    assert (K : forall m u, In m ms -> u = tin m \/ u = tout m -> has (typeOf u) n = true -> t = tyText al u -> exists r, resolve f t = Some r /\ has r n = true).
    { intros m u HM E HH ->. exists (typeOf u). split; [apply (res_typeOf m); assumption|assumption]. }
    assert (MA : forall m u, In m ms -> u = tin m \/ u = tout m -> ptrMarsh u = true -> has (typeOf u) "Marshal" = true /\ has (typeOf u) "Unmarshal" = true).
    { intros m u HM E M. apply (proj2 (p_has _ _ _ P m u (in_ms m HM) E) M). }
    destruct (in_ds d H) as [HP|[(m & HM & ->)|HP]].
    - unfold pre in HP. destruct HP as [<-|[<-|[<-|[]]]]; cbn in HB; try contradiction. destruct HB as [<-|[]]. cbn in HC. contradiction.
    - cbn [bodies clientMethod] in HB. destruct HB as [<-|[]]. cbn [bUses] in HC. apply in_app_or in HC. destruct HC as [HC|HC]; [|apply in_app_or in HC; destruct HC as [HC|HC]].
      + destruct (ptrMarsh (tin m)) eqn:M; [|contradiction]. destruct HC as [E|[]]. injection E as E1 E2; subst n. apply (K m (tin m) HM (or_introl eq_refl)); [apply (MA m); auto|congruence].
      + destruct HC as [E|[]]. injection E as E1 E2; subst n. apply (K m (tout m) HM (or_intror eq_refl)); [|congruence]. rewrite (proj1 (p_has _ _ _ P m (tout m) (in_ms m HM) (or_intror eq_refl))). auto.
      + destruct (ptrMarsh (tout m)) eqn:M; [|contradiction]. destruct HC as [E|[]]. injection E as E1 E2; subst n. apply (K m (tout m) HM (or_intror eq_refl)); [apply (MA m); auto|congruence].
    - unfold post in HP. destruct HP as [<-|[<-|[<-|[<-|[<-|[<-|[<-|[]]]]]]]]; cbn in HB; try contradiction; destruct HB as [<-|[]]; cbn [bUses] in HC; try contradiction.
      apply in_flat_map in HC. destruct HC as (m & HM & HC). unfold callbackUses in HC. rewrite (p_ctx _ _ _ P m (in_ms m HM)) in HC. rewrite app_nil_r in HC.
      destruct (ptrMarsh (tin m)) eqn:M; [|contradiction]. destruct HC as [E|[]]. injection E as E1 E2; subst n. apply (K m (tin m) HM (or_introl eq_refl)); [apply (MA m); auto|congruence].
  Qed.

  Lemma ifaceC : forall sg, In (DInterface (X +++ "Client") sg) ds -> sg = map (clientSignature al) ms.
  Proof.
    intros sg H. destruct (in_ds _ H) as [HP|[(m & HM & E)|HP]]; [|discriminate|].
    - unfold pre in HP. destruct HP as [E|[E|[E|[]]]]; inversion E; reflexivity.
    - unfold post in HP. exfalso. destruct HP as [E|[E|[E|[E|[E|[E|[E|[]]]]]]]]; try discriminate; inversion E as [[E1 E2]]; revert E1; unfold X; bylen.
  Qed.

  Lemma ifaceM : forall sg, In (DInterface (X +++ "ServiceMux") sg) ds ->
    sg = [mkSig "Register" (Some [TRef "" (X +++ "Service")]) []; mkSig "RegisterSub" (Some [TWord "string"; TWord "interface{}"]) []; mkSig "Mux" (Some []) [TPtr (TRef (al qrpcPkg) "ServeMux")]].
  Proof.
    intros sg H. destruct (in_ds _ H) as [HP|[(m & HM & E)|HP]]; [|discriminate|].
    - unfold pre in HP. exfalso. destruct HP as [E|[E|[E|[]]]]; try discriminate; inversion E as [[E1 E2]]; revert E1; unfold X; bylen.
    - unfold post in HP. destruct HP as [E|[E|[E|[E|[E|[E|[E|[]]]]]]]]; try discriminate; [inversion E; reflexivity|]. exfalso. inversion E as [[E1 E2]]. revert E1; unfold X; bylen.
  Qed.

  Lemma fit_returns : forall d, In d (fDecls f) -> match d with DFunc s bd => returnsOk f s bd | DMethod _ _ s bd => returnsOk f s bd | _ => True end.
  Proof.
    intros d H. cbn [fDecls f] in H. destruct (in_ds d H) as [HP|[(m & HM & ->)|HP]].
    - unfold pre in HP. destruct HP as [<-|[<-|[<-|[]]]]; try exact Logic.I. intros t Q. cbn in Q. destruct Q as [<-|[]]. exists (X +++ "Client"). split; [reflexivity|]. split; [reflexivity|].
      intros sg want HI HW. cbn [fDecls f] in HI. apply ifaceC in HI. subst sg. apply in_map_iff in HW. destruct HW as (m & <- & HM).
      eexists false, _, _. split; [cbn [fDecls f]; unfold ds; apply in_or_app; right; apply in_or_app; left; apply in_map_iff; exists m; split; [reflexivity|assumption]|].
      split; [discriminate|]. repeat split.
    - intros t Q. cbn in Q. contradiction.
    - unfold post in HP. destruct HP as [<-|[<-|[<-|[<-|[<-|[<-|[<-|[]]]]]]]]; try exact Logic.I; intros t Q; cbn in Q; try contradiction. destruct Q as [<-|[]].
      exists (X +++ "ServiceMux"). split; [reflexivity|]. split; [reflexivity|]. intros sg want HI HW. cbn [fDecls f] in HI. apply ifaceM in HI. subst sg.
      destruct HW as [<-|[<-|[<-|[]]]].
      + eexists true, _, _. split; [cbn [fDecls f]; apply in_post; do 4 right; left; reflexivity|]. split; [reflexivity|]. repeat split.
      + eexists true, _, _. split; [cbn [fDecls f]; apply in_post; do 5 right; left; reflexivity|]. split; [reflexivity|]. repeat split.
      + eexists true, _, _. split; [cbn [fDecls f]; apply in_post; do 6 right; left; reflexivity|]. split; [reflexivity|]. split; [reflexivity|]. split; [reflexivity|]. cbn [sResults]. rewrite QR. reflexivity.
  Qed.
End Fit.

(** *** What is accepted is fit *)

Lemma sub_panics : forall g al ns ms, In (ns, ms) (services g) -> ns <> "" -> Output g al = None.
Proof.
  intros g al ns ms H N. unfold Output. destruct (unexport (svc g)) as [x|]; [|reflexivity].
  replace (parses (fileOf g al x)) with false; [reflexivity|]. symmetry. apply Bool.not_true_is_false. intro E.
  apply andb_prop in E. destruct E as [_ E]. rewrite forallb_forall in E.
  assert (S : In (ns, ms) (subs g)). { apply filter_In. split; [assumption|]. cbn. rewrite eqb_ne by assumption. reflexivity. }
  specialize (E (DMethod false (x +++ "Client") (mkSig (ns +++ "Client") None []) (mkBody [TRef "" (x +++ ns)] [] [["c"]] [] [] [] []))).
  cbn [okDecl] in E. unfold okSig in E. cbn [sName sParams] in E. rewrite !andb_false_r in E. cbn [andb] in E. rewrite ?andb_false_r in E. cbn [andb] in E. assert (false = true); [|discriminate]. apply E. unfold fileOf. cbn [fDecls]. apply in_or_app. right. apply in_or_app. right. apply in_or_app. left.
  apply in_map_iff. exists (ns, ms). split; [reflexivity|assumption].
Qed.

Lemma made_main_only : forall camel g al f, made camel g -> Output g al = Some f -> services g = [] \/ exists ms, services g = [("", ms)].
Proof.
  intros camel g al f H E. destruct (made_ok camel g H) as [ND _].
  assert (K : forall ns ms, In (ns, ms) (services g) -> ns = "").
  { intros ns ms HI. destruct (string_dec ns "") as [|N]; [assumption|]. rewrite (sub_panics g al ns ms HI N) in E. discriminate. }
  destruct (services g) as [|[ns ms] l]; [auto|]. right. exists ms. rewrite (K ns ms (or_introl eq_refl)) in *. destruct l as [|[ns' ms'] l]; [reflexivity|].
  rewrite (K ns' ms') in ND by (right; left; reflexivity). cbn in ND. inversion ND. exfalso. apply H2. left. reflexivity.
Qed.

Lemma fileOf_none : forall X x al, fileOf (mkGen X []) al x = fileOf (mkGen X [("", [])]) al x.
Proof. reflexivity. Qed.

Lemma accepted_fit : forall has X x ms al,
  let g := mkGen X [("", ms)] in let f := fileOf g al x in
  unexport X = Some x -> provided has g al -> accepted has f ->
  ms <> [] /\ ident X = true /\ x <> X /\
  (forall m, In m ms -> tname (tin m) <> "" /\ tname (tout m) <> "" /\ mname m <> "Client") /\
  al qrpcPkg = "qrpc" /\ al contextPkg = "context" /\ forall p, In p (pkgs g) -> ~ In (al p) (top X x).
Proof.
  intros has X x ms al g f U P A. unfold f, g in *. rewrite (fileOf_main X x ms al) in *. clear f g.
  set (g := mkGen X [("", ms)]) in *. set (ds := pre X x ms al ++ map (clientMethod al (x +++ "Client")) ms ++ post X x ms al) in *. set (f := mkFile (imports g al) ds) in *.
  assert (ID : forall d, In d ds -> In d (pre X x ms al) \/ (exists m, In m ms /\ d = clientMethod al (x +++ "Client") m) \/ In d (post X x ms al)).
  { intros d H. unfold ds in H. apply in_app_or in H. destruct H as [H|H]; [auto|]. apply in_app_or in H. destruct H as [H|H]; [|auto].
    apply in_map_iff in H. destruct H as (m & <- & H). right. left. exists m. auto. }
  assert (IP : forall d, In d (pre X x ms al) -> In d (fDecls f)) by (intros; apply in_or_app; auto).
  assert (IQ : forall d, In d (post X x ms al) -> In d (fDecls f)) by (intros; apply in_or_app; right; apply in_or_app; auto).
  assert (IM : forall m, In m ms -> In (clientMethod al (x +++ "Client") m) (fDecls f)).
  { intros m H. apply in_or_app. right. apply in_or_app. left. apply in_map. assumption. }
  assert (ST : forall p, In p [contextPkg; qrpcPkg; codegenPkg; fmtPkg; jsonPkg] -> In p (pkgs g)) by (intros; apply in_pkgs; auto).
  assert (IA : forall p, In p [contextPkg; qrpcPkg; codegenPkg; fmtPkg; jsonPkg] -> al p <> "") by (intros p H; apply ident_ne; apply (p_ident _ _ _ P); auto).
  assert (OKD : forall d, In d (fDecls f) -> okDecl d = true).
  { pose proof (a_parses _ _ A) as Q. apply andb_prop in Q. destruct Q as [_ Q]. rewrite forallb_forall in Q. assumption. }
  pose proof (a_names _ _ A) as N. unfold f, ds, g in N. rewrite (names_main X x ms al) in N. fold g in N. cbn [fImports] in N. rewrite imports_snd in N.
  apply nodup_app_split in N. destruct N as (N1 & N2 & N3).
  assert (NX : x <> X). { intros ->. unfold top in N1. inversion N1. apply H1. left. reflexivity. }
  (* the name of package qrpc *)
  assert (QR : al qrpcPkg = "qrpc").
  { pose proof (a_returns _ _ A _ (IQ _ (or_intror (or_intror (or_intror (or_introl eq_refl)))))) as R. cbn beta iota in R.
    destruct (R (TPtr (TRef "" (x +++ "ServiceMux"))) (or_introl eq_refl)) as (i & Ei & _ & Im). cbn in Ei. inversion Ei; subst i; clear Ei R.
    destruct (Im _ (mkSig "Mux" (Some []) [TPtr (TRef (al qrpcPkg) "ServeMux")]) (IQ _ (or_introl eq_refl)) (or_intror (or_intror (or_introl eq_refl)))) as (pt & s & bd & HI & _ & SM & _ & SR).
    cbn [sName sResults map] in *. cbn [resolve] in SR. rewrite (eqb_ne (al qrpcPkg) "") in SR by (apply IA; cbn; auto). unfold f in SR at 2. rewrite (path_of has g al qrpcPkg ds P) in SR by (apply ST; cbn; auto).
    cbn [fDecls f] in HI. destruct (ID _ HI) as [HP|[(m & HM & E)|HP]].
    - unfold pre in HP. destruct HP as [E|[E|[E|[]]]]; discriminate.
    - exfalso. inversion E as [[E1 E2 E3]]. revert E2. bylen.
    - unfold post in HP. destruct HP as [E|[E|[E|[E|[E|[E|[E|[]]]]]]]]; try discriminate; inversion E; subst s; try discriminate.
      cbn [sResults map resolve] in SR. change (String.eqb "qrpc" "") with false in SR. cbn iota in SR. destruct (pathOf f "qrpc") as [p|] eqn:PO; [|discriminate]. inversion SR; subst p. apply path_some in PO. apply PO. }
  assert (NM : ms <> []).
  { intro E. destruct (a_imports _ _ A contextPkg (al contextPkg)) as (d & HD & HQ).
    { cbn [fImports f]. unfold imports. apply in_map_iff. exists contextPkg. split; [reflexivity|]. apply ST. cbn. auto. }
    assert (INJ : forall q, In q [contextPkg; qrpcPkg; codegenPkg; fmtPkg; jsonPkg] -> q <> contextPkg -> al q <> al contextPkg).
    { intros q Q1 Q2 Q3. apply Q2. apply (p_inj _ _ _ P); [apply ST; assumption|apply ST; cbn; auto|assumption]. }
    pose proof (INJ qrpcPkg ltac:(cbn; auto) ltac:(discriminate)) as J1. pose proof (INJ codegenPkg ltac:(cbn; auto) ltac:(discriminate)) as J2.
    pose proof (INJ fmtPkg ltac:(cbn; auto 6) ltac:(discriminate)) as J3. pose proof (IA contextPkg ltac:(cbn; auto)) as J4.
    cbn [fDecls f] in HD. destruct (ID _ HD) as [HP|[(m & HM & _)|HP]]; [|rewrite E in HM; contradiction|].
    - unfold pre in HP. rewrite E in HP. destruct HP as [<-|[<-|[<-|[]]]]; destruct HQ as [HQ|(t & HQ & HT)]; cbn in HQ;
        repeat match goal with Q : _ \/ _ |- _ => destruct Q as [Q|Q] end; try contradiction; subst; cbn in HT; congruence.
    - unfold post in HP. rewrite E in HP. destruct HP as [<-|[<-|[<-|[<-|[<-|[<-|[<-|[]]]]]]]]; destruct HQ as [HQ|(t & HQ & HT)]; cbn in HQ;
        repeat match goal with Q : _ \/ _ |- _ => destruct Q as [Q|Q] end; try contradiction; subst; cbn in HT; congruence. }
  split; [assumption|]. split; [|split; [assumption|split; [|split; [assumption|split]]]].
  - pose proof (OKD _ (IP _ (or_introl eq_refl))) as Q. cbn [okDecl] in Q. apply andb_prop in Q. destruct Q as [Q _].
    destruct X as [|a r]; [discriminate|]. cbn [ident String.append] in *. apply andb_prop in Q. destruct Q as [Q1 Q2]. rewrite Q1. fold word in *. rewrite allb_app in Q2. apply andb_prop in Q2. destruct Q2 as [Q2 _]. rewrite Q2. reflexivity.
  - intros m H. pose proof (OKD _ (IM m H)) as Q. unfold clientMethod in Q. cbn [okDecl] in Q. apply andb_prop in Q. destruct Q as [Q _]. apply andb_prop in Q. destruct Q as [_ Q].
    unfold okSig, clientSignature in Q. cbn [sName sParams sResults forallb] in Q. unfold tyText in Q. cbn [okType] in Q. rewrite !andb_true_iff in Q. destruct Q as ((_ & _ & (_ & Q1) & _) & (_ & Q2) & _).
    split; [apply ident_ne; assumption|]. split; [apply ident_ne; assumption|]. intro E.
    assert (M : In (x +++ "Client") (flat_map declaredTypes (fDecls f))). { cbn [fDecls f]. unfold ds. rewrite (typeNames_main X x ms al). cbn. auto. }
    pose proof (a_members _ _ A _ M) as ND. cbn [fDecls f] in ND. unfold ds in ND. rewrite flat_map_app in ND. apply nodup_app_split in ND. destruct ND as (_ & _ & ND).
    apply (ND "Client").
    + apply in_flat_map. eexists. split; [right; left; reflexivity|]. cbn. rewrite String.eqb_refl. left. reflexivity.
    + apply in_flat_map. exists (clientMethod al (x +++ "Client") m). split; [apply in_or_app; left; apply in_map; assumption|]. cbn. rewrite String.eqb_refl. left. assumption.
  - destruct ms as [|m l]; [contradiction|].
    pose proof (a_calls _ _ A _ _ callback (IQ _ (or_intror (or_intror (or_intror (or_intror (or_introl eq_refl)))))) (or_introl eq_refl) (or_introl eq_refl)) as [C _].
    cbn [fst callback map resolve String.eqb Ascii.eqb Bool.eqb] in C. destruct (pathOf f "context") as [p|] eqn:PO; [|discriminate]. inversion C; subst p. apply path_some in PO. apply PO.
  - intros p HP Q. apply (N3 (al p) Q). apply in_map. assumption.
Qed.

(** *** The theorem *)

Theorem C76_accepted_iff_partial : forall has camel g al, made camel g -> provided has g al ->
  ((exists f, Output g al = Some f /\ accepted has f) <-> fit g al).
Proof.
  intros has camel g al H P. split.
  - intros (f & E & A). pose proof E as E'. unfold Output in E'. destruct (unexport (svc g)) as [x|] eqn:U; [|discriminate].
    destruct (parses (fileOf g al x)) eqn:PS; [|discriminate]. inversion E'; subst f; clear E'.
    destruct g as [X ss]. cbn [svc] in *. destruct (made_main_only camel _ al _ H E) as [S|(ms & S)]; cbn [services] in S; subst ss.
    + exfalso. rewrite fileOf_none in A. destruct (accepted_fit has X x [] al U) as (N & _); [|assumption|contradiction].
      destruct P as [P1 P2 P3 P4 P5 P6]. constructor; assumption.
    + destruct (accepted_fit has X x ms al U P A) as (N & I & NX & T & Q & C & NT). exists ms, x. cbn [services svc]. repeat split; try assumption; try apply (T m H0); apply T; assumption.
  - intros (ms & x & S & I & U & NX & T & Q & C & NT). destruct g as [X ss]. cbn [svc services] in *. subst ss.
    destruct (made_ok camel _ H) as [_ OK]. destruct (OK "" ms (or_introl eq_refl)) as (NE & ND & CF). pose proof (ident_unexport X x I U) as IY.
    destruct X as [|a r]; [discriminate|]. cbn in U. inversion U; subst x; clear U.
    assert (AB : a <> lower a) by (intro; apply NX; congruence).
    exists (fileOf (mkGen (String a r) [("", ms)]) al (String (lower a) r)). rewrite (fileOf_main (String a r) (String (lower a) r) ms al).
    split; [|constructor].
    + unfold Output. cbn [svc unexport]. rewrite (fileOf_main (String a r) (String (lower a) r) ms al). rewrite (fit_parses a (lower a) r ms al) with (has := has); auto.
    + apply (fit_parses a (lower a) r ms al) with (has := has); auto.
    + apply (fit_names a (lower a) r ms al) with (has := has); auto.
    + apply (fit_members a (lower a) r ms al); auto.
    + apply (fit_types a (lower a) r ms al) with (has := has); auto.
    + apply (fit_quals a (lower a) r ms al) with (has := has); auto.
    + apply (fit_imports a (lower a) r ms al) with (has := has); auto.
    + apply (fit_blocks a (lower a) r ms al); auto.
    + apply (fit_returns a (lower a) r ms al); auto.
    + apply (fit_calls a (lower a) r ms al) with (has := has); auto.
    + apply (fit_uses a (lower a) r ms al) with (has := has); auto. intros m HM. specialize (CF m HM). unfold checkFuncIO in CF. unfold tout.
      destruct (ins m) as [|c [|i [|]]]; try discriminate. destruct (outs m) as [|o [|]]; try discriminate. apply andb_prop in CF. apply CF.
Qed.

(** A sub service is enough to make Output panic. *)
Theorem C76_sub : forall camel g ns ms g' al, RegisterSub camel g ns ms = Some g' -> camel ns <> "" -> Output g' al = None.
Proof.
  intros camel g ns ms g' al H N. unfold RegisterSub, registerSub in H. destruct (String.eqb ns ""); [discriminate|]. destruct ms as [|m l]; [discriminate|].
  destruct (forallb checkFuncIO (m :: l)); [|discriminate]. destruct (existsb _ (services g)); [discriminate|]. inversion H; subst g'; clear H.
  apply (sub_panics _ al (camel ns) (m :: l)); [|assumption]. cbn [services]. apply in_or_app. right. left. reflexivity.
Qed.

(** *** Cases *)

(** a service Echo with methods Say and Bye *)
Definition exCtx : rtype := mkT "context" "Context" true false false.
Definition exIn : rtype := mkT "example.com/api" "In" false false false.
Definition exOut : rtype := mkT "example.com/api" "Out" false true true.
Definition exMs : list rmethod := [mkM "Say" [exCtx; exIn] [exOut]; mkM "Bye" [exCtx; mkT "" "string" false false false] [exOut]].
Definition exCamel (s : string) : string := if String.eqb s "echo" then "Echo" else if String.eqb s "sub" then "Sub" else s.
Definition exAl (p : string) : string :=
  if String.eqb p qrpcPkg then "qrpc" else if String.eqb p contextPkg then "context" else if String.eqb p codegenPkg then "codegen"
  else if String.eqb p jsonPkg then "json" else if String.eqb p fmtPkg then "fmt" else "api".
(** Out has the three methods *)
Definition exHas (t : rtexpr) (m : string) : bool :=
  match t with RPkg p n => String.eqb n "Out" && existsb (String.eqb m) ["SetError"; "Marshal"; "Unmarshal"] | _ => false end.
Definition exG : gen := mkGen "Echo" [("", exMs)].

Lemma exMade : made exCamel exG.
Proof.
  apply (made_main exCamel (New exCamel "echo") exMs); [constructor| |reflexivity]. repeat constructor; cbn; intuition discriminate.
Qed.

Lemma ex_provided : forall ms, (forall m, In m ms -> In m exMs) -> forall X nss, (forall m, In m (methods (mkGen X nss)) -> In m ms) -> provided exHas (mkGen X nss) exAl.
Proof.
  intros ms HM X nss HN.
  assert (HP : forall p, In p (pkgs (mkGen X nss)) -> In p ["example.com/api"; contextPkg; qrpcPkg; codegenPkg; fmtPkg; jsonPkg]).
  { intros p H. apply in_pkgs in H. destruct H as [(N & m & H & E)|H]; [|right; assumption]. apply HN, HM in H. cbn in H. destruct H as [<-|[<-|[]]]; cbn in E; destruct E as [->| ->]; cbn; auto. contradiction. }
  constructor.
  - intros p H. apply HP in H. cbn in H. repeat (destruct H as [<-|H]; [reflexivity|]). contradiction.
  - intros p q H H'. apply HP in H. apply HP in H'. cbn in H, H'. repeat (destruct H as [<-|H]; [|]); try contradiction;
      (repeat (destruct H' as [<-|H']; [|]); try contradiction); intro E; vm_compute in E; solve [reflexivity|discriminate].
  - intros m t H E. apply HN, HM in H. cbn in H. destruct H as [<-|[<-|[]]]; destruct E as [->| ->]; cbn; auto 20.
  - intros m H. apply HN, HM in H. cbn in H. destruct H as [<-|[<-|[]]]; reflexivity.
  - intros m H. apply HN, HM in H. cbn in H. destruct H as [<-|[<-|[]]]; reflexivity.
  - intros m t H E. apply HN, HM in H. cbn in H. destruct H as [<-|[<-|[]]]; destruct E as [->| ->]; cbn; auto; split; auto; discriminate.
Qed.

Example C76_case : provided exHas exG exAl /\ fit exG exAl.
Proof.
  split.
  - apply (ex_provided exMs); [auto|]. intros m H. cbn in H. cbn. assumption.
  - exists exMs, "echo". repeat (split; [first [reflexivity|discriminate]|]). split; [|split; [reflexivity|split; [reflexivity|]]].
    + intros m [<-|[<-|[]]]; repeat split; discriminate.
    + intros p H Q. vm_compute in H, Q. repeat (destruct H as [<-|H]; [intuition discriminate|]). contradiction.
Qed.

(** a generator with a sub service: it is made, and Output panics *)
Definition exG2 : gen := mkGen "Echo" [("", exMs); ("Sub", exMs)].
Lemma exMade2 : made exCamel exG2.
Proof.
  apply (made_sub exCamel exG "sub" exMs); [apply exMade| |reflexivity]. repeat constructor; cbn; intuition discriminate.
Qed.

Example C76_sub_case : provided exHas exG2 exAl /\ Output exG2 exAl = None.
Proof.
  split; [|vm_compute; reflexivity]. apply (ex_provided exMs); [auto|]. intros m H. cbn in H. cbn. tauto.
Qed.

Theorem C76_refuted : ~ C76_statement.
Proof.
  intro H. destruct C76_sub_case as [P E]. destruct (H exHas exCamel exG2 exAl exMade2 P) as (f & E' & _). congruence.
Qed.

(** Without a sub service: a method that takes a pointer is registered without complaint, and Output panics; a
    generator without a service writes a file with an unused import. *)
Example C76_pointer_case :
  let g := mkGen "Echo" [("", [mkM "Say" [exCtx; mkT "" "" false false false] [exOut]])] in
  Register exCamel (New exCamel "echo") [mkM "Say" [exCtx; mkT "" "" false false false] [exOut]] = Some g /\ Output g exAl = None.
Proof. split; vm_compute; reflexivity. Qed.

Example C76_none_case : exists f, Output (New exCamel "echo") exAl = Some f /\ ~ accepted exHas f.
Proof.
  assert (P : provided exHas (New exCamel "echo") exAl) by (apply (ex_provided exMs); [auto|]; intros m H; cbn in H; contradiction).
  assert (NF : ~ fit (New exCamel "echo") exAl) by (intros (ms & x & S & _); discriminate).
  destruct (Output (New exCamel "echo") exAl) as [f|] eqn:E; [|vm_compute in E; discriminate]. exists f. split; [reflexivity|]. intro A.
  apply NF. apply (proj1 (C76_accepted_iff_partial exHas exCamel _ exAl (made_new _ "echo") P)). exists f. auto.
Qed.

(** a package of the service that is called context, too, and was named first *)
Example C76_name_case : let al := fun p => if String.eqb p contextPkg then "context1" else if String.eqb p "example.com/api" then "context" else exAl p in
  provided exHas exG al /\ ~ fit exG al.
Proof.
  cbn zeta. split; [|intros (ms & x & _ & _ & _ & _ & _ & _ & C & _); discriminate].
  destruct (proj1 C76_case) as [P1 P2 P3 P4 P5 P6]. constructor; [| |assumption|assumption|assumption|assumption].
  - intros p H. vm_compute in H. repeat (destruct H as [<-|H]; [reflexivity|]). contradiction.
  - intros p q H H'. vm_compute in H, H'. repeat (destruct H as [<-|H]; [|]); try contradiction;
      (repeat (destruct H' as [<-|H']; [|]); try contradiction); intro E; vm_compute in E; solve [reflexivity|discriminate].
Qed.
