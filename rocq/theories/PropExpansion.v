(** Properties C01, C09 - C13: what the output of [#[auto_enum]] looks like. *)

Require Import Coq.Strings.String Coq.Lists.List Coq.Bool.Bool Coq.Arith.Arith Coq.NArith.NArith Lia.
Require Import Verif.Syntax Verif.Context Verif.ExprModel Verif.TypeAnalysis Verif.AutoEnum.
Require Import Verif.Edits Verif.Erase Verif.Scope Verif.RunLemmas Verif.Frame Verif.AttributeRun
  Verif.ScopeTop Verif.EraseRun Verif.RootRun Verif.ErrorRun Verif.Samples.
Import ListNotations.
Open Scope string_scope.
Open Scope list_scope.

(** The sample is expanded, with two enums. *)
Example sample_expands :
  exists i' cx, attribute sample_hash false 50 sample_args sample_fn = ROk (Code i' cx)
    /\ i' <> sample_fn /\ map g_ident (decls i') = ["__Enum1"; "__Enum4"]
    /\ map (fun g => length (g_variants g)) (decls i') = [4; 2]
    /\ map g_derive (decls i') = [[plain_path ["Iterator"]]; [plain_path ["Clone"]]].
Proof. eexists. eexists. split; [vm_compute; reflexivity|]. split; [discriminate|]. vm_compute. auto. Qed.

(** ** C01 *)

(** Taking the generated parts out of the output gives the annotated code. *)
Theorem C01_erase : forall hash ta n args i i' cx,
  attribute hash ta n args i = ROk (Code i' cx) ->
  erase (marker_name args i) i' = erase (marker_name args i) i.
Proof. exact erase_output. Qed.
Print Assumptions C01_erase.

(** More precisely: the output comes from the annotated code by the edits of Edits.v, none of which
    is one of those made when an error is reported, and all wrappers have generated names. *)
Theorem C01_only_edits : forall hash ta n args i i' cx,
  attribute hash ta n args i = ROk (Code i' cx) ->
  exists t, ed_input (marker_name args i) t i i' /\ forallb clean t = true.
Proof.
  intros hash ta n args i i' cx H.
  destruct (attribute_edits _ _ _ _ _ _ _ H) as (t & R & [C _] & _). eauto.
Qed.
Print Assumptions C01_only_edits.

(** [erase] does not touch code without markers, annotations and generated names: here it gives back the
    sample with only its two annotations taken out. *)
Example C01_example :
  erase (marker_name sample_args sample_fn) sample_fn
  = InStmt (SItem (IFn [] "f" (Some (impl_ty "Iterator"))
      [SExpr (EIf [] (var "c") [SExpr (EReturn [] (Some (call0 "m1"))) true] None) false;
       SLocal (Local [] (PBind "y") None
         (Some (EIf [] (var "d") [SExpr (call0 "u") false] (Some (call0 "v")))) None);
       SExpr (EMatch [] (var "x")
                [arm1 "0" (call0 "a"); arm1 "1" (call0 "b");
                 arm1 "_" (EBlock [] None [SExpr (EReturn [] (Some (call0 "m2"))) true])]) false])).
Proof. reflexivity. Qed.

(** ** C09 *)

(** Every constructor is used exactly as often as an enum declares it: each declaration brings one
    use of each of its variants. *)
Theorem C09_uses_match_declarations : forall hash ta n args i i' cx iv,
  attribute hash ta n args i = ROk (Code i' cx) -> decls i = [] ->
  uses iv i' = uses iv i + count_occ ctor_dec (flat_map ctors (decls i')) iv.
Proof. exact uses_output. Qed.
Print Assumptions C09_uses_match_declarations.

(** If the generated names do not occur in the annotated code and no two generated enums have the same
    name, each variant of each enum is used exactly once and nothing else of the enum is. *)
Theorem C09_each_variant_once : forall hash ta n args i i' cx g v,
  attribute hash ta n args i = ROk (Code i' cx) -> decls i = [] ->
  (forall iv, gen_name (fst iv) = true -> uses iv i = 0) ->
  NoDup (map g_ident (decls i')) -> In g (decls i') ->
  uses (g_ident g, v) i' = if in_dec string_dec v (map fst (g_variants g)) then 1 else 0.
Proof. exact variants_once. Qed.
Print Assumptions C09_each_variant_once.

Example C09_example :
  decls sample_fn = [] /\ mentions sample_fn = []
  /\ match code_of (run sample_args sample_fn) with
     | Some i' => NoDup (map g_ident (decls i'))
                  /\ mentions i' = [("__Enum1", "__Variant1"); ("__Enum4", "__Variant0"); ("__Enum4", "__Variant1");
                                    ("__Enum1", "__Variant0"); ("__Enum1", "__Variant2"); ("__Enum1", "__Variant3")]
     | None => False
     end.
Proof.
  split; [reflexivity|]. split; [reflexivity|]. vm_compute. split; [|reflexivity].
  repeat constructor; cbn; intuition discriminate.
Qed.

(** ** C10 *)

(** A use of a constructor that is not inside a block which declares it was already in the annotated
    code (so none if that has no paths to generated enums). *)
Theorem C10_in_scope : forall hash ta n args i i' cx,
  attribute hash ta n args i = ROk (Code i' cx) -> incl (unscoped i') (unscoped i).
Proof. exact scoped_output. Qed.
Print Assumptions C10_in_scope.

Example C10_example :
  unscoped sample_fn = []
  /\ match code_of (run sample_args sample_fn) with Some i' => unscoped i' = [] | None => False end.
Proof. split; [reflexivity|]. vm_compute. reflexivity. Qed.

(** ** C11 *)

(** Every enum of the output: a generated name, [k >= 2] variants [__Variant0 ..], as many type
    parameters, variant and parameter names distinct, variant [j] holding a field of the type of parameter
    [j]; the traits to derive are a trait list given by the user followed by others. *)
Theorem C11_enum_shape : forall hash ta n args i i' cx,
  attribute hash ta n args i = ROk (Code i' cx) -> decls i = [] ->
  Forall (fun g => exists k, 2 <= k /\ gen_name (g_ident g) = true
            /\ g_params g = map variant_name (seq 0 k) /\ NoDup (g_params g)
            /\ g_variants g = map (fun p => (p, p)) (g_params g)
            /\ exists ps tr, g_derive g = ps ++ tr /\ In ps (map fst (all_args args i)))
         (decls i').
Proof.
  intros hash ta n args i i' cx H D.
  pose proof (shaped_output _ _ _ _ _ _ _ H D) as S.
  pose proof (generated_names _ _ _ _ _ _ _ H D) as G.
  pose proof (derived_output _ _ _ _ _ _ _ H D) as V.
  rewrite Forall_forall in *. intros g Hg.
  destruct (S g Hg) as (j & k & d & K & E). exists k. split; [assumption|]. split; [auto|].
  specialize (V g Hg). subst g. cbn. split; [reflexivity|]. split; [apply variants_NoDup|].
  split; [|exact V]. generalize (variants k). intros l. induction l; cbn; congruence.
Qed.
Print Assumptions C11_enum_shape.

(** The enum of the attribute itself comes first, with the user's traits in the order given. *)
Theorem C11_own_enum_first : forall hash ta n args i i' cx ps m,
  attribute hash ta n args i = ROk (Code i' cx) -> parse_args args = inr (ps, m) -> ps <> [] ->
  (forall a mc semi, i <> InStmt (SMacro a mc semi)) -> decls i = [] -> names_input i = [] ->
  exists k tr, 2 <= k
    /\ begins_with (enum_of (enum_name (hash (NInput i))) (variants k) (ps ++ tr)) i'.
Proof.
  intros hash ta n args i i' cx ps m H P N M D E.
  destruct (root_finished _ _ _ _ _ _ _ _ _ H P N M D) as [X|X]; [exact X|contradiction].
Qed.
Print Assumptions C11_own_enum_first.

(** [#[auto_enum(Iterator, Clone)] match x { .. }]. *)
Example C11_example :
  match code_of (run [TkIdent "Iterator"; TkComma; TkIdent "Clone"] (InExpr sample_match)) with
  | Some i' =>
      begins_with (enum_of "__Enum2" (variants 2) [plain_path ["Iterator"]; plain_path ["Clone"]]) i'
      /\ names_input (InExpr sample_match) = []
  | None => False
  end.
Proof. vm_compute. split; [eexists; reflexivity|reflexivity]. Qed.

(** ** C12 *)

(** Code is returned only if the attribute has two or more branches, or there is a nested attribute. *)
Theorem C12_too_few_is_error : forall hash ta n args i i' cx ps m,
  attribute hash ta n args i = ROk (Code i' cx) -> parse_args args = inr (ps, m) -> ps <> [] ->
  (forall a mc semi, i <> InStmt (SMacro a mc semi)) -> decls i = [] ->
  (exists k tr, 2 <= k
     /\ begins_with (enum_of (enum_name (hash (NInput i))) (variants k) (ps ++ tr)) i')
  \/ names_input i <> [].
Proof. exact root_finished. Qed.
Print Assumptions C12_too_few_is_error.

(** In code without nested attributes the error is reported only for an expansion that made none or one
    variant, it is then the only error, it says which of the two it was, and it speaks of marker
    macros exactly if the code is an expression statement with [;]. *)
Theorem C12_error_is_exact : forall hash ta n args i l one semi,
  attribute hash ta n args i = ROk (Errors l) -> names_input i = [] ->
  In (ErrFewVariants one semi) l ->
  l = [ErrFewVariants one semi] /\ semi = ends_in_semi i
  /\ exists cx0 i' cx', ctx_root (enum_name (hash (NInput i))) args = inr cx0
     /\ expand_input ta (engine hash ta n) i cx0 = ROk (i', cx')
     /\ length (cx_variants cx') = if one then 1 else 0.
Proof. exact few_error_exact. Qed.
Print Assumptions C12_error_is_exact.

Example C12_example :
  run [TkIdent "Iterator"] (InExpr (EMatch [] (var "x") [arm1 "_" (call0 "a")]))
  = ROk (Errors [ErrFewVariants true false])
  /\ run [TkIdent "Iterator"] (InStmt (SExpr (EMatch [] (var "x") [arm1 "_" (call0 "a")]) true))
     = ROk (Errors [ErrFewVariants false true]).
Proof. split; vm_compute; reflexivity. Qed.

(** The attribute on a macro call statement does nothing at all: no enum and no error. *)
Theorem C12_macro_statement_refuted : exists args i i' cx ps,
  attribute sample_hash false 50 args i = ROk (Code i' cx) /\ parse_args args = inr (ps, None)
  /\ ps <> [] /\ decls i' = [] /\ names_input i = [].
Proof.
  exists [TkIdent "Iterator"], (InStmt (SMacro [] (Mac (plain_path ["m"]) None) true)).
  eexists. eexists. exists [plain_path ["Iterator"]].
  split; [vm_compute; reflexivity|]. repeat split. discriminate.
Qed.
Print Assumptions C12_macro_statement_refuted.

(** ** C13 *)

(** Either code and no error, or at least one error. *)
Theorem C13_all_or_nothing : forall hash ta n args i o,
  attribute hash ta n args i = ROk o ->
  match o with Code _ cx => cx_errs cx = [] | Errors l => l <> [] end.
Proof.
  intros hash ta n args i o H. unfold attribute in H.
  destruct (ctx_root _ args); [inversion H; discriminate|].
  destruct (expand_input _ _ _ _) as [[i' cx]| |]; inversion H.
  destruct (cx_errs cx) eqn:E; [assumption|discriminate].
Qed.
Print Assumptions C13_all_or_nothing.

(** Errors are never forgotten or reordered: those found before stay in front. *)
Theorem C13_errors_kept : forall hash ta n i cx i' cx',
  expand_input ta (engine hash ta n) i cx = ROk (i', cx') -> cx_variants cx = [] ->
  begins (cx_errs cx) (cx_errs cx').
Proof. exact errors_begin. Qed.
Print Assumptions C13_errors_kept.

(** The errors of a nested attribute are also errors of the one around it. *)
Theorem C13_nested_errors_reported : forall A i toks (w : M A) g cx x cx',
  nested_run i toks w g cx = ROk (x, cx') ->
  forall e,
    (ctx_new i toks false (cx_markers cx) (cx_errs cx) = inl e -> In e (cx_errs cx'))
    /\ (forall child y cx1 child',
          ctx_new i toks false (cx_markers cx) (cx_errs cx) = inr child ->
          w (set_errs [] (set_markers [] cx)) = ROk (y, cx1) ->
          g y child = ROk (x, child') -> In e (cx_errs child') -> In e (cx_errs cx')).
Proof. exact nested_errors. Qed.
Print Assumptions C13_nested_errors_reported.

(** After an error no more code is visited. *)
Theorem C13_errors_stop : forall hash ta n cx,
  cx_errs cx <> [] ->
  (forall sc b e, r_vexpr (engine hash ta (S n)) sc b e cx = ROk (e, cx))
  /\ (forall sc s, r_vstmt (engine hash ta (S n)) sc s cx = ROk (s, cx))
  /\ (forall sc x, r_varm (engine hash ta (S n)) sc x cx = ROk (x, cx))
  /\ (forall sc x, r_vlocal (engine hash ta (S n)) sc x cx = ROk (x, cx))
  /\ (forall e, r_dexpr (engine hash ta (S n)) e cx = ROk (e, cx))
  /\ (forall s, r_dstmt (engine hash ta (S n)) s cx = ROk (s, cx)).
Proof. exact errors_stop. Qed.
Print Assumptions C13_errors_stop.

(** An error deep inside a nested attribute: only errors come out, in order. *)
Example C13_example :
  run [TkIdent "Iterator"]
    (InExpr (EMatch [] (var "x")
       [arm1 "0" (call0 "a");
        arm1 "1" (EBlock [] None [SLocal (Local [] PWild None
          (Some (EIf [auto_enum_attr [TkIdent "Clone"]] (var "c") [SExpr (call0 "u") false] None)) None);
          SExpr (call0 "b") false])]))
  = ROk (Errors [ErrNoElse]).
Proof. vm_compute. reflexivity. Qed.
