(** Properties C15, C16, C21, C22. *)

Require Import Coq.Strings.String Coq.Lists.List Coq.Bool.Bool Coq.Arith.Arith Coq.NArith.NArith Lia.
Require Import Verif.Syntax Verif.Context Verif.ExprModel Verif.TypeAnalysis Verif.AutoEnum.
Require Import Verif.ArgsSpec Verif.TraitRun Verif.Grammar Verif.HaltRun Verif.Outside Verif.OutsideRun
  Verif.NoValueSpec Verif.NoValueRun Verif.ContextRun Verif.Scope Verif.Samples.
Import ListNotations.
Open Scope string_scope.
Open Scope list_scope.

(** ** C15 *)

(** No supported trait is found in the type of the annotated code. *)
Definition finds_nothing (ta : bool) (i : input) : Prop :=
  forall t bs q, ta = true -> annotated_type i = Some t -> In bs (impls t) -> In q (bounds_traits bs) ->
    ~ new_trait [] q.

(** Without traits only parts with their own [#[auto_enum]] change, and no variant is made. *)
Theorem C15_only_nested_changes : forall hash ta n args m i i' cx,
  parse_args args = inr ([], m) -> finds_nothing ta i ->
  attribute hash ta n args i = ROk (Code i' cx) ->
  same_input i i' /\ cx_variants cx = [].
Proof.
  intros hash ta n args m i i' cx HP F. eapply dummy_same_input; [exact HP|]. apply taken_none. exact F.
Qed.
Print Assumptions C15_only_nested_changes.

(** If there is no such part the code is returned as it is, without errors. *)
Theorem C15_identity : forall hash ta args m i,
  parse_args args = inr ([], m) -> finds_nothing ta i -> plain_input i = true -> wf_input i = true ->
  exists n cx, forall k, n <= k -> attribute hash ta k args i = ROk (Code i cx).
Proof.
  intros hash ta args m i HP F P W. destruct (attribute_halts hash ta args i W) as (n & o & H).
  destruct (dummy_identity hash ta n args m i HP (taken_none _ _ F) o P (H n (le_n n))) as (cx & ->).
  exists n, cx. exact H.
Qed.
Print Assumptions C15_identity.

(** The samples, with [#[auto_enum]]: the first has an annotated part, the second none; a marker
    argument makes no difference. *)
Example C15_example :
  parse_args [] = inr ([], None) /\ parse_args [TkIdent "marker"; TkEq; TkIdent "m"] = inr ([], Some "m")
  /\ finds_nothing false sample_fn /\ plain_input sample_fn = false
  /\ map g_ident (match code_of (run [] sample_fn) with Some i => decls i | None => [] end) = ["__Enum4"]
  /\ plain_input (InExpr sample_match) = true /\ wf_input (InExpr sample_match) = true
  /\ code_of (run [] (InExpr sample_match)) = Some (InExpr sample_match).
Proof. repeat split; try (vm_compute; reflexivity). intros t bs q X; discriminate. Qed.

(** ** C16 *)

(** The code that [auto_enum] takes as producing no value is the one listed in NoValueSpec.v. *)
Theorem C16_no_value : forall cx e,
  is_unreachable cx e = true <-> no_value (ctx_marker cx) e.
Proof. exact unreachable_iff. Qed.
Print Assumptions C16_no_value.

Theorem C16_no_value_stmt : forall cx s,
  is_unreachable_stmt cx s = true <-> no_value_stmt (ctx_marker cx) s.
Proof. exact unreachable_stmt_iff. Qed.
Print Assumptions C16_no_value_stmt.

(** [unsafe { match x { #[never] 0 => a(), _ => (return b()).c() } }] produces no value;
    [if c { return } else { return }] and [loop {}] are not recognised. *)
Example C16_example :
  no_value (eq "marker")
    (EBlk KUnsafe [] [SLocal (Local [] (PBind "y") None None None);
      SExpr (EMatch [] (var "x")
        [Arm [plain_attr "never"] (POther "0") None (call0 "a") true;
         arm1 "_" (EMethodCall [] (EParen [] (EReturn [] (Some (call0 "b")))) "c" [])]) false])
  /\ ~ no_value (ctx_marker (Ctx "" [] "marker" ["marker"] true false VDefault LDefault [] [] []))
       (EIf [] (var "c") [SExpr (EReturn [] None) true] (Some (EBlock [] None [SExpr (EReturn [] None) true])))
  /\ ~ no_value (ctx_marker (Ctx "" [] "marker" ["marker"] true false VDefault LDefault [] [] []))
       (ELoop [] None []).
Proof.
  split; [|split; intros H; apply unreachable_iff in H; vm_compute in H; discriminate].
  apply (nv_unsafe _ [] [_]). apply nvs_expr. apply nv_match.
  apply nva_never; [exists (plain_path ["never"]); split; [left; reflexivity|reflexivity]|].
  apply nva_body; [|constructor]. apply nv_method. apply nv_paren. apply nv_return.
Qed.

(** ** C21 *)

(** When the visitors reach code annotated with a marker name that is in use they report it. *)
Theorem C21_duplicate_rejected : forall hash ta n V e b cx e' cx' x p toks a' ps m,
  vs_visit_expr hash ta (engine hash ta n) V e b cx = ROk (e', cx') ->
  find_remove_attr (e_attrs e) "auto_enum" = Some (x, a') -> x = MList p toks ->
  parse_args toks = inr (ps, Some m) -> In m (cx_markers cx) ->
  In (ErrMarkerInUse m) (cx_errs cx').
Proof. exact marker_in_use. Qed.
Print Assumptions C21_duplicate_rejected.

Theorem C21_duplicate_rejected_let : forall hash ta n V a q t i d cx s' cx' x p toks a' ps m,
  vs_visit_stmt hash ta (engine hash ta n) V (SLocal (Local a q t i d)) cx = ROk (s', cx') ->
  find_remove_attr a "auto_enum" = Some (x, a') -> x = MList p toks ->
  parse_args toks = inr (ps, Some m) -> In m (cx_markers cx) ->
  In (ErrMarkerInUse m) (cx_errs cx').
Proof. exact marker_in_use_stmt. Qed.
Print Assumptions C21_duplicate_rejected_let.

(** [#[auto_enum(T, marker = m)]] with the marker [m], on [if d { u() } else { v() }]. *)
Definition C21_toks (t m : string) : list token :=
  [TkIdent t; TkComma; TkIdent "marker"; TkEq; TkIdent m].
Definition C21_if (a : list attr) (t : expr) : expr :=
  EIf a (var "d") [SExpr t false] (Some (EBlock [] None [SExpr (call0 "v") false])).
(** [match x { 0 => a, _ => { let y = #[auto_enum(Clone, marker = m)] if ..; y } }] *)
Definition C21_match (e : expr) : expr :=
  EMatch [] (var "x")
    [arm1 "0" (call0 "a");
     arm1 "_" (EBlock [] None [SLocal (Local [] (PBind "y") None (Some e) None); SExpr (var "y") false])].
Definition C21_child (m : string) : expr :=
  C21_if [auto_enum_attr (C21_toks "Clone" m)] (call0 "u").
(** The same one level deeper. *)
Definition C21_grandchild (m k : string) : expr :=
  C21_if [auto_enum_attr (C21_toks "Clone" k)]
    (EBlock [] None [SLocal (Local [] (PBind "z") None (Some (C21_child m)) None); SExpr (var "z") false]).

Example C21_example :
  run (C21_toks "Iterator" "m") (InExpr (C21_match (C21_child "m"))) = ROk (Errors [ErrMarkerInUse "m"])
  /\ exists i cx, run (C21_toks "Iterator" "m") (InExpr (C21_match (C21_child "k"))) = ROk (Code i cx).
Proof. split; [vm_compute; reflexivity|]. eexists. eexists. vm_compute. reflexivity. Qed.

(** The names of attributes further out are not known to an attribute inside a nested one: the
    third level may use the name of the first or of the second again. *)
Theorem C21_grandchild_refuted :
  (exists i cx, run (C21_toks "Iterator" "m") (InExpr (C21_match (C21_grandchild "m" "k"))) = ROk (Code i cx))
  /\ (exists i cx, run (C21_toks "Iterator" "m") (InExpr (C21_match (C21_grandchild "k" "k"))) = ROk (Code i cx)).
Proof. split; eexists; eexists; vm_compute; reflexivity. Qed.
Print Assumptions C21_grandchild_refuted.

(** ** C22 *)

(** The visitors leave all of a context as it was except for its new variants, its errors, and whether
    it has nested attributes. *)
Theorem C22_expression : forall hash ta n sc b e cx e' cx',
  r_vexpr (engine hash ta n) sc b e cx = ROk (e', cx') -> kept cx cx'.
Proof. exact vexpr_kept. Qed.
Print Assumptions C22_expression.

Theorem C22_statement : forall hash ta n sc s cx s' cx',
  r_vstmt (engine hash ta n) sc s cx = ROk (s', cx') -> kept cx cx'.
Proof. exact vstmt_kept. Qed.
Print Assumptions C22_statement.

(** The same under an attribute without traits. *)
Theorem C22_no_traits : forall hash ta n e cx e' cx',
  r_dexpr (engine hash ta n) e cx = ROk (e', cx') -> kept cx cx'.
Proof. exact dexpr_kept. Qed.
Print Assumptions C22_no_traits.

Theorem C22_no_traits_statement : forall hash ta n s cx s' cx',
  r_dstmt (engine hash ta n) s cx = ROk (s', cx') -> kept cx cx'.
Proof. exact dstmt_kept. Qed.
Print Assumptions C22_no_traits_statement.

(** So each statement of a block is expanded with the marker names, marker, traits and mode that
    the first one has. *)
Theorem C22_siblings : forall hash ta n sc l1 s l2 cx l' cx',
  mapM (r_vstmt (engine hash ta n) sc) (l1 ++ s :: l2) cx = ROk (l', cx') -> cx_errs cx' = [] ->
  exists c1 s' c2, r_vstmt (engine hash ta n) sc s c1 = ROk (s', c2)
    /\ kept cx c1 /\ kept cx c2 /\ In s' l' /\ cx_errs c1 = [] /\ cx_errs c2 = [].
Proof. exact siblings. Qed.
Print Assumptions C22_siblings.

(** A nested attribute starts with its own arguments, the marker names of the attributes around it, and
    nothing else. *)
Theorem C22_nested_start : forall i toks cx child cx',
  make_child i toks cx = ROk (inr child, cx') ->
  exists ps mo, parse_args toks = inr (ps, mo)
    /\ cx_args child = ps
    /\ cx_marker child = match mo with Some m => m | None => "marker" end
    /\ cx_markers child = cx_markers cx ++ [cx_marker child]
    /\ match mo with Some m => ~ In m (cx_markers cx) | None => True end
    /\ cx_mode child = VDefault /\ cx_last child = LDefault /\ cx_traits child = []
    /\ cx_variants child = [] /\ cx_root child = false /\ cx_has_child child = false.
Proof. exact child_starts. Qed.
Print Assumptions C22_nested_start.

(** Two siblings with the same marker name, in a function with a third name. *)
Example C22_example :
  let s := SLocal (Local [] (PBind "y") None (Some (C21_child "k")) None) in
  match run (C21_toks "Iterator" "m")
          (InStmt (SItem (IFn [] "f" (Some (impl_ty "Iterator")) [s; s; SExpr (C21_match (C21_child "k")) false]))) with
  | ROk (Code i cx) => length (decls i) = 4 /\ cx_markers cx = ["m"]
  | _ => False
  end.
Proof. vm_compute. auto. Qed.
