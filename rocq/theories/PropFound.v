(** Property C45. *)

Require Import Coq.Strings.String Coq.Lists.List Coq.Bool.Bool Coq.Arith.Arith Coq.NArith.NArith Lia.
Require Import Verif.Syntax Verif.Context Verif.ExprModel Verif.TypeAnalysis Verif.AutoEnum.
Require Import Verif.Grammar Verif.HaltRun Verif.TraitRun Verif.ArgsSpec Verif.NoValueSpec Verif.Tails Verif.Exits Verif.ExitsTop Verif.Changes Verif.ChangesTop
  Verif.Outside Verif.Scope Verif.Samples.
Require Import Verif.Found Verif.FoundRun.
Import ListNotations.
Open Scope string_scope.
Open Scope list_scope.

(** ** C45 *)

(** Traits that the type analysis finds can also be written as arguments. *)
Theorem C45_can_be_listed : forall args ps mo i,
  parse_args args = inr (ps, mo) -> exists args1, parse_args args1 = inr (ps ++ found ps i, mo).
Proof. exact can_be_listed. Qed.
Print Assumptions C45_can_be_listed.

(** The macro answers as if they were written there, but for the type of a [let]. *)
Theorem C45_as_listed : forall hash n args0 args1 ps mo i,
  parse_args args0 = inr (ps, mo) -> parse_args args1 = inr (ps ++ found ps i, mo) ->
  ~ (ps = [] /\ one_way (enum_name (hash (NInput i))) (own_marker mo) i) ->
  same_answer (match found ps i with [] => false | _ => true end) (attribute hash true n args0 i) (attribute hash true n args1 i).
Proof. exact as_listed. Qed.
Print Assumptions C45_as_listed.

(** So all changes are those of Changes.v, also where all traits are found. *)
Theorem C45_changes : forall hash n args ps mo i i' cx,
  parse_args args = inr (ps, mo) -> ps ++ found ps i <> [] ->
  ~ (ps = [] /\ one_way (enum_name (hash (NInput i))) (own_marker mo) i) ->
  attribute hash true n args i = ROk (Code i' cx) ->
  exists i1, expanded (enum_name (hash (NInput i))) (own_marker mo) i i1
    /\ i' = match found ps i with [] => i1 | _ => without_type i1 end.
Proof.
  intros hash n args ps mo i i' cx HP NE OW H. destruct (can_be_listed _ _ _ i HP) as (args1 & HP1).
  pose proof (as_listed hash n args args1 ps mo i HP HP1 OW) as S. rewrite H in S. cbn [same_answer] in S.
  destruct (attribute hash true n args1 i) as [[i1 cx1|]| |] eqn:H1; try contradiction. exists i1. split.
  - eapply attribute_changes; eassumption.
  - rewrite (proj1 S). destruct (found ps i); reflexivity.
Qed.
Print Assumptions C45_changes.

(** The exception: without arguments, a function or closure that has one way out is left alone. *)
Theorem C45_one_way_same : forall hash n args mo i i' cx,
  parse_args args = inr ([], mo) -> found [] i <> [] -> one_way (enum_name (hash (NInput i))) (own_marker mo) i ->
  attribute hash true n args i = ROk (Code i' cx) -> same_input (without_type i) i' /\ cx_variants cx = [].
Proof. intros. eapply one_way_same; eassumption. Qed.
Print Assumptions C45_one_way_same.

(** A function is returned as it is, without errors. *)
Theorem C45_one_way_fn : forall hash args mo a sg out b,
  let i := InStmt (SItem (IFn a sg out b)) in
  parse_args args = inr ([], mo) -> found [] i <> [] -> one_way (enum_name (hash (NInput i))) (own_marker mo) i ->
  plain_input i = true -> wf_input i = true ->
  exists n cx, forall k, n <= k -> attribute hash true k args i = ROk (Code i cx).
Proof.
  intros hash args mo a sg out b i HP NE OW PL W. destruct (attribute_halts hash true args i W) as (n & o & H).
  destruct (one_way_idle hash n args mo i o HP NE OW PL (H n (le_n n))) as (cx & ->). exists n, cx. exact H.
Qed.
Print Assumptions C45_one_way_fn.

(** A closure in a [let] is refused, or the [let] only loses its type. *)
Theorem C45_one_way_let : forall hash args mo l,
  let i := InStmt (SLocal l) in
  parse_args args = inr ([], mo) -> found [] i <> [] -> one_way (enum_name (hash (NInput i))) (own_marker mo) i ->
  plain_input i = true -> wf_input i = true ->
  exists n o, (forall k, n <= k -> attribute hash true k args i = ROk o)
    /\ (o = Errors [ErrFewVariants false false] \/ exists cx, o = Code (without_type i) cx).
Proof.
  intros hash args mo l i HP NE OW PL W. destruct (attribute_halts hash true args i W) as (n & o & H).
  exists n, o. split; [exact H|]. exact (one_way_idle hash n args mo i o HP NE OW PL (H n (le_n n))).
Qed.
Print Assumptions C45_one_way_let.

(** [fn f() -> impl Iterator { g(marker!(a()), marker!(b())) }]: the markers stay if [Iterator] is found, but are expanded if
    it is written as an argument. *)
Definition marks2 : expr :=
  ECall [] (var "g") [EMacro [] (Mac (plain_path ["marker"]) (Some (call0 "a"))); EMacro [] (Mac (plain_path ["marker"]) (Some (call0 "b")))].
Definition marks_fn : input := InStmt (SItem (IFn [] "f" (Some (impl_ty "Iterator")) [SExpr marks2 false])).
Theorem C45_always_as_listed_refuted : exists hash n args0 args1 i i0 cx0 i1 cx1,
  parse_args args0 = inr ([], None) /\ parse_args args1 = inr (found [] i, None)
  /\ attribute hash true n args0 i = ROk (Code i0 cx0) /\ attribute hash true n args1 i = ROk (Code i1 cx1)
  /\ i0 = i /\ i1 <> i /\ without_type i1 = i1.
Proof.
  exists sample_hash, 50, [], sample_args, marks_fn.
  destruct (attribute sample_hash true 50 [] marks_fn) as [[i0 cx0|]| |] eqn:E0; vm_compute in E0; try discriminate E0.
  destruct (attribute sample_hash true 50 sample_args marks_fn) as [[i1 cx1|]| |] eqn:E1; vm_compute in E1; try discriminate E1.
  injection E0 as <- <-. injection E1 as <- <-. do 4 eexists. repeat split; try (vm_compute; reflexivity). discriminate.
Qed.
Print Assumptions C45_always_as_listed_refuted.

(** ** Concrete cases *)

Definition run_ta (args : list token) (i : input) : res outcome := attribute sample_hash true 50 args i.

(** [#[auto_enum(Clone)] fn f() -> impl Iterator + Clone { if c { return m1(); } .. match x { .. } }], and without the argument.
    The order of the arguments is that of the derives. *)
Definition found_fn : input :=
  InStmt (SItem (IFn [] "f" (Some (TImpl [BTrait (plain_path ["Iterator"]); BOther "'a"; BTrait (plain_path ["Clone"])])) sample_fn_body)).
Example C45_example :
  parse_args [TkIdent "Clone"] = inr ([plain_path ["Clone"]], None)
  /\ found [plain_path ["Clone"]] found_fn = [plain_path ["Iterator"]]
  /\ found [] found_fn = [plain_path ["Iterator"]; plain_path ["Clone"]]
  /\ code_of (run_ta [TkIdent "Clone"] found_fn) = code_of (run_ta [TkIdent "Clone"; TkComma; TkIdent "Iterator"] found_fn)
  /\ code_of (run_ta [] found_fn) = code_of (run_ta [TkIdent "Iterator"; TkComma; TkIdent "Clone"] found_fn)
  /\ code_of (run_ta [] found_fn) <> None /\ code_of (run_ta [] found_fn) <> Some found_fn.
Proof. repeat split; try (vm_compute; reflexivity); vm_compute; discriminate. Qed.

(** The branches are not one way: the theorem applies without arguments. *)
Definition two_fn : input := InStmt (SItem (IFn [] "f" (Some (impl_ty "Iterator")) [SExpr sample_match false])).
Example C45_not_one_way : ~ one_way "__Enum1" "marker" two_fn /\ found [] two_fn <> [].
Proof.
  split; [|discriminate]. intros H. destruct (run_ta [] two_fn) as [o| |] eqn:E; [|vm_compute in E; discriminate E|vm_compute in E; discriminate E].
  destruct (one_way_idle sample_hash 50 [] None two_fn o eq_refl) as (cx & X); [discriminate|exact H|reflexivity|exact E|].
  vm_compute in E. injection E as <-. discriminate X.
Qed.
Example C45_two_example :
  code_of (run_ta [] two_fn) = code_of (run_ta sample_args two_fn)
  /\ map g_ident (match code_of (run_ta [] two_fn) with Some i => decls i | None => [] end) = ["__Enum1"].
Proof. vm_compute. auto. Qed.

(** [let z: impl Iterator = match x { .. };] loses its type. *)
Definition found_let : input := InStmt (SLocal (Local [] (PBind "z") (Some (impl_ty "Iterator")) (Some sample_match) None)).
Example C45_let_example :
  found [] found_let = [plain_path ["Iterator"]]
  /\ code_of (run_ta [] found_let) = option_map without_type (code_of (run_ta sample_args found_let))
  /\ code_of (run_ta [] found_let) <> code_of (run_ta sample_args found_let).
Proof. repeat split; try (vm_compute; reflexivity). vm_compute. discriminate. Qed.
Example C45_let_not_one_way : forall own m, ~ one_way own m found_let.
Proof. intros own m H. inversion H. Qed.

(** [fn f() -> impl Iterator { if c { return m1(); } g() }] and [let z: impl Fn = || h();] have one way out. *)
Definition alone_fn : input :=
  InStmt (SItem (IFn [] "f" (Some (impl_ty "Iterator"))
    [SExpr (EIf [] (var "c") [SExpr (EReturn [] (Some (call0 "m1"))) true] None) false; SExpr (call0 "g") false])).
Definition alone_let : input := InStmt (SLocal (Local [] (PBind "z") (Some (impl_ty "Fn")) (Some (EClosure [] [] (call0 "h"))) None)).
Example C45_alone : forall own m,
  one_way own m alone_fn /\ one_way own m alone_let /\ one_way own m marks_fn
  /\ found [] alone_fn <> [] /\ found [] alone_let <> [] /\ plain_input alone_fn = true /\ plain_input alone_let = true
  /\ wf_input alone_fn = true /\ wf_input alone_let = true.
Proof.
  intros own m. split; [|split; [|split]].
  - eapply ow_fn; [discriminate|apply le_n|]. apply (tb_value _ _ _ [_]). apply tl_other. reflexivity.
  - eapply ow_let; [apply le_S, le_n|apply le_S, le_n|]. apply tl_other. reflexivity.
  - eapply ow_fn; [discriminate|apply le_S, le_n|]. apply (tb_value _ _ _ []). apply tl_other. reflexivity.
  - repeat split; discriminate.
Qed.
Example C45_alone_example :
  code_of (run_ta [] alone_fn) = Some alone_fn /\ run_ta [] alone_let = ROk (Errors [ErrFewVariants false false])
  /\ run_ta sample_args alone_fn <> run_ta [] alone_fn.
Proof. repeat split; try (vm_compute; reflexivity). vm_compute. discriminate. Qed.
