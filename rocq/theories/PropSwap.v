(** Property C53. *)

Require Import Coq.Strings.String Coq.Lists.List Coq.Bool.Bool Coq.Arith.Arith Coq.NArith.NArith Lia.
Require Import Verif.Syntax Verif.Context Verif.ExprModel Verif.TypeAnalysis Verif.AutoEnum Verif.Edits.
Require Import Verif.ExitsTop Verif.Scope Verif.Samples Verif.Found Verif.PropFound.
Require Import Verif.Swap Verif.SwapRun.
Import ListNotations.
Open Scope string_scope.
Open Scope list_scope.

(** ** C53 *)

(** Which traits are listed makes no difference but for the traits of the enum. *)
Theorem C53_traits_only : forall hash ta n args0 args1 ps0 ps1 mo i,
  parse_args args0 = inr (ps0, mo) -> parse_args args1 = inr (ps1, mo) -> ps0 <> [] -> ps1 <> [] ->
  (ta = true -> found ps0 i = [] /\ found ps1 i = []) ->
  but_traits (fun x => x) (enum_name (hash (NInput i))) ps0 ps1 (attribute hash ta n args0 i) (attribute hash ta n args1 i).
Proof. exact traits_only. Qed.
Print Assumptions C53_traits_only.

(** Also with the type analysis, where the enum derives the traits listed and those found: a [let] may lose its type. *)
Theorem C53_found : forall hash n args0 args1 ps0 ps1 mo i,
  parse_args args0 = inr (ps0, mo) -> parse_args args1 = inr (ps1, mo) ->
  ps0 ++ found ps0 i <> [] -> ps1 ++ found ps1 i <> [] ->
  (ps0 = [] \/ ps1 = [] -> ~ one_way (enum_name (hash (NInput i))) (own_marker mo) i) ->
  but_traits without_type (enum_name (hash (NInput i))) (ps0 ++ found ps0 i) (ps1 ++ found ps1 i)
    (attribute hash true n args0 i) (attribute hash true n args1 i).
Proof. exact traits_only_found. Qed.
Print Assumptions C53_found.

(** So code is refused for some traits only if it is refused for all, with the same errors. *)
Theorem C53_refused : forall hash ta n args0 args1 ps0 ps1 mo i l,
  parse_args args0 = inr (ps0, mo) -> parse_args args1 = inr (ps1, mo) -> ps0 <> [] -> ps1 <> [] ->
  attribute hash ta n args0 i = ROk (Errors l) -> attribute hash ta n args1 i = ROk (Errors l).
Proof.
  intros hash ta n args0 args1 ps0 ps1 mo i l P0 P1 N0 N1 H.
  assert (X : exists same, but_traits same (enum_name (hash (NInput i))) (ps0 ++ if ta then found ps0 i else []) (ps1 ++ if ta then found ps1 i else [])
    (attribute hash ta n args0 i) (attribute hash ta n args1 i)).
  { destruct ta.
    - exists without_type. apply (C53_found _ _ _ _ _ _ mo); auto.
      + destruct ps0; [congruence|discriminate].
      + destruct ps1; [congruence|discriminate].
      + intros [|]; congruence.
    - exists (fun x => x). rewrite !app_nil_r. apply (C53_traits_only _ _ _ _ _ _ _ mo); auto. discriminate. }
  destruct X as (same & X). rewrite H in X. destruct (attribute hash ta n args1 i) as [[]| |]; cbn in X; try contradiction. congruence.
Qed.
Print Assumptions C53_refused.

(** ** Concrete cases *)

(** [#[auto_enum(Iterator)]] and [#[auto_enum(Clone, Debug)]] on the same function, which has a [let] with [#[auto_enum(Clone)]]. *)
Definition other_args : list token := [TkIdent "Clone"; TkComma; TkIdent "Debug"].
Definition traits_of_run (r : res outcome) : list (list path) :=
  match code_of r with Some i => map g_derive (decls i) | None => [] end.
Example C53_example :
  parse_args sample_args = inr ([plain_path ["Iterator"]], None)
  /\ parse_args other_args = inr ([plain_path ["Clone"]; plain_path ["Debug"]], None)
  /\ traits_of_run (run sample_args sample_fn) = [[plain_path ["Iterator"]]; [plain_path ["Clone"]]]
  /\ traits_of_run (run other_args sample_fn) = [[plain_path ["Clone"]; plain_path ["Debug"]]; [plain_path ["Clone"]]]
  /\ (exists i vs, vs <> [] /\ code_of (run sample_args sample_fn) = Some (with_enum (enum_of "__Enum1" vs [plain_path ["Iterator"]]) i)
        /\ code_of (run other_args sample_fn) = Some (with_enum (enum_of "__Enum1" vs [plain_path ["Clone"]; plain_path ["Debug"]]) i)).
Proof.
  repeat split; try (vm_compute; reflexivity).
  pose proof (C53_traits_only sample_hash false 50 sample_args other_args _ _ None sample_fn eq_refl eq_refl) as H.
  specialize (H ltac:(discriminate) ltac:(discriminate) ltac:(discriminate)). change (enum_name (sample_hash (NInput sample_fn))) with "__Enum1" in H.
  change (attribute sample_hash false 50) with run in H.
  destruct (run sample_args sample_fn) as [[i0 c0|]| |] eqn:E0; try (vm_compute in E0; discriminate E0).
  destruct (run other_args sample_fn) as [[i1 c1|]| |] eqn:E1; try (vm_compute in E1; discriminate E1).
  destruct H as [_ H]. assert (V : cx_variants c0 <> []) by (vm_compute in E0; injection E0 as _ <-; discriminate).
  unfold code_but_traits in H. destruct (cx_variants c0) as [|v vs]; [congruence|]. destruct H as (i & -> & ->).
  exists i, (v :: vs). split; [discriminate|]. split; reflexivity.
Qed.

(** With the type analysis: [#[auto_enum]] and [#[auto_enum(Clone)]] on [fn f() -> impl Iterator { match x { .. } }]. *)
Example C53_found_example :
  found [] two_fn = [plain_path ["Iterator"]]
  /\ found [plain_path ["Clone"]] two_fn = [plain_path ["Iterator"]]
  /\ ~ one_way "__Enum1" "marker" two_fn
  /\ traits_of_run (run_ta [] two_fn) = [[plain_path ["Iterator"]]]
  /\ traits_of_run (run_ta [TkIdent "Clone"] two_fn) = [[plain_path ["Clone"]; plain_path ["Iterator"]]].
Proof. repeat split; try (vm_compute; reflexivity). apply C45_not_one_way. Qed.

(** A [match] with one branch is refused for all traits. *)
Definition one_arm : input := InExpr (EMatch [] (var "x") [arm1 "A" (call0 "a")]).
Example C53_refused_example : forall ta,
  attribute sample_hash ta 50 sample_args one_arm = attribute sample_hash ta 50 other_args one_arm
  /\ attribute sample_hash ta 50 sample_args one_arm = ROk (Errors [ErrFewVariants true false]).
Proof. intros []; vm_compute; auto. Qed.

(** Some trait has to be there: without arguments the code is left alone. *)
Example C53_condition :
  code_of (run [] two_fn) = Some two_fn /\ code_of (run sample_args two_fn) <> Some two_fn.
Proof. split; [vm_compute; reflexivity|]. vm_compute. discriminate. Qed.

(** The type of a [let] stays if its trait is listed, but not if it is found: the traits of the enum are the same. *)
Example C53_let :
  traits_of_run (run_ta sample_args found_let) = traits_of_run (run_ta [] found_let)
  /\ code_of (run_ta sample_args found_let) <> code_of (run_ta [] found_let).
Proof. split; [vm_compute; reflexivity|]. vm_compute. discriminate. Qed.
