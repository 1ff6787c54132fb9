(** Properties C18 and C23: which annotations are rejected and that the others are gone from the output.

    Annotations.v: [in_code r c i] and [all r c e] ask a condition of every expression, arm and [let] of the annotated code, with
    a context that changes on the way down; [well_annotated] and [tidy] have as context whether an attribute with traits deals
    with the place; [gone] has none. *)

Require Import Coq.Strings.String Coq.Lists.List Coq.Bool.Bool Coq.NArith.NArith.
Require Import Verif.Syntax Verif.Context Verif.ExprModel Verif.AutoEnum Verif.Edits Verif.Tails Verif.Changes Verif.ChangesTop.
Require Import Verif.Nodes Verif.Annotations Verif.AnnotRun Verif.GoneRun Verif.Samples.
Import ListNotations.
Open Scope string_scope.
Open Scope list_scope.

(** ** Rejected annotations *)

(** If the expansion succeeds then in all code that it deals with, at any depth and also in the code of nested attributes, the
    first [never] and the first [nested] of each expression, arm and [let] have no arguments, and there is no [#[rec]]. *)
Theorem C18_C23_accepted : forall hash ta n args ps mo i i' cx,
  parse_args args = inr (ps, mo) -> ps <> [] ->
  attribute hash ta n args i = ROk (Code i' cx) ->
  in_code well_annotated true i = true.
Proof. intros hash ta n args ps mo i i' cx HP N H. eapply expanded_well. eapply attribute_changes; eassumption. Qed.
Print Assumptions C18_C23_accepted.

(** The same the other way round: the expansion answers with errors. *)
Theorem C18_C23_rejected : forall hash ta n args ps mo i out,
  parse_args args = inr (ps, mo) -> ps <> [] ->
  attribute hash ta n args i = ROk out ->
  in_code well_annotated true i = false -> exists l, out = Errors l.
Proof.
  intros hash ta n args ps mo i [i' cx|l] HP N H W; [|eauto]. rewrite (C18_C23_accepted _ _ _ _ _ _ _ _ _ HP N H) in W. discriminate.
Qed.
Print Assumptions C18_C23_rejected.

(** For the arms of an annotated [match], without the general condition. *)
Corollary C18_arm_rejected : forall hash ta n args ps mo a s arms out b p g e c x,
  parse_args args = inr (ps, mo) -> ps <> [] -> attr_named "auto_enum" a = false ->
  attribute hash ta n args (InExpr (EMatch a s arms)) = ROk out ->
  In (Arm b p g e c) arms -> (first_named "never" b = Some x /\ x <> MPath (attr_path x) \/ attr_named "rec" b = true) ->
  exists l, out = Errors l.
Proof.
  intros hash ta n args ps mo a s arms out b p g e c x HP N NA H I B. eapply C18_C23_rejected; [exact HP|exact N|exact H|].
  change (all well_annotated true (EMatch a s arms) = false). rewrite all_below. cbn [r_in well_annotated node_of e_attrs]. rewrite dealt_none by exact NA.
  unfold below. cbn [fold_expr].
  assert (G : good b = false).
  { unfold good, first_plain. destruct B as [[B1 B2]|B]; [|rewrite B; apply andb_false_r].
    rewrite B1. destruct x; [contradiction B2; reflexivity| |]; rewrite ?andb_false_r; reflexivity. }
  clear H. apply andb_false_iff. right. apply andb_false_iff. right. induction arms as [|y arms IH]; [contradiction|]. unfold fold_list in *. cbn [fold_right].
  destruct I as [->|I]; [|rewrite IH by exact I; apply andb_false_r]. rewrite all_arm_eq. cbn. rewrite G. reflexivity.
Qed.
Print Assumptions C18_arm_rejected.

(** [match x { 0 => a(), _ => { let y = #[auto_enum(Clone)] match z { #[never(q)] 0 => u(), _ => v() }; b() } }], the same with
    [#[rec]] on the inner arm, and with [#[never]]. *)
Definition C18_deep (at1 : attr) : input :=
  InExpr (EMatch [] (var "x") [arm1 "0" (call0 "a");
    arm1 "_" (EBlock [] None [
      SLocal (Local [] (PBind "y") None (Some (EMatch [auto_enum_attr [TkIdent "Clone"]] (var "z")
        [Arm [at1] (POther "0") None (call0 "u") true; arm1 "1" (call0 "w"); arm1 "_" (call0 "v")])) None);
      SExpr (call0 "b") false])]).
Example C18_C23_example :
  (in_code well_annotated true (C18_deep (MList (plain_path ["never"]) [TkIdent "q"])) = false
   /\ exists l, run sample_args (C18_deep (MList (plain_path ["never"]) [TkIdent "q"])) = ROk (Errors l))
  /\ (in_code well_annotated true (C18_deep (plain_attr "rec")) = false
      /\ exists l, run sample_args (C18_deep (plain_attr "rec")) = ROk (Errors l))
  /\ (in_code well_annotated true (C18_deep (plain_attr "never")) = true
      /\ exists i cx, run sample_args (C18_deep (plain_attr "never")) = ROk (Code i cx)).
Proof. repeat split; vm_compute; eauto. Qed.
Example C18_arm_rejected_example :
  let b := [MList (plain_path ["never"]) []] in
  attr_named "auto_enum" [] = false /\ first_named "never" b = Some (MList (plain_path ["never"]) [])
  /\ exists l, run sample_args (InExpr (EMatch [] (var "x") [arm1 "0" (call0 "a"); Arm b (POther "_") None (call0 "b") true])) = ROk (Errors l).
Proof. repeat split; vm_compute; eauto. Qed.

(** A second annotation of the same name is not looked at: [match x { 0 => a(), 1 => b(), #[never] #[never(q)] _ => c() }]. *)
Theorem C18_second_refuted : exists i a g e c i' cx,
  In (Arm a (POther "_") g e c) (match i with InExpr (EMatch _ _ arms) => arms | _ => [] end)
  /\ In (MList (plain_path ["never"]) [TkIdent "q"]) a /\ run sample_args i = ROk (Code i' cx).
Proof.
  exists (InExpr (EMatch [] (var "x") [arm1 "0" (call0 "a"); arm1 "1" (call0 "b");
    Arm [plain_attr "never"; MList (plain_path ["never"]) [TkIdent "q"]] (POther "_") None (call0 "c") true])).
  do 6 eexists. split; [cbn; eauto|]. split; [cbn; eauto|]. vm_compute. reflexivity.
Qed.
Print Assumptions C18_second_refuted.

(** ** Annotations that are gone *)

(** If every annotation stands where it has a meaning and none twice in the same place, the output holds none of them:
    no [#[auto_enum]], no [#[nested]] and no [#[never]] on any expression, arm or [let], and none in macro arguments either.
    (That everything else stays, attributes included, is C01.) *)
Theorem C23_gone_partial : forall hash ta n args ps mo i i' cx,
  parse_args args = inr (ps, mo) -> ps <> [] ->
  attribute hash ta n args i = ROk (Code i' cx) ->
  tidy_code i = true -> gone_code i' = true.
Proof. intros hash ta n args ps mo i i' cx HP N H. eapply expanded_gone. eapply attribute_changes; eassumption. Qed.
Print Assumptions C23_gone_partial.

(** [match x { 0 => a(), #[nested] 1 => match k { 0 => d(), #[never] _ => f() }, _ => { .. as above .. } }] with an other
    attribute on an arm, which stays. *)
Definition C23_sample : input :=
  InExpr (EMatch [] (var "x") [Arm [MPath (plain_path ["inline"])] (POther "0") None (call0 "a") true;
    Arm [plain_attr "nested"] (POther "1") None (EMatch [] (var "k") [arm1 "0" (call0 "d"); Arm [plain_attr "never"] (POther "_") None (call0 "f") true]) true;
    arm1 "_" (EBlock [] None [
      SLocal (Local [] (PBind "y") None (Some (EMatch [auto_enum_attr [TkIdent "Clone"]] (var "z")
        [Arm [plain_attr "never"] (POther "0") None (call0 "u") true; arm1 "1" (call0 "w"); arm1 "_" (call0 "v")])) None);
      SLocal (Local [] (PBind "y2") None (Some (EClosure [auto_enum_attr [TkIdent "Clone"]] [PBind "q"] (EIf [] (var "z")
        [SExpr (EReturn [plain_attr "never"] (Some (call0 "r"))) true; SExpr (EReturn [] (Some (call0 "r1"))) true; SExpr (call0 "t") false]
        (Some (EBlock [] None [SExpr (call0 "o") false]))))) None);
      SExpr (call0 "b") false])]).
Example C23_example :
  tidy_code C23_sample = true /\ gone_code C23_sample = false /\ exists i cx, run sample_args C23_sample = ROk (Code i cx) /\ gone_code i = true.
Proof. split; [reflexivity|]. split; [reflexivity|]. do 2 eexists. vm_compute. split; reflexivity. Qed.

(** The conditions are needed. *)
Definition leaves (i : input) : Prop := exists i' cx, run sample_args i = ROk (Code i' cx) /\ gone_code i' = false.
(** Twice in the same place. *)
Theorem C23_twice_refuted : exists a, a = [plain_attr "never"; plain_attr "never"]
  /\ leaves (InExpr (EMatch [] (var "x") [arm1 "0" (call0 "a"); arm1 "1" (call0 "b"); Arm a (POther "_") None (call0 "c") true])).
Proof. eexists. split; [reflexivity|]. do 2 eexists. vm_compute. split; reflexivity. Qed.
Print Assumptions C23_twice_refuted.
(** On a [let] that is itself annotated. *)
Theorem C23_let_refuted : exists a, a = [auto_enum_attr [TkIdent "Clone"]; plain_attr "nested"]
  /\ leaves (InExpr (EMatch [] (var "x") [arm1 "0" (call0 "a"); arm1 "1" (EBlock [] None
       [SLocal (Local a (PBind "y") None (Some sample_match) None); SExpr (call0 "b") false])])).
Proof. eexists. split; [reflexivity|]. do 2 eexists. vm_compute. split; reflexivity. Qed.
Print Assumptions C23_let_refuted.
(** [#[auto_enum(..)]] on an arm. *)
Theorem C23_arm_refuted : exists a, a = [auto_enum_attr [TkIdent "Clone"]]
  /\ leaves (InExpr (EMatch [] (var "x") [arm1 "0" (call0 "a"); Arm a (POther "_") None (call0 "b") true])).
Proof. eexists. split; [reflexivity|]. do 2 eexists. vm_compute. split; reflexivity. Qed.
Print Assumptions C23_arm_refuted.
(** In the argument of a marker macro. *)
Theorem C23_marker_refuted : exists e, e = EMatch [] (var "k") [Arm [plain_attr "never"] (POther "0") None (call0 "d") true; arm1 "_" (call0 "f")]
  /\ leaves (InExpr (EMatch [] (var "x") [arm1 "0" (call0 "a"); arm1 "_" (EMacro [] (Mac (plain_path ["marker"]) (Some e)))])).
Proof. eexists. split; [reflexivity|]. do 2 eexists. vm_compute. split; reflexivity. Qed.
Print Assumptions C23_marker_refuted.
