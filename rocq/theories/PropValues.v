(** Properties C03 (executions) and C46: on every execution the code with the attribute gives the value of the original code,
    in one variant of the generated enum.

    [tidy], [covered], [covered_body], [in_variant]: Values.v.  [run_input]: Eval.v. *)

Require Import Coq.Strings.String Coq.Lists.List Coq.Bool.Bool Coq.NArith.NArith.
Require Import Verif.Syntax Verif.Context Verif.ExprModel Verif.AutoEnum Verif.Edits Verif.NoValueSpec Verif.Excused Verif.RunLemmas Verif.Exits Verif.ExitsTop Verif.Tails Verif.Loops Verif.Changes
  Verif.ChangesTop Verif.Branches Verif.BranchesRun Verif.Eval Verif.EvalRun Verif.Trace Verif.Values Verif.ValuesRun Verif.ValuesTop Verif.Samples Verif.PropSemantics.
Import ListNotations.
Open Scope string_scope.
Open Scope list_scope.

(** ** C03 *)

(** A function that returns [impl ..]: for all operations, all arguments, all states and any bound on the length of the
    execution, the function with the attribute ends as the original one does and in the same state; if the original one
    returns a value, by [return] or at its end, it returns this value in one variant of the enum.  The code has no
    annotations inside, its last expression is a [match], [if] with [else] or [loop], or it leaves by [return] only.
    Bodies with markers, [#[nested]] and [#[never]]: [C49_function].
    Bodies with nested attributes: [C50_function].
    Missing: bodies with both nested attributes and a [loop] at their end, and the cases in which the full statement is false:
    a branch that is skipped because it looks as if it gave no value (C17), a [break] the attribute assigns to the wrong
    loop (C06); see [C03_labelled_block_refuted]. *)
Theorem C03_values_partial : forall hash ta n args ps mo a sg bs b i' cx,
  parse_args args = inr (ps, mo) -> ps <> [] ->
  attribute hash ta n args (InStmt (SItem (IFn a sg (Some (TImpl bs)) b))) = ROk (Code i' cx) ->
  forallb (tidy_stmt (own_marker mo) TakesReturns) b = true -> covered_body (own_marker mo) b ->
  forall (W : Type) (O : ops W) (mk : string -> bool) (k : nat) (en : env) (w : W),
  (forall s, mk s = true -> s = own_marker mo) ->
  let i := InStmt (SItem (IFn a sg (Some (TImpl bs)) b)) in
  in_variant (enum_name (hash (NInput i))) (run_input W O mk k i en w) (run_input W O mk k i' en w).
Proof.
  intros hash ta n args ps mo a sg bs b i' cx HP N H T C W O mk k en w MK i. pose proof (attribute_changes hash ta n args ps mo HP N _ i' cx H) as E.
  fold i in E. set (own := enum_name (hash (NInput i))) in *. assert (G : gen_name own = true) by apply gen_enum_name.
  inversion E as [| | | |? ? ? x k0 ? b1 b2 b' FT NE BB DS D|]; subst. inversion FT as [| |? NI]; subst; [|match goal with R : result_impl _ |- _ => apply result_impl_iff in R; discriminate R end|exfalso; exact (NI bs eq_refl)].
  cbn [run_input i]. apply finish_in_variant. eapply fn_lifts; eassumption.
Qed.
Print Assumptions C03_values_partial.

(** [if c { return m1(); }  match x { 0 => a(), 1 => { u(); if d { b() } else { return m2(); } }, 2 => loop { break k() }, _ => panic!() }] *)
Definition C03_sample_body : list stmt :=
  [SExpr (EIf [] (var "c") [SExpr (EReturn [] (Some (call0 "m1"))) true] None) false;
   SExpr (EMatch [] (var "x")
     [arm1 "0" (call0 "a");
      arm1 "1" (EBlock [] None [SExpr (call0 "u") true;
        SExpr (EIf [] (var "d") [SExpr (call0 "b") false] (Some (EBlock [] None [SExpr (EReturn [] (Some (call0 "m2"))) true]))) false]);
      arm1 "2" (ELoop [] None [SExpr (EBreak [] None (Some (call0 "k"))) true]);
      arm1 "_" (EMacro [] (Mac (plain_path ["panic"]) None))]) false].
Definition C03_sample : input := InStmt (SItem (IFn [] "f" (Some (impl_ty "Iterator")) C03_sample_body)).
Definition run_with (x : string) (c : bool) (i : input) : sres trace :=
  run_input trace (traced sample_oracle) (fun _ => false) 5 i (sample_vars x c) [].

(** Unfolds what is known about a given piece of code. *)
Ltac look := repeat match goal with
  | H : has_plain _ _ |- _ => destruct H as (? & [] & _)
  | H : has_any _ _ |- _ => destruct H as (? & [] & _)
  | H : ?b ++ [_] = _ |- _ => destruct b as [|? [|? [|? ?]]]; inversion H; clear H; subst
  | H : marker_mac _ _ |- _ => destruct H as (? & -> & H); discriminate
  | H : no_value _ _ |- _ => inversion H; clear H; subst
  | H : no_value_stmt _ _ |- _ => inversion H; clear H; subst
  | H : excused _ _ |- _ => inversion H; clear H; subst
  | H : excused_stmt _ _ |- _ => inversion H; clear H; subst
  end.

Lemma C03_sample_covered : covered_body "marker" C03_sample_body.
Proof.
  apply (cb_value _ [_]). apply cv_match. repeat constructor; unfold sound; intros N X; look.
Qed.

(** The function meets the conditions.  Called in five ways, it returns the objects of the original one in the variants of
    the enum: by an early [return], at the end of each arm, by a [return] within an arm, and not at all. *)
Example C03_values_example :
  forallb (tidy_stmt "marker" TakesReturns) C03_sample_body = true
  /\ match code_of (run sample_args C03_sample) with
     | Some i' =>
         run_with "0" true C03_sample = SGo _ [] (VOp "new m1" []) [("call", [VOp "m1" []])]
         /\ run_with "0" true i' = SGo _ [] (VWrap "__Enum1" "__Variant3" (VOp "new m1" [])) [("call", [VOp "m1" []])]
         /\ run_with "0" false i' = SGo _ [] (VWrap "__Enum1" "__Variant0" (VOp "new a" [])) [("call", [VOp "a" []])]
         /\ run_with "1" false i' = SGo _ [] (VWrap "__Enum1" "__Variant1" (VOp "new b" [])) [("call", [VOp "b" []]); ("call", [VOp "u" []])]
         /\ run_with "2" false i' = SGo _ [] (VWrap "__Enum1" "__Variant2" (VOp "new k" [])) [("call", [VOp "k" []])]
         /\ run_with "7" false C03_sample = SOut _ OPanic [] /\ run_with "7" false i' = SOut _ OPanic []
     | None => False
     end.
Proof. vm_compute. auto 10. Qed.

(** The full statement fails for an arm that is a block left by [break] with its label: it counts as producing no value and is
    not wrapped.  [match x { 0 => 'a: { if c { break 'a b(); } return m(); }, 1 => k(), _ => h() }] *)
Definition C03_labelled : input :=
  InStmt (SItem (IFn [] "f" (Some (impl_ty "Iterator"))
    [SExpr (EMatch [] (var "x")
      [arm1 "0" (EBlock [] (Some "a") [SExpr (EIf [] (var "c") [SExpr (EBreak [] (Some "a") (Some (call0 "b"))) true] None) false; SExpr (EReturn [] (Some (call0 "m"))) true]);
       arm1 "1" (call0 "k"); arm1 "_" (call0 "h")]) false])).
Theorem C03_labelled_block_refuted : exists hash ta n args i i' cx x w,
  attribute hash ta n args i = ROk (Code i' cx) /\ i = C03_labelled
  /\ run_with "0" true i = SGo _ [] x w /\ run_with "0" true i' = SGo _ [] x w /\ (forall v y, x <> VWrap (enum_name (hash (NInput i))) v y).
Proof.
  exists sample_hash, false, 50, sample_args, C03_labelled. eexists _, _, _, _.
  split; [vm_compute; reflexivity|]. split; [reflexivity|]. split; [vm_compute; reflexivity|]. split; [vm_compute; reflexivity|]. discriminate.
Qed.
Print Assumptions C03_labelled_block_refuted.

(** ** C46 *)

(** An annotated expression, as such or at the end of a block: its value is that of the original expression in one variant
    of the enum; it ends in any other way as the original one does - by [return], [?], [break] or [continue] with the same value
    and label, or by a panic. *)
Theorem C46_expression : forall hash ta n args ps mo e i i' cx,
  parse_args args = inr (ps, mo) -> ps <> [] ->
  attribute hash ta n args i = ROk (Code i' cx) ->
  i = InExpr e \/ i = InStmt (SExpr e false) -> closure e = false ->
  tidy (own_marker mo) TakesNone e = true -> covered (own_marker mo) e ->
  forall (W : Type) (O : ops W) (mk : string -> bool) (k : nat) (en : env) (w : W),
  (forall s, mk s = true -> s = own_marker mo) ->
  in_variant (enum_name (hash (NInput i))) (run_input W O mk k i en w) (run_input W O mk k i' en w).
Proof.
  intros hash ta n args ps mo e i i' cx HP N H I CL T C W O mk k en w MK. pose proof (attribute_changes hash ta n args ps mo HP N i i' cx H) as E.
  assert (G : gen_name (enum_name (hash (NInput i))) = true) by apply gen_enum_name.
  assert (X : exists e1 e', code (enum_name (hash (NInput i))) (own_marker mo) e e1 /\ declared (enum_name (hash (NInput i))) e1 e' /\
            (i = InExpr e /\ i' = InExpr e' \/ i = InStmt (SExpr e false) /\ i' = InStmt (SExpr e' false))).
  { destruct I as [-> | ->]; inversion E; subst; eauto 8. }
  destruct X as (e1 & e' & X1 & X2 & X3). inversion X1 as [|? ? NC B]; subst; [discriminate|].
  pose proof (body_lifts O mk _ _ G MK k _ _ _ B X2 C T en w) as L. apply lifts_in_variant in L.
  destruct X3 as [[-> ->]|[-> ->]]; [exact L|]. cbn [run_input]. unfold eval_stmt. rewrite !eval_is in L. exact L.
Qed.
Print Assumptions C46_expression.

(** An annotated [let]: the variable is bound to the value in one variant of the enum. *)
Theorem C46_let : forall hash ta n args ps mo a y t e d i' cx,
  parse_args args = inr (ps, mo) -> ps <> [] ->
  attribute hash ta n args (InStmt (SLocal (Local a (PBind y) t (Some e) d))) = ROk (Code i' cx) -> closure e = false ->
  tidy (own_marker mo) TakesNone e = true -> covered (own_marker mo) e ->
  forall (W : Type) (O : ops W) (mk : string -> bool) (k : nat) (en : env) (w : W),
  (forall s, mk s = true -> s = own_marker mo) ->
  let i := InStmt (SLocal (Local a (PBind y) t (Some e) d)) in
  match run_input W O mk k i en w with
  | SGo _ bs x w1 => exists v z, bs = [(y, (false, z))] /\ run_input W O mk k i' en w = SGo _ [(y, (false, VWrap (enum_name (hash (NInput i))) v z))] x w1
  | SOut _ o w1 => run_input W O mk k i' en w = SOut _ o w1
  end.
Proof.
  intros hash ta n args ps mo a y t e d i' cx HP N H CL T C W O mk k en w MK i. pose proof (attribute_changes hash ta n args ps mo HP N _ i' cx H) as E.
  fold i in E. set (own := enum_name (hash (NInput i))) in *. assert (G : gen_name own = true) by apply gen_enum_name.
  inversion E as [| | |? ? ? t' ? e1 e' ? TT X1 X2| |]; subst. inversion X1 as [|? ? NC B]; subst; [discriminate|].
  pose proof (body_lifts O mk _ _ G MK k _ _ _ B X2 C T en w) as L. rewrite !eval_is in L. set (self := calls W O mk k) in L.
  assert (R : forall t e, run_input W O mk k (InStmt (SLocal (Local a (PBind y) t (Some e) d))) en w
    = match ev W O mk k self false e en w with (ONorm v, w1) => SGo _ [(y, (false, v))] VUnit w1 | (o, w1) => SOut _ o w1 end) by reflexivity.
  unfold i. rewrite !R. inversion L as [x x' w1 (v & X) X3 X4|? ? ? ? X|? ?|? ? ? X|?|?|?]; cbn in *; subst; try reflexivity. exists v, x. auto.
Qed.
Print Assumptions C46_let.

(** An annotated closure whose [return]s are taken: its value is a closure with the same parameters; called with any
    arguments, it ends as the original one does, and a value, by [return] or at its end, is that of the original one in one variant. *)
Theorem C46_closure : forall hash ta n args ps mo a pts b i' cx,
  parse_args args = inr (ps, mo) -> ps <> [] ->
  attribute hash ta n args (InExpr (EClosure a pts b)) = ROk (Code i' cx) -> closure_takes (own_marker mo) b = TakesReturns ->
  tidy (own_marker mo) TakesReturns b = true -> covered (own_marker mo) b ->
  forall (W : Type) (O : ops W) (mk : string -> bool),
  (forall s, mk s = true -> s = own_marker mo) ->
  exists b', forall (k : nat) (en : env) (w : W),
    run_input W O mk k (InExpr (EClosure a pts b)) en w = SGo _ [] (VClos pts b en) w
    /\ run_input W O mk k i' en w = SGo _ [] (VClos pts b' en) w
    /\ in_variant (enum_name (hash (NInput (InExpr (EClosure a pts b)))))
         (as_stmt W [] (fun x => x) (finish W (eval W O mk k b en w))) (as_stmt W [] (fun x => x) (finish W (eval W O mk k b' en w))).
Proof.
  intros hash ta n args ps mo a pts b i' cx HP N H CT T C W O mk MK. pose proof (attribute_changes hash ta n args ps mo HP N _ i' cx H) as E.
  set (i := InExpr (EClosure a pts b)) in *. set (own := enum_name (hash (NInput i))) in *. assert (G : gen_name own = true) by apply gen_enum_name.
  inversion E as [? e1 e' X1 X2| | | | |]; subst. inversion X1 as [? ? ? b' B|? ? NC]; subst; [|contradiction]. rewrite CT in B.
  exists b'. intros k en w. split; [destruct k; reflexivity|]. split.
  - cbn [run_input]. rewrite (declared_closure O mk own k a pts b' e' en w X2). reflexivity.
  - apply finish_in_variant. eapply closure_lifts; eassumption.
Qed.
Print Assumptions C46_closure.

(** [|x| { if c { return m(); } match x { 0 => a(), _ => b() } }] *)
Definition C46_closure_body : expr :=
  EBlock [] None [SExpr (EIf [] (var "c") [SExpr (EReturn [] (Some (call0 "m"))) true] None) false;
                  SExpr (EMatch [] (var "x") [arm1 "0" (call0 "a"); arm1 "_" (call0 "b")]) false].
Lemma C46_closure_covered : covered "marker" C46_closure_body.
Proof. apply (cv_block _ _ [_]). apply cv_match. repeat constructor; unfold sound; intros N X; look. Qed.
Example C46_closure_example :
  closure_takes "marker" C46_closure_body = TakesReturns /\ tidy "marker" TakesReturns C46_closure_body = true
  /\ match code_of (run sample_args (InExpr (EClosure [] [PBind "x"] C46_closure_body))) with
     | Some (InExpr (EBlock _ _ [_; SExpr (EClosure _ _ b') _])) =>
         run_with "0" true (InExpr b') = SOut _ (ORet (VWrap "__Enum2" "__Variant2" (VOp "new m" []))) [("call", [VOp "m" []])]
         /\ run_with "0" false (InExpr b') = SGo _ [] (VWrap "__Enum2" "__Variant0" (VOp "new a" [])) [("call", [VOp "a" []])]
     | _ => False
     end.
Proof. vm_compute. auto. Qed.

(** [loop { if c { break a() } else { match x { 0 => continue, _ => return m() } } }] and a [match] with an [if] chain in
    an [unsafe] block. *)
Definition C46_sample1 : expr :=
  ELoop [] (Some "l") [SExpr (EIf [] (var "c") [SExpr (EBreak [] None (Some (call0 "a"))) true]
    (Some (EBlock [] None [SExpr (EMatch [] (var "x") [arm1 "0" (EBreak [] (Some "l") (Some (call0 "b"))); arm1 "_" (EReturn [] (Some (call0 "m")))]) false]))) false].
Definition C46_sample2 : expr :=
  EBlk KUnsafe [] [SExpr (call0 "u") true;
    SExpr (EIf [] (var "c") [SExpr (call0 "a") false]
      (Some (EIf [] (var "d") [SExpr (ETry [] (call0 "b")) false] (Some (EBlock [] None [SExpr (EMacro [] (Mac (plain_path ["panic"]) None)) false]))))) false].
Lemma C46_covered1 : covered "marker" C46_sample1.
Proof. apply cv_loop. reflexivity. Qed.
Lemma C46_covered2 : covered "marker" C46_sample2.
Proof.
  apply (cv_unsafe _ _ [_]). apply cv_if. apply cc_else_if; [|apply cc_else]; intros N X; look.
Qed.
Example C46_example :
  tidy "marker" TakesNone C46_sample1 = true /\ tidy "marker" TakesNone C46_sample2 = true
  /\ match code_of (run sample_args (InExpr C46_sample1)), code_of (run sample_args (InStmt (SLocal (Local [] (PBind "y") None (Some C46_sample2) None)))) with
     | Some i1, Some i2 =>
         run_with "7" true i1 = SGo _ [] (VWrap "__Enum2" "__Variant0" (VOp "new a" [])) [("call", [VOp "a" []])]
         /\ run_with "0" false i1 = SGo _ [] (VWrap "__Enum2" "__Variant1" (VOp "new b" [])) [("call", [VOp "b" []])]
         /\ run_with "7" false i1 = SOut _ (ORet (VOp "new m" [])) [("call", [VOp "m" []])]
         /\ run_with "7" true i2 = SGo _ [("y", (false, VWrap "__Enum1" "__Variant0" (VOp "new a" [])))] VUnit [("call", [VOp "a" []]); ("call", [VOp "u" []])]
     | _, _ => False
     end.
Proof. vm_compute. auto 10. Qed.
