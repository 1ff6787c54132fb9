(** Property C49: code with markers, [#[nested]] and [#[never]] gives the value of the original code, in one variant of the
    generated enum, on every execution.

    [spread], [spread_body], [held]: Annotated.v.  [in_variant]: Values.v.  [run_input]: Eval.v; [mk] are the names of the
    macros that give their argument, here the marker only. *)

Require Import Coq.Strings.String Coq.Lists.List Coq.Bool.Bool Coq.NArith.NArith.
Require Import Verif.Syntax Verif.Context Verif.ExprModel Verif.AutoEnum Verif.Edits Verif.NoValueSpec Verif.Excused Verif.RunLemmas Verif.Exits Verif.ExitsTop Verif.Tails Verif.Loops Verif.Changes
  Verif.ChangesTop Verif.Branches Verif.BranchesRun Verif.Eval Verif.EvalRun Verif.Trace Verif.Values Verif.ValuesRun Verif.ValuesTop Verif.Annotated Verif.AnnotatedRun Verif.AnnotatedTop
  Verif.Samples Verif.PropSemantics Verif.PropValues.
Import ListNotations.
Open Scope string_scope.
Open Scope list_scope.

(** ** C49 *)

(** A function that returns [impl ..].  For all operations, arguments and states, and any bound on the length of the execution:
    it ends as the original function does and in the same state, and a value - by [return], at the end of a branch, from a marker
    or from below [#[nested]] - is that of the original function in one variant.  What the user marks as [#[never]] has to end
    without a value. *)
Theorem C49_function : forall hash ta n args ps mo a sg bs b i' cx halts,
  parse_args args = inr (ps, mo) -> ps <> [] ->
  attribute hash ta n args (InStmt (SItem (IFn a sg (Some (TImpl bs)) b))) = ROk (Code i' cx) ->
  spread_body (own_marker mo) TakesReturns halts b ->
  forall (W : Type) (O : ops W) (mk : string -> bool) (k : nat) (en : env) (w : W),
  (forall s, mk s = true <-> s = own_marker mo) ->
  (forall e, halts e -> forall en w x w1, eval W O mk k e en w <> (ONorm x, w1)) ->
  let i := InStmt (SItem (IFn a sg (Some (TImpl bs)) b)) in
  in_variant (enum_name (hash (NInput i))) (run_input W O mk k i en w) (run_input W O mk k i' en w).
Proof.
  intros hash ta n args ps mo a sg bs b i' cx halts HP N H C W O mk k en w MK HL i. pose proof (attribute_changes hash ta n args ps mo HP N _ i' cx H) as E.
  fold i in E. set (own := enum_name (hash (NInput i))) in *. assert (G : gen_name own = true) by apply gen_enum_name.
  inversion E as [| | | |? ? ? x k0 ? b1 b2 b' FT NE BB DS D|]; subst. inversion FT as [| |? NI]; subst; [|match goal with R : result_impl _ |- _ => apply result_impl_iff in R; discriminate R end|exfalso; exact (NI bs eq_refl)].
  cbn [run_input i]. apply finish_in_variant. eapply fn_given; eassumption.
Qed.
Print Assumptions C49_function.

(** An annotated expression, as such or at the end of a block. *)
Theorem C49_expression : forall hash ta n args ps mo e i i' cx halts,
  parse_args args = inr (ps, mo) -> ps <> [] ->
  attribute hash ta n args i = ROk (Code i' cx) ->
  i = InExpr e \/ i = InStmt (SExpr e false) -> closure e = false ->
  spread (own_marker mo) TakesNone halts e ->
  forall (W : Type) (O : ops W) (mk : string -> bool) (k : nat) (en : env) (w : W),
  (forall s, mk s = true <-> s = own_marker mo) ->
  (forall e, halts e -> forall en w x w1, eval W O mk k e en w <> (ONorm x, w1)) ->
  in_variant (enum_name (hash (NInput i))) (run_input W O mk k i en w) (run_input W O mk k i' en w).
Proof.
  intros hash ta n args ps mo e i i' cx halts HP N H I CL C W O mk k en w MK HL. pose proof (attribute_changes hash ta n args ps mo HP N i i' cx H) as E.
  assert (G : gen_name (enum_name (hash (NInput i))) = true) by apply gen_enum_name.
  assert (X : exists e1 e', code (enum_name (hash (NInput i))) (own_marker mo) e e1 /\ declared (enum_name (hash (NInput i))) e1 e' /\
            (i = InExpr e /\ i' = InExpr e' \/ i = InStmt (SExpr e false) /\ i' = InStmt (SExpr e' false))).
  { destruct I as [-> | ->]; inversion E; subst; eauto 8. }
  destruct X as (e1 & e' & X1 & X2 & X3). inversion X1 as [|? ? NC B]; subst; [discriminate|].
  pose proof (body_given O mk _ _ halts k G MK HL TakesNone _ _ ltac:(discriminate) B C en w) as L.
  rewrite <- (declared_given O mk _ k _ _ en w X2) in L. cbn [with_returns] in L. apply lifts_in_variant in L.
  destruct X3 as [[-> ->]|[-> ->]]; [exact L|]. cbn [run_input]. unfold eval_stmt. rewrite !eval_is in L. exact L.
Qed.
Print Assumptions C49_expression.

(** An annotated [let]. *)
Theorem C49_let : forall hash ta n args ps mo a y t e d i' cx halts,
  parse_args args = inr (ps, mo) -> ps <> [] ->
  attribute hash ta n args (InStmt (SLocal (Local a (PBind y) t (Some e) d))) = ROk (Code i' cx) -> closure e = false ->
  spread (own_marker mo) TakesNone halts e ->
  forall (W : Type) (O : ops W) (mk : string -> bool) (k : nat) (en : env) (w : W),
  (forall s, mk s = true <-> s = own_marker mo) ->
  (forall e, halts e -> forall en w x w1, eval W O mk k e en w <> (ONorm x, w1)) ->
  let i := InStmt (SLocal (Local a (PBind y) t (Some e) d)) in
  match run_input W O mk k i en w with
  | SGo _ bs x w1 => exists v z, bs = [(y, (false, z))] /\ run_input W O mk k i' en w = SGo _ [(y, (false, VWrap (enum_name (hash (NInput i))) v z))] x w1
  | SOut _ o w1 => run_input W O mk k i' en w = SOut _ o w1
  end.
Proof.
  intros hash ta n args ps mo a y t e d i' cx halts HP N H CL C W O mk k en w MK HL i. pose proof (attribute_changes hash ta n args ps mo HP N _ i' cx H) as E.
  fold i in E. set (own := enum_name (hash (NInput i))) in *. assert (G : gen_name own = true) by apply gen_enum_name.
  inversion E as [| | |? ? ? t' ? e1 e' ? TT X1 X2| |]; subst. inversion X1 as [|? ? NC B]; subst; [discriminate|].
  pose proof (body_given O mk _ _ halts k G MK HL TakesNone _ _ ltac:(discriminate) B C en w) as L.
  rewrite <- (declared_given O mk _ k _ _ en w X2) in L. cbn [with_returns] in L. rewrite !eval_is in L. set (self := calls W O mk k) in L.
  assert (R : forall t e, run_input W O mk k (InStmt (SLocal (Local a (PBind y) t (Some e) d))) en w
    = match ev W O mk k self false e en w with (ONorm v, w1) => SGo _ [(y, (false, v))] VUnit w1 | (o, w1) => SOut _ o w1 end) by reflexivity.
  unfold i. rewrite !R. inversion L as [x x' w1 (v & X) X3 X4|? ? ? ? X|? ?|? ? ? X|?|?|?]; cbn in *; subst; try reflexivity. exists v, x. auto.
Qed.
Print Assumptions C49_let.

(** An annotated closure whose [return]s are taken. *)
Theorem C49_closure : forall hash ta n args ps mo a pts b i' cx halts,
  parse_args args = inr (ps, mo) -> ps <> [] ->
  attribute hash ta n args (InExpr (EClosure a pts b)) = ROk (Code i' cx) -> closure_takes (own_marker mo) b = TakesReturns ->
  spread (own_marker mo) TakesReturns halts b ->
  forall (W : Type) (O : ops W) (mk : string -> bool),
  (forall s, mk s = true <-> s = own_marker mo) ->
  (forall e, halts e -> forall k en w x w1, eval W O mk k e en w <> (ONorm x, w1)) ->
  exists b', forall (k : nat) (en : env) (w : W),
    run_input W O mk k (InExpr (EClosure a pts b)) en w = SGo _ [] (VClos pts b en) w
    /\ run_input W O mk k i' en w = SGo _ [] (VClos pts b' en) w
    /\ in_variant (enum_name (hash (NInput (InExpr (EClosure a pts b)))))
         (as_stmt W [] (fun x => x) (finish W (eval W O mk k b en w))) (as_stmt W [] (fun x => x) (finish W (eval W O mk k b' en w))).
Proof.
  intros hash ta n args ps mo a pts b i' cx halts HP N H CT C W O mk MK HL. pose proof (attribute_changes hash ta n args ps mo HP N _ i' cx H) as E.
  set (i := InExpr (EClosure a pts b)) in *. set (own := enum_name (hash (NInput i))) in *. assert (G : gen_name own = true) by apply gen_enum_name.
  inversion E as [? e1 e' X1 X2| | | | |]; subst. inversion X1 as [? ? ? b' B|? ? NC]; subst; [|contradiction]. rewrite CT in B.
  exists b'. intros k en w. split; [destruct k; reflexivity|]. split.
  - cbn [run_input]. rewrite (declared_closure O mk own k a pts b' e' en w X2). reflexivity.
  - apply finish_in_variant. exact (body_given O mk own _ halts k G MK (fun e K => HL e K k) TakesReturns _ _ ltac:(discriminate) B C en w).
Qed.
Print Assumptions C49_closure.

(** ** A sample *)

Definition mark (e : expr) : expr := EMacro [] (Mac (plain_path ["marker"]) (Some e)).
(** [if c { return m(); }
     match x {
       0 => a(),
       #[nested] 1 => { u(); if d { b() } else { marker!(e()) } }
       2 => { v(); marker!(h()) }
       3 => #[nested] match x { 4 => g(), _ => k() }
       #[never] 5 => loop {}
       _ => panic!() }] *)
Definition C49_body : list stmt :=
  [SExpr (EIf [] (var "c") [SExpr (EReturn [] (Some (call0 "m"))) true] None) false;
   SExpr (EMatch [] (var "x")
     [arm1 "0" (call0 "a");
      Arm [plain_attr "nested"] (POther "1") None (EBlock [] None [SExpr (call0 "u") true;
        SExpr (EIf [] (var "d") [SExpr (call0 "b") false] (Some (EBlock [] None [SExpr (mark (call0 "e")) false]))) false]) false;
      arm1 "2" (EBlock [] None [SExpr (call0 "v") true; SExpr (mark (call0 "h")) false]);
      arm1 "3" (EMatch [plain_attr "nested"] (var "x") [arm1 "4" (call0 "g"); arm1 "_" (call0 "k")]);
      Arm [plain_attr "never"] (POther "5") None (ELoop [] None []) true;
      arm1 "_" (EMacro [] (Mac (plain_path ["panic"]) None))]) false].
Definition C49_sample : input := InStmt (SItem (IFn [] "f" (Some (impl_ty "Iterator")) C49_body)).
Definition C49_halts (e : expr) : Prop := e = ELoop [] None [].
Definition C49_run (x : string) (c : bool) (i : input) : sres trace :=
  run_input trace (traced sample_oracle) (String.eqb "marker") 5 i (sample_vars x c) [].

(** The conditions hold. *)
Lemma C49_halts_never W (O : ops W) mk e : C49_halts e -> forall k en w x w1, eval W O mk k e en w <> (ONorm x, w1).
Proof.
  intros -> k en w x w1. rewrite eval_is, ev_loop. assert (L : forall n w, iterate W n None (fun w => ev_stmts W (ev_stmt W O mk k (calls W O mk k)) false [] en w) w <> (ONorm x, w1)).
  { induction n; intros u; cbn; [discriminate|]. apply IHn. }
  apply L.
Qed.
Lemma C49_conditions : spread_body "marker" TakesReturns C49_halts C49_body.
Proof.
  apply (sy_value _ _ _ [_]); [reflexivity|]. apply sp_match; [reflexivity..|].
  assert (OL : forall s, In s ["nested"; "never"] -> only s [plain_attr s]) by (intros s [<-|[<-|[]]]; exists [], []; eexists; (split; [reflexivity|split; reflexivity])).
  apply sa_cons; [reflexivity|apply sm_whole; [reflexivity..|]; intros N X; look|].
  apply sa_cons; [reflexivity|apply sm_nested; [apply OL; cbn; auto|]|].
  { apply (sp_block _ _ _ _ [_]); [reflexivity..|]. apply sp_if; [reflexivity..| |].
    - apply sb_whole; [reflexivity|]. intros N X. look.
    - apply se_block; [reflexivity|]. apply (sb_held _ _ _ []); [reflexivity|]. apply hd_mark; reflexivity. }
  apply sa_cons; [reflexivity|apply sm_held; [reflexivity|]|].
  { apply (hd_block _ _ _ _ [_]); [reflexivity..|]. apply hd_mark; reflexivity. }
  apply sa_cons; [reflexivity|apply sm_held; [reflexivity|]|].
  { eapply (hd_nested _ _ _ (EMatch [] (var "x") [arm1 "4" (call0 "g"); arm1 "_" (call0 "k")])); [exists [], []; eexists; (split; [reflexivity|split; [reflexivity|split; reflexivity]])|reflexivity|].
    apply sp_match; [reflexivity..|]. repeat (apply sa_cons; [reflexivity|apply sm_whole; [reflexivity..|]; intros N X; look|]). apply sa_nil. }
  apply sa_cons; [reflexivity|apply sm_never; [apply OL; cbn; auto|reflexivity..]|].
  apply sa_cons; [reflexivity|apply sm_whole; [reflexivity..|]; intros N X; look|]. apply sa_nil.
Qed.

(** All ways through the function: an early [return], an arm, an [if] below [#[nested]], a marker at the end of a block,
    a [match] below [#[nested]], an endless loop and a panic. *)
Example C49_example :
  match code_of (run sample_args C49_sample) with
  | Some i' =>
      C49_run "0" true C49_sample = SGo _ [] (VOp "new m" []) [("call", [VOp "m" []])]
      /\ C49_run "0" true i' = SGo _ [] (VWrap "__Enum1" "__Variant1" (VOp "new m" [])) [("call", [VOp "m" []])]
      /\ C49_run "0" false i' = SGo _ [] (VWrap "__Enum1" "__Variant0" (VOp "new a" [])) [("call", [VOp "a" []])]
      /\ C49_run "1" false i' = SGo _ [] (VWrap "__Enum1" "__Variant2" (VOp "new b" [])) [("call", [VOp "b" []]); ("call", [VOp "u" []])]
      /\ C49_run "2" false C49_sample = SGo _ [] (VOp "new h" []) [("call", [VOp "h" []]); ("call", [VOp "v" []])]
      /\ C49_run "2" false i' = SGo _ [] (VWrap "__Enum1" "__Variant4" (VOp "new h" [])) [("call", [VOp "h" []]); ("call", [VOp "v" []])]
      /\ C49_run "3" false i' = SGo _ [] (VWrap "__Enum1" "__Variant6" (VOp "new k" [])) [("call", [VOp "k" []])]
      /\ C49_run "5" false C49_sample = SOut _ OFuel [] /\ C49_run "5" false i' = SOut _ OFuel []
      /\ C49_run "7" false i' = SOut _ OPanic []
  | None => False
  end.
Proof. vm_compute. auto 20. Qed.
