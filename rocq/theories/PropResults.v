(** Property C48: a function that passes errors on with [?] returns the errors of the original one, in variants of the enum.

    [passing], [ok_value], [ok_block], [strict], [error_in_variant]: Results.v.  [run_input]: Eval.v. *)

Require Import Coq.Strings.String Coq.Lists.List Coq.Bool.Bool Coq.NArith.NArith.
Require Import Verif.Syntax Verif.Context Verif.ExprModel Verif.AutoEnum Verif.Edits Verif.NoValueSpec Verif.Excused Verif.RunLemmas Verif.Exits Verif.ExitsTop Verif.Tails Verif.Changes
  Verif.ChangesTop Verif.Branches Verif.BranchesRun Verif.Eval Verif.EvalRun Verif.Trace Verif.Values Verif.ValuesRun Verif.ValuesTop Verif.Results Verif.ResultsRun Verif.StrictRun Verif.Samples
  Verif.PropSemantics Verif.PropExits Verif.PropValues.
Import ListNotations.
Open Scope string_scope.
Open Scope list_scope.

(** A function that returns [Result<_, impl ..>] and has two [?]s of its own: for all operations, all arguments, all states
    and any bound on the length of the execution, the function with the attribute ends as the original one does and in the
    same state; it returns the same [Ok(x)], and for [Err(x)] it returns [Err] of [x] in one variant of the enum.  The original
    function is taken with checks that the operands of its [?]s are [Result]s; these change nothing unless one is not. *)
Theorem C48_function : forall hash ta n args ps mo a sg t b i' cx,
  parse_args args = inr (ps, mo) -> ps <> [] -> result_impl t -> 2 <= questions (own_marker mo) (body_exits false b) ->
  attribute hash ta n args (InStmt (SItem (IFn a sg (Some t) b))) = ROk (Code i' cx) ->
  forallb (passing_stmt (own_marker mo)) b = true -> ok_block (own_marker mo) b ->
  forall (W : Type) (O : ops W) (mk : string -> bool) (k : nat) (en : env) (w : W),
  (forall s, mk s = true -> s = own_marker mo) ->
  let i := InStmt (SItem (IFn a sg (Some t) b)) in
  let r := run_input W O mk k (InStmt (SItem (IFn a sg (Some t) (map strict_stmt b)))) en w in
  error_in_variant (enum_name (hash (NInput i))) r (run_input W O mk k i' en w)
  /\ (r = run_input W O mk k i en w \/ exists w1, r = SOut _ OStuck w1).
Proof.
  intros hash ta n args ps mo a sg t b i' cx HP N RI QU H T C W O mk k en w MK i r. pose proof (attribute_changes hash ta n args ps mo HP N _ i' cx H) as E.
  fold i in E. set (own := enum_name (hash (NInput i))) in *. assert (G : gen_name own = true) by apply gen_enum_name.
  inversion E as [| | | |? ? ? x k0 ? b1 b2 b' FT NE BB DS D|]; subst.
  inversion FT as [? E0| |? NI NQ]; subst; [apply result_impl_iff in RI; discriminate RI| |exfalso; exact (PeanoNat.Nat.lt_irrefl _ (PeanoNat.Nat.lt_le_trans _ _ _ (NQ t eq_refl RI) QU))].
  destruct BB as [_ ->]. destruct (fn_errors O mk own (own_marker mo) G MK k b b2 b' NE DS D C T en w) as (L1 & L2 & L3). exact (finish_error own _ _ _ L2 L3 L1).
Qed.
Print Assumptions C48_function.

(** An annotated closure with two [?]s of its own: its value is a closure with the same parameters; called with any arguments
    it relates to the original one as above. *)
Theorem C48_closure : forall hash ta n args ps mo a pts b i' cx,
  parse_args args = inr (ps, mo) -> ps <> [] -> 2 <= questions (own_marker mo) (exits false (Place false false) b) ->
  attribute hash ta n args (InExpr (EClosure a pts b)) = ROk (Code i' cx) ->
  passing (own_marker mo) b = true -> ok_value (own_marker mo) b ->
  forall (W : Type) (O : ops W) (mk : string -> bool),
  (forall s, mk s = true -> s = own_marker mo) ->
  exists b', forall (k : nat) (en : env) (w : W),
    let call x := as_stmt W [] (fun x => x) (finish W (eval W O mk k x en w)) in
    run_input W O mk k (InExpr (EClosure a pts b)) en w = SGo _ [] (VClos pts b en) w
    /\ run_input W O mk k i' en w = SGo _ [] (VClos pts b' en) w
    /\ error_in_variant (enum_name (hash (NInput (InExpr (EClosure a pts b))))) (call (strict b)) (call b')
    /\ (call (strict b) = call b \/ exists w1, call (strict b) = SOut _ OStuck w1).
Proof.
  intros hash ta n args ps mo a pts b i' cx HP N QU H T C W O mk MK. pose proof (attribute_changes hash ta n args ps mo HP N _ i' cx H) as E.
  set (i := InExpr (EClosure a pts b)) in *. set (own := enum_name (hash (NInput i))) in *. assert (G : gen_name own = true) by apply gen_enum_name.
  inversion E as [? e1 e' X1 X2| | | | |]; subst. inversion X1 as [? ? ? b' B|? ? NC]; subst; [|contradiction].
  assert (CT : closure_takes (own_marker mo) b = TakesQuestions) by (unfold closure_takes; rewrite (proj2 (PeanoNat.Nat.leb_le _ _) QU); reflexivity). rewrite CT in B.
  exists b'. intros k en w call. split; [destruct k; reflexivity|]. split.
  - cbn [run_input]. rewrite (declared_closure O mk own k a pts b' e' en w X2). reflexivity.
  - destruct (closure_errors O mk own (own_marker mo) G MK k b b' B C T en w) as (L1 & L2 & L3). exact (finish_error own _ _ _ L2 L3 L1).
Qed.
Print Assumptions C48_closure.

(** [let y = Ok(a())?;  if c { Err(m())?; }  match x { 0 => Ok(y), 1 => { Err(k())?; Ok(y) }, _ => return Ok(h()) }] *)
Definition ok (e : expr) : expr := ECall [] (var "Ok") [e].
Definition err (e : expr) : expr := ECall [] (var "Err") [e].
Definition C48_body : list stmt :=
  [SLocal (Local [] (PBind "y") None (Some (ETry [] (ok (call0 "a")))) None);
   SExpr (EIf [] (var "c") [SExpr (ETry [] (err (call0 "m"))) true] None) false;
   SExpr (EMatch [] (var "x")
     [arm1 "0" (ok (var "y"));
      arm1 "1" (EBlock [] None [SExpr (ETry [] (err (call0 "k"))) true; SExpr (ok (var "y")) false]);
      arm1 "_" (EReturn [] (Some (ok (call0 "h"))))]) false].
Definition C48_sample : input := InStmt (SItem (IFn [] "f" (Some result_ty) C48_body)).
Definition C48_strict : input := InStmt (SItem (IFn [] "f" (Some result_ty) (map strict_stmt C48_body))).
Lemma C48_ok_block : ok_block "marker" C48_body.
Proof.
  apply (ob_value _ [_; _]). apply ov_match. repeat (unfold arm1; apply oa_cons); [apply ov_ok; reflexivity| | |apply oa_nil].
  - apply ov_block. apply (ob_value _ [_]). apply ov_ok. reflexivity.
  - apply ov_none; [apply nv_return|intros X; look].
Qed.
(** The function meets the conditions.  Called in four ways, it returns the [Ok]s of the original one and its errors in
    variants of the enum. *)
Example C48_example :
  result_impl result_ty /\ questions "marker" (body_exits false C48_body) = 3 /\ forallb (passing_stmt "marker") C48_body = true
  /\ match code_of (run sample_args C48_sample) with
     | Some i' =>
         run_with "0" true C48_sample = SGo _ [] (VCon "Err" (VOp "new m" [])) [("call", [VOp "m" []]); ("call", [VOp "a" []])]
         /\ run_with "0" true C48_strict = run_with "0" true C48_sample
         /\ run_with "0" true i' = SGo _ [] (VCon "Err" (VWrap "__Enum1" "__Variant1" (VOp "new m" []))) [("call", [VOp "m" []]); ("call", [VOp "a" []])]
         /\ run_with "0" false i' = SGo _ [] (VCon "Ok" (VOp "new a" [])) [("call", [VOp "a" []])]
         /\ run_with "1" false i' = SGo _ [] (VCon "Err" (VWrap "__Enum1" "__Variant2" (VOp "new k" []))) [("call", [VOp "k" []]); ("call", [VOp "a" []])]
         /\ run_with "7" false i' = SGo _ [] (VCon "Ok" (VOp "new h" [])) [("call", [VOp "h" []]); ("call", [VOp "a" []])]
     | None => False
     end.
Proof.
  split; [exact (proj1 C07_example)|]. vm_compute. auto 12.
Qed.
(** The same as a closure. *)
Lemma C48_ok_value : ok_value "marker" (EBlock [] None C48_body).
Proof. apply ov_block. exact C48_ok_block. Qed.
Example C48_closure_example :
  questions "marker" (exits false (Place false false) (EBlock [] None C48_body)) = 3 /\ passing "marker" (EBlock [] None C48_body) = true
  /\ match code_of (run sample_args (InExpr (EClosure [] [PBind "x"] (EBlock [] None C48_body)))) with
     | Some (InExpr (EBlock _ _ [_; SExpr (EClosure _ _ b') _])) =>
         run_with "0" true (InExpr b') = SOut _ (ORet (VCon "Err" (VWrap "__Enum2" "__Variant1" (VOp "new m" [])))) [("call", [VOp "m" []]); ("call", [VOp "a" []])]
         /\ run_with "0" false (InExpr b') = SGo _ [] (VCon "Ok" (VOp "new a" [])) [("call", [VOp "a" []])]
     | _ => False
     end.
Proof. vm_compute. auto. Qed.
