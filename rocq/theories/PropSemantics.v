(** Properties C02, C17. *)

Require Import Coq.Strings.String Coq.Lists.List Coq.Bool.Bool Coq.NArith.NArith.
Require Import Verif.Syntax Verif.Context Verif.ExprModel Verif.AutoEnum Verif.Edits Verif.AttributeRun
  Verif.NoValueSpec Verif.NoValueRun Verif.Excused Verif.Eval Verif.Same Verif.EvalRun Verif.Trace Verif.NoValueEval
  Verif.RootRun Verif.Samples Verif.PropExpansion.
Import ListNotations.
Open Scope string_scope.
Open Scope list_scope.

(** ** C02 *)

(** For all operations that do not look at wrappers, all variables, all states and any bound on the length of
    the execution, annotated and expanded code end in the same way with the same state, up to wrappers
    ([srel], Same.v).  The exception is expanded code that uses a generated enum where the compiler
    does not accept it, such as a condition. *)
Theorem C02_same_behaviour : forall hash ta n args i i' cx,
  attribute hash ta n args i = ROk (Code i' cx) ->
  forall (W : Type) (wrel : W -> W -> Prop) (O : ops W) (k : nat) (en en' : env) (w w' : W),
  respects (marker_name args i) wrel O -> erel (marker_name args i) en en' -> wrel w w' ->
  srel (marker_name args i) wrel
    (run_input W O (marker_name args i) k i en w) (run_input W O (marker_name args i) k i' en' w').
Proof.
  intros hash ta n args i i' cx H W wrel O k en en' w w' R EN HW.
  destruct (C01_only_edits _ _ _ _ _ _ _ H) as (t & E & C). eapply run_rel; eassumption.
Qed.
Print Assumptions C02_same_behaviour.

(** How a run ends: with a value, without one, or not within the bound. *)
Definition ending {W} (r : sres W) : out :=
  match r with SGo _ _ x _ => ONorm x | SOut _ o _ => o end.
Definition final {W} (r : sres W) : W :=
  match r with SGo _ _ _ w => w | SOut _ _ w => w end.
(** The result as an operation sees it. *)
Definition shape_out (o : out) : out :=
  match o with
  | ONorm x => ONorm (shape x)
  | OBreak l x => OBreak l (shape x)
  | ORet x => ORet (shape x)
  | o => o
  end.

(** In particular, with operations decided by any oracle that record all they are asked to do
    (Trace.v): the same events in the same order, the same end, and the same value. *)
Theorem C02_same_trace : forall hash ta n args i i' cx,
  attribute hash ta n args i = ROk (Code i' cx) ->
  forall (Q : oracle) (k : nat) (en : env) (w : trace),
  let r := run_input trace (traced Q) (marker_name args i) k i en w in
  let r' := run_input trace (traced Q) (marker_name args i) k i' en w in
  ending r' = OStuck \/ (shape_out (ending r) = shape_out (ending r') /\ final r = final r').
Proof.
  intros hash ta n args i i' cx H Q k en w r r'.
  pose proof (C02_same_behaviour _ _ _ _ _ _ _ H trace eq (traced Q) k en en w w
                (traced_respects Q _) (erel_refl _ _) eq_refl) as R.
  fold r r' in R. pose proof (proj1 (shape_rel3 (marker_name args i))) as S.
  destruct R as [r0 w0|bs bs' x y w0 w0' _ V HW|o o' w0 w0' OR HW]; [left; reflexivity|right|right]; cbn.
  - rewrite (S _ _ V). auto.
  - split; [|exact HW]. inversion OR as [x y V|l x y V|l|x y V| |]; cbn; rewrite ?(S _ _ V); reflexivity.
Qed.
Print Assumptions C02_same_trace.

(** Whether the run ends is the same as well. *)
Theorem C02_same_termination : forall hash ta n args i i' cx,
  attribute hash ta n args i = ROk (Code i' cx) ->
  forall (W : Type) (wrel : W -> W -> Prop) (O : ops W) (en : env) (w : W),
  respects (marker_name args i) wrel O ->
  (forall k, ending (run_input W O (marker_name args i) k i' en w) <> OStuck) ->
  (exists k, ending (run_input W O (marker_name args i) k i en w) <> OFuel)
  <-> (exists k, ending (run_input W O (marker_name args i) k i' en w) <> OFuel).
Proof.
  intros hash ta n args i i' cx H W wrel O en w R S.
  assert (X : forall k, ending (run_input W O (marker_name args i) k i en w) = OFuel
                        <-> ending (run_input W O (marker_name args i) k i' en w) = OFuel).
  { intros k. pose proof (C02_same_behaviour _ _ _ _ _ _ _ H W wrel O k en en w w R (erel_refl _ _) (rs_refl _ _ _ R w)) as B.
    specialize (S k). destruct B as [r0 w0|bs bs' x y w0 w0' _ V HW|o o' w0 w0' OR HW]; cbn in *.
    - contradiction.
    - split; discriminate.
    - inversion OR; split; intros; try discriminate; reflexivity. }
  split; intros (k & K); exists k; intros E; apply K; apply X; exact E.
Qed.
Print Assumptions C02_same_termination.

(** An oracle: calls return a new object, patterns are constants, [c] is false. *)
Definition sample_oracle : oracle := {|
  q_reply := fun w name l => match l with VOp s _ :: _ => RVal (VOp ("new " ++ s) []) | _ => RVal VUnit end;
  q_limit := 3;
  q_value := fun _ _ _ => VUnit;
  q_more := fun _ _ _ => true;
  q_pat := fun w s x => match x with VOp t _ => if (s =? "_") || (s =? t) then Some [] else None | _ => None end;
  q_is := fun _ _ => false;
  q_mode := fun _ _ => false
|}.
Definition sample_vars (x : string) (c : bool) : env :=
  [("x", (false, VOp x [])); ("c", (false, VBool c)); ("d", (false, VBool true))].
Definition run_sample (x : string) (c : bool) (i : input) : sres trace :=
  run_input trace (traced sample_oracle) (marker_name sample_args sample_fn) 5 i (sample_vars x c) [].

(** The sample function, called in three ways: through a marker, by an early [return], and by a late one. The
    expanded function makes the same calls and returns the same object in a variant; no run is stuck. *)
Example C02_example :
  run_sample "1" false sample_fn
    = SGo _ [] (VOp "new b" []) [("call", [VOp "b" []]); ("call", [VOp "u" []])]
  /\ match code_of (run sample_args sample_fn) with
     | Some i' =>
         run_sample "1" false i'
           = SGo _ [] (VWrap "__Enum1" "__Variant2" (VOp "new b" [])) [("call", [VOp "b" []]); ("call", [VOp "u" []])]
         /\ run_sample "1" true i' = SGo _ [] (VWrap "__Enum1" "__Variant1" (VOp "new m1" [])) [("call", [VOp "m1" []])]
         /\ run_sample "7" false i'
           = SGo _ [] (VWrap "__Enum1" "__Variant3" (VOp "new m2" [])) [("call", [VOp "m2" []]); ("call", [VOp "u" []])]
     | None => False
     end.
Proof. vm_compute. auto. Qed.

(** ** C17 *)

(** Code that is skipped as producing no value does not finish normally on any execution, unless there is a
    reason as listed in Excused.v.  Missing from the full property: a block left by [break] with its
    label, and a block that ends in an item, are among the reasons. *)
Theorem C17_skipped_no_value_partial : forall cx e,
  is_unreachable cx e = true -> ~ excused (ctx_marker cx) e ->
  forall (W : Type) (O : ops W) (mk : string -> bool) (n : nat) (en : env) (w : W) (x : value) (w' : W),
  (forall s, mk s = true -> ctx_marker cx s) ->
  eval W O mk n e en w <> (ONorm x, w').
Proof.
  intros cx e U X W O mk n en w x w' MK E. apply unreachable_iff in U.
  set (f := match n with 0 => fun _ _ w1 => (OFuel, w1) | S n' => eval W O mk n' end).
  destruct (proj1 (no_value_eval O mk n f (ctx_marker cx) MK) e U) as [H|H]; [contradiction|].
  apply (H false en w). unfold gives, f. destruct n; cbn [eval] in E; rewrite E; exact I.
Qed.
Print Assumptions C17_skipped_no_value_partial.

(** A context: that of [#[auto_enum(Iterator)]]. *)
Definition sample_ctx : ctx :=
  Ctx "__Enum1" [] "marker" ["marker"] true false VDefault LDefault [] [plain_path ["Iterator"]] [].

(** [{ f(); match x { 0 => return g(), _ => Err(h())?.k() } }] is skipped, without any of the reasons; it leaves
    the function with a value. *)
Definition skipped_block : expr :=
  EBlock [] None
    [SExpr (call0 "f") true;
     SExpr (EMatch [] (var "x")
       [arm1 "0" (EReturn [] (Some (call0 "g")));
        arm1 "_" (EMethodCall [] (ETry [] (ECall [] (var "Err") [call0 "h"])) "k" [])]) false].
Example C17_example :
  is_unreachable sample_ctx skipped_block = true
  /\ ~ excused (ctx_marker sample_ctx) skipped_block
  /\ eval trace (traced sample_oracle) (fun _ => false) 1 skipped_block (sample_vars "1" false) []
     = (ORet (VCon "Err" (VOp "new h" [])), [("call", [VOp "h" []]); ("call", [VOp "f" []])]).
Proof.
  split; [reflexivity|]. split; [|vm_compute; reflexivity].
  assert (N : forall e, e_attrs e = [] -> ~ has_plain "never" (e_attrs e) /\ ~ has_any "auto_enum" (e_attrs e)).
  { intros e E. rewrite E. split; intros (x & [] & _). }
  intros H. inversion H as [e X|e X| | |a l b s S E0| | | |]; [apply N in X; [exact X|reflexivity]..|].
  match goal with K : b ++ [s] = _ |- _ => rename K into E end.
  destruct b as [|b1 [|b2 [|]]]; inversion E. subst s. clear E H. rename S into H.
  inversion H as [e semi X| | |]. subst. clear H. rename X into H.
  inversion H as [e X|e X| | | | |a s arms m I X| |]; [apply N in X; [exact X|reflexivity]..|]. subst. clear H.
  destruct I as [<-|[<-|[]]]; inversion X as [a p g b c Y|a p g b c Y]; try (destruct Y as (? & [] & _)); subst; clear X.
  - inversion Y as [e X|e X| | | | | | |]; apply N in X; auto.
  - inversion Y as [e X|e X| | | | | |a e m args X|]; [apply N in X; [exact X|reflexivity]..|]. subst.
    inversion X as [e Z|e Z| | | | | | |]; apply N in Z; auto.
Qed.

(** The two reasons are real. *)
(** ['a: { break 'a f(); return; }] *)
Definition labelled_block : expr :=
  EBlock [] (Some "a") [SExpr (EBreak [] (Some "a") (Some (call0 "f"))) true; SExpr (EReturn [] None) true].
Theorem C17_label_refuted : exists cx e x w',
  is_unreachable cx e = true /\ e = labelled_block
  /\ eval trace (traced sample_oracle) (fun _ => false) 1 e [] [] = (ONorm x, w').
Proof.
  exists sample_ctx, labelled_block. eexists _, _. repeat split; vm_compute; reflexivity.
Qed.
Print Assumptions C17_label_refuted.

(** [{ fn g() {} }] gives [()]. *)
Definition block_with_item : expr := EBlock [] None [SItem (IFn [] "g" None [])].
Theorem C17_item_refuted : exists cx e w',
  is_unreachable cx e = true /\ e = block_with_item
  /\ eval trace (traced sample_oracle) (fun _ => false) 1 e [] [] = (ONorm VUnit, w').
Proof.
  exists sample_ctx, block_with_item. eexists _. repeat split; vm_compute; reflexivity.
Qed.
Print Assumptions C17_item_refuted.
