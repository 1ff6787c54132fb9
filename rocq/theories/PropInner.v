(** Property C50: code with nested attributes gives the value of the original code, with what the nested attributes add, in one
    variant of the generated enum, on every execution.

    [ends], [ends_body], [returns_taken], [one_variant]: Inner.v.  [run_input]: Eval.v.  [srel]: Same.v.  [shape]: Trace.v.
    [marker_name args i] are the names of the markers of all attributes of the code. *)

Require Import Coq.Strings.String Coq.Lists.List Coq.Bool.Bool Coq.NArith.NArith.
Require Import Verif.Syntax Verif.Context Verif.ExprModel Verif.AutoEnum Verif.Edits Verif.AttributeRun Verif.NoValueSpec Verif.Excused Verif.RunLemmas Verif.Exits Verif.ExitsTop Verif.Tails Verif.Loops Verif.Changes
  Verif.ChangesTop Verif.Branches Verif.BranchesRun Verif.Eval Verif.Same Verif.EvalRun Verif.Trace Verif.Values Verif.ValuesRun Verif.ValuesTop Verif.Annotated Verif.AnnotatedRun Verif.AnnotatedTop
  Verif.Inner Verif.InnerRun Verif.InnerTop Verif.Samples Verif.PropSemantics Verif.PropValues Verif.PropAnnotated.
Import ListNotations.
Open Scope string_scope.
Open Scope list_scope.

(** ** C50 *)

(** A function that returns [impl ..], whose body may hold nested attributes.  It ends as the original function does, up to
    wrappers (C02), and a value, by [return] or at the end, is in a variant of the enum of the function. *)
Theorem C50_function : forall hash ta n args ps mo a sg bs b i' cx halts,
  parse_args args = inr (ps, mo) -> ps <> [] ->
  let i := InStmt (SItem (IFn a sg (Some (TImpl bs)) b)) in
  let mk := marker_name args i in
  attribute hash ta n args i = ROk (Code i' cx) ->
  ends_body mk (own_marker mo) TakesReturns halts b -> returns_taken (own_marker mo) (body_exits false b) = true ->
  forall (W : Type) (wrel : W -> W -> Prop) (O : ops W) (k : nat) (en en' : env) (w w' : W),
  respects mk wrel O -> erel mk en en' -> wrel w w' ->
  (forall e, halts e -> forall en w x w1, eval W O mk k e en w <> (ONorm x, w1)) ->
  srel mk wrel (run_input W O mk k i en w) (run_input W O mk k i' en' w')
  /\ one_variant (enum_name (hash (NInput i))) (run_input W O mk k i' en' w').
Proof.
  intros hash ta n args ps mo a sg bs b i' cx halts HP N i mk H C RT W wrel O k en en' w w' R EN HW HL.
  split; [exact (C02_same_behaviour _ _ _ _ _ _ _ H W wrel O k en en' w w' R EN HW)|].
  pose proof (attribute_changes hash ta n args ps mo HP N _ i' cx H) as E. destruct (impl_fn_exits hash ta n args ps mo HP N a sg bs b i' cx H) as (b0 & E0 & EX).
  fold i in E, EX. set (own := enum_name (hash (NInput i))) in *. assert (G : gen_name own = true) by apply gen_enum_name.
  apply (returns_good _ _ _ _) in EX; [|exact RT].
  inversion E as [| | | |? ? ? x k0 ? b1 b2 b' FT NE BB DS D|]; subst.
  match goal with K : InStmt (SItem (IFn _ _ _ _)) = _ |- _ => injection K as -> end.
  inversion FT as [| |? NI]; subst; [|match goal with R : result_impl _ |- _ => apply result_impl_iff in R; discriminate R end|exfalso; exact (NI bs eq_refl)].
  cbn [run_input]. apply finish_owned; [eapply block_safe; [exact G|exact EX]|].
  intros y u. eapply fn_owned with (halts := halts); eassumption.
Qed.
Print Assumptions C50_function.

(** In particular, with operations decided by any oracle that record all they are asked to do: the same events in the same order,
    and a value is, in one variant of the enum of the function, the original one as the operations see it. *)
Theorem C50_trace : forall hash ta n args ps mo a sg bs b i' cx halts,
  parse_args args = inr (ps, mo) -> ps <> [] ->
  let i := InStmt (SItem (IFn a sg (Some (TImpl bs)) b)) in
  let mk := marker_name args i in
  attribute hash ta n args i = ROk (Code i' cx) ->
  ends_body mk (own_marker mo) TakesReturns halts b -> returns_taken (own_marker mo) (body_exits false b) = true ->
  forall (Q : oracle) (k : nat) (en : env) (w : trace),
  (forall e, halts e -> forall en w x w1, eval trace (traced Q) mk k e en w <> (ONorm x, w1)) ->
  let r := run_input trace (traced Q) mk k i en w in
  let r' := run_input trace (traced Q) mk k i' en w in
  ending r' <> OStuck ->
  final r' = final r
  /\ match r with
     | SGo _ _ x _ => exists v y, ending r' = ONorm (VWrap (enum_name (hash (NInput i))) v y) /\ shape y = shape x
     | SOut _ o _ => shape_out (ending r') = shape_out o
     end.
Proof.
  intros hash ta n args ps mo a sg bs b i' cx halts HP N i mk H C RT Q k en w HL r r' ST.
  destruct (C50_function hash ta n args ps mo a sg bs b i' cx halts HP N H C RT trace eq (traced Q) k en en w w (traced_respects Q _) (erel_refl _ _) eq_refl HL) as (S & V).
  fold i in S, V. fold mk in S, V. fold r r' in S, V. pose proof (proj1 (shape_rel3 mk)) as SH.
  destruct S as [r0 w0|bs1 bs2 x y w1 w2 _ VR HW|o o' w1 w2 OR HW]; cbn [ending final] in *; [contradiction|split; [symmetry; exact HW|]..].
  - destruct V as (v & z & ->). exists v, z. split; [reflexivity|]. symmetry. exact (SH _ _ VR).
  - inversion OR as [x y VR|l x y VR|l|x y VR| |]; cbn; rewrite ?(SH _ _ VR); reflexivity.
Qed.
Print Assumptions C50_trace.

(** An annotated expression, as such or at the end of a block. *)
Theorem C50_expression : forall hash ta n args ps mo e i i' cx halts,
  parse_args args = inr (ps, mo) -> ps <> [] ->
  let mk := marker_name args i in
  attribute hash ta n args i = ROk (Code i' cx) ->
  i = InExpr e \/ i = InStmt (SExpr e false) -> closure e = false ->
  ends mk (own_marker mo) TakesNone halts e ->
  forall (W : Type) (wrel : W -> W -> Prop) (O : ops W) (k : nat) (en en' : env) (w w' : W),
  respects mk wrel O -> erel mk en en' -> wrel w w' ->
  (forall e, halts e -> forall en w x w1, eval W O mk k e en w <> (ONorm x, w1)) ->
  srel mk wrel (run_input W O mk k i en w) (run_input W O mk k i' en' w')
  /\ one_variant (enum_name (hash (NInput i))) (run_input W O mk k i' en' w').
Proof.
  intros hash ta n args ps mo e i i' cx halts HP N mk H I CL C W wrel O k en en' w w' R EN HW HL.
  split; [exact (C02_same_behaviour _ _ _ _ _ _ _ H W wrel O k en en' w w' R EN HW)|].
  pose proof (attribute_changes hash ta n args ps mo HP N i i' cx H) as E.
  assert (G : gen_name (enum_name (hash (NInput i))) = true) by apply gen_enum_name.
  assert (X : exists e1 e', code (enum_name (hash (NInput i))) (own_marker mo) e e1 /\ declared (enum_name (hash (NInput i))) e1 e' /\
            (i = InExpr e /\ i' = InExpr e' \/ i = InStmt (SExpr e false) /\ i' = InStmt (SExpr e' false))).
  { destruct I as [-> | ->]; inversion E; subst; eauto 8. }
  destruct X as (e1 & e' & X1 & X2 & X3). inversion X1 as [|? ? NC B]; subst; [discriminate|].
  pose proof (body_owned O mk _ _ halts k G HL TakesNone _ _ ltac:(discriminate) B C en' w') as L.
  rewrite <- (declared_given O mk _ k _ _ en' w' X2) in L.
  assert (K : one_variant (enum_name (hash (NInput i))) (as_stmt W [] (fun x => x) (eval W O mk k e' en' w'))).
  { destruct (eval W O mk k e' en' w') as [[] u]; cbn; auto. exact (L _ _ eq_refl). }
  assert (RI : run_input W O mk k i' en' w' = as_stmt W [] (fun x => x) (eval W O mk k e' en' w')).
  { rewrite eval_is. destruct X3 as [[_ ->]|[_ ->]]; [cbn [run_input]; rewrite eval_is|]; reflexivity. }
  rewrite RI. exact K.
Qed.
Print Assumptions C50_expression.

(** An annotated [let]: the variable holds a value in one variant. *)
Theorem C50_let : forall hash ta n args ps mo a y t e d i' cx halts,
  parse_args args = inr (ps, mo) -> ps <> [] ->
  let i := InStmt (SLocal (Local a (PBind y) t (Some e) d)) in
  let mk := marker_name args i in
  attribute hash ta n args i = ROk (Code i' cx) -> closure e = false ->
  ends mk (own_marker mo) TakesNone halts e ->
  forall (W : Type) (wrel : W -> W -> Prop) (O : ops W) (k : nat) (en en' : env) (w w' : W),
  respects mk wrel O -> erel mk en en' -> wrel w w' ->
  (forall e, halts e -> forall en w x w1, eval W O mk k e en w <> (ONorm x, w1)) ->
  srel mk wrel (run_input W O mk k i en w) (run_input W O mk k i' en' w')
  /\ match run_input W O mk k i' en' w' with
     | SGo _ bs _ _ => exists v z, bs = [(y, (false, VWrap (enum_name (hash (NInput i))) v z))]
     | SOut _ _ _ => True
     end.
Proof.
  intros hash ta n args ps mo a y t e d i' cx halts HP N i mk H CL C W wrel O k en en' w w' R EN HW HL.
  split; [exact (C02_same_behaviour _ _ _ _ _ _ _ H W wrel O k en en' w w' R EN HW)|].
  pose proof (attribute_changes hash ta n args ps mo HP N _ i' cx H) as E.
  fold i in E. set (own := enum_name (hash (NInput i))) in *. assert (G : gen_name own = true) by apply gen_enum_name.
  inversion E as [| | |? ? ? t' ? e1 e' ? TT X1 X2| |]; subst. inversion X1 as [|? ? NC B]; subst; [discriminate|].
  pose proof (body_owned O mk _ _ halts k G HL TakesNone _ _ ltac:(discriminate) B C en' w') as L.
  rewrite <- (declared_given O mk _ k _ _ en' w' X2) in L. rewrite !eval_is in L. set (self := calls W O mk k) in L.
  assert (RR : forall t e, run_input W O mk k (InStmt (SLocal (Local a (PBind y) t (Some e) d))) en' w'
    = match ev W O mk k self false e en' w' with (ONorm v, w1) => SGo _ [(y, (false, v))] VUnit w1 | (o, w1) => SOut _ o w1 end) by reflexivity.
  rewrite !RR. destruct (ev W O mk k self false e' en' w') as [[] u]; auto. destruct (L _ _ eq_refl) as (v & z & ->). exists v, z. reflexivity.
Qed.
Print Assumptions C50_let.

(** An annotated closure whose [return]s are taken: the body of the expanded closure, called. *)
Theorem C50_closure : forall hash ta n args ps mo a pts b i' cx halts,
  parse_args args = inr (ps, mo) -> ps <> [] ->
  let i := InExpr (EClosure a pts b) in
  let mk := marker_name args i in
  attribute hash ta n args i = ROk (Code i' cx) -> closure_takes (own_marker mo) b = TakesReturns ->
  ends mk (own_marker mo) TakesReturns halts b -> returns_taken (own_marker mo) (exits false (Place false false) b) = true ->
  forall (W : Type) (wrel : W -> W -> Prop) (O : ops W), respects mk wrel O ->
  (forall e, halts e -> forall k en w x w1, eval W O mk k e en w <> (ONorm x, w1)) ->
  exists b', forall (k : nat) (en en' : env) (w w' : W), erel mk en en' -> wrel w w' ->
    run_input W O mk k i en w = SGo _ [] (VClos pts b en) w
    /\ run_input W O mk k i' en' w' = SGo _ [] (VClos pts b' en') w'
    /\ let called b en w := as_stmt W [] (fun x => x) (finish W (eval W O mk k b en w)) in
       srel mk wrel (called b en w) (called b' en' w')
       /\ one_variant (enum_name (hash (NInput i))) (called b' en' w').
Proof.
  intros hash ta n args ps mo a pts b i' cx halts HP N i mk H CT C RT W wrel O R HL.
  pose proof (attribute_changes hash ta n args ps mo HP N _ i' cx H) as E. destruct (closure_exits hash ta n args ps mo HP N i i' cx b eq_refl H) as (b0 & E0 & EX).
  fold i in E. set (own := enum_name (hash (NInput i))) in *. assert (G : gen_name own = true) by apply gen_enum_name.
  inversion E as [? e1 e' X1 X2| | | | |]; subst. inversion X1 as [? ? ? b' B|? ? NC]; subst; [|contradiction]. rewrite CT in B.
  assert (b0 = b') as ->.
  { destruct X2 as [->|(j & dv & _ & ->)]; cbn in E0; injection E0 as E0; congruence. }
  unfold closure_takes in CT. destruct (Nat.leb 2 (questions (own_marker mo) (exits false (Place false false) b))); [discriminate|].
  apply returns_good in EX; [|exact RT].
  exists b'. intros k en en' w w' EN HW.
  pose proof (C02_same_behaviour _ _ _ _ _ _ _ H W wrel O k en en' w w' R EN HW) as S. fold mk in S.
  assert (R1 : run_input W O mk k i en w = SGo _ [] (VClos pts b en) w) by (destruct k; reflexivity).
  assert (R2 : run_input W O mk k (InExpr e') en' w' = SGo _ [] (VClos pts b' en') w').
  { cbn [run_input]. rewrite (declared_closure O mk own k a pts b' e' en' w' X2). reflexivity. }
  split; [exact R1|]. split; [exact R2|]. intros called. rewrite R1, R2 in S. split.
  - inversion S as [|? ? ? ? ? ? _ V _|]; subst. inversion V as [| | | | | | | |? t ? ? ? ? ED CLN _| | |]; subst.
    pose proof (eval_rel mk wrel O R k t b b' en en' w w' ED CLN EN HW) as RL. apply finish_rel in RL. unfold called.
    destruct (finish W (eval W O mk k b en w)) as [o u], (finish W (eval W O mk k b' en' w')) as [o' u']. destruct RL as [RL|[O1 W1]]; cbn [fst snd] in *; subst.
    + apply sr_stuck.
    + inversion O1; subst; cbn; try (apply sr_out; [constructor; assumption|exact W1]); try (apply sr_out; [assumption|exact W1]). apply sr_go; [constructor|assumption|exact W1].
  - unfold called. apply finish_owned; [eapply code_safe; [exact G|exact EX]|].
    intros y u. eapply (body_owned O mk own _ halts k G (fun e K => HL e K k) TakesReturns); [discriminate|exact B|exact C].
Qed.
Print Assumptions C50_closure.

(** ** A sample *)

(** [#[auto_enum(Clone)] let t = match x { 0 => p(), _ => q() };
     if c { return t; }
     match x {
       0 => t,
       1 => { #[auto_enum(Clone)] let s = if c { g() } else { h() }; s }
       #[nested] 2 => { u(); if d { t } else { marker!(e()) } }
       3 => { v(); marker!(t) }
       4 => return k(),
       _ => panic!() }] *)
Definition C50_body : list stmt :=
  [SLocal (Local [auto_enum_attr [TkIdent "Clone"]] (PBind "t") None (Some (EMatch [] (var "x") [arm1 "0" (call0 "p"); arm1 "_" (call0 "q")])) None);
   SExpr (EIf [] (var "c") [SExpr (EReturn [] (Some (var "t"))) true] None) false;
   SExpr (EMatch [] (var "x")
     [arm1 "0" (var "t");
      arm1 "1" (EBlock [] None
        [SLocal (Local [auto_enum_attr [TkIdent "Clone"]] (PBind "s") None
           (Some (EIf [] (var "c") [SExpr (call0 "g") false] (Some (EBlock [] None [SExpr (call0 "h") false])))) None);
         SExpr (var "s") false]);
      Arm [plain_attr "nested"] (POther "2") None (EBlock [] None [SExpr (call0 "u") true;
        SExpr (EIf [] (var "d") [SExpr (var "t") false] (Some (EBlock [] None [SExpr (mark (call0 "e")) false]))) false]) false;
      arm1 "3" (EBlock [] None [SExpr (call0 "v") true; SExpr (mark (var "t")) false]);
      arm1 "4" (EReturn [] (Some (call0 "k")));
      arm1 "_" (EMacro [] (Mac (plain_path ["panic"]) None))]) false].
Definition C50_sample : input := InStmt (SItem (IFn [] "f" (Some (impl_ty "Iterator")) C50_body)).
Definition C50_run (x : string) (c : bool) (i : input) : sres trace :=
  run_input trace (traced sample_oracle) (marker_name sample_args C50_sample) 5 i (sample_vars x c) [].

(** The conditions hold. *)
Lemma C50_conditions :
  ends_body (marker_name sample_args C50_sample) "marker" TakesReturns (fun _ => False) C50_body
  /\ returns_taken "marker" (body_exits false C50_body) = true.
Proof.
  split; [|reflexivity]. apply (ey_value _ _ _ _ [_; _]). apply en_match; [reflexivity|].
  assert (OL : only "nested" [plain_attr "nested"]) by (exists [], []; eexists; (split; [reflexivity|split; reflexivity])).
  apply ea_cons; [apply em_whole; [reflexivity| |reflexivity..]; intros X; look|].
  apply ea_cons; [apply em_whole; [reflexivity| |reflexivity..]; intros X; look|].
  apply ea_cons; [apply em_nested; [exact OL|]|].
  { apply (en_block _ _ _ _ _ [_]); [reflexivity..|]. apply en_if; [reflexivity..| |].
    - apply eb_whole; [|reflexivity]. intros X. look.
    - apply ee_block; [reflexivity|]. apply (eb_inside _ _ _ _ []). apply ns_mark; reflexivity. }
  apply ea_cons; [apply em_inside; [reflexivity|]|].
  { apply (ns_block _ _ _ _ _ [_]); [reflexivity..|]. apply ns_mark; reflexivity. }
  apply ea_cons; [apply em_leaving; [reflexivity|]; constructor; reflexivity|].
  apply ea_cons; [apply em_leaving; [reflexivity|]; constructor; reflexivity|]. apply ea_nil.
Qed.

(** All ways through the function.  The variables [t] and [s] hold values in variants of their own enums, and what is returned
    is one of them in a variant of the enum of the function. *)
Example C50_example :
  match code_of (run sample_args C50_sample) with
  | Some i' =>
      C50_run "0" true C50_sample = SGo _ [] (VOp "new p" []) [("call", [VOp "p" []])]
      /\ C50_run "0" true i' = SGo _ [] (VWrap "__Enum1" "__Variant2" (VWrap "__Enum5" "__Variant0" (VOp "new p" []))) [("call", [VOp "p" []])]
      /\ C50_run "0" false i' = SGo _ [] (VWrap "__Enum1" "__Variant0" (VWrap "__Enum5" "__Variant0" (VOp "new p" []))) [("call", [VOp "p" []])]
      /\ C50_run "1" false i' = SGo _ [] (VWrap "__Enum1" "__Variant1" (VWrap "__Enum5" "__Variant1" (VOp "new h" [])))
                                 [("call", [VOp "h" []]); ("call", [VOp "q" []])]
      /\ C50_run "2" false i' = SGo _ [] (VWrap "__Enum1" "__Variant3" (VWrap "__Enum5" "__Variant1" (VOp "new q" [])))
                                 [("call", [VOp "u" []]); ("call", [VOp "q" []])]
      /\ C50_run "3" false i' = SGo _ [] (VWrap "__Enum1" "__Variant5" (VWrap "__Enum5" "__Variant1" (VOp "new q" [])))
                                 [("call", [VOp "v" []]); ("call", [VOp "q" []])]
      /\ C50_run "4" false i' = SGo _ [] (VWrap "__Enum1" "__Variant6" (VOp "new k" [])) [("call", [VOp "k" []]); ("call", [VOp "q" []])]
      /\ C50_run "5" false C50_sample = SOut _ OPanic [("call", [VOp "q" []])] /\ C50_run "5" false i' = SOut _ OPanic [("call", [VOp "q" []])]
  | None => False
  end.
Proof. vm_compute. auto 20. Qed.

(** [match x { 0 => a(), 1 => { #[auto_enum(Clone)] let s = if d { g() } else { h() }; s } _ => panic!() }] as an expression, as the value of
    a [let] and as the body of a closure. *)
Definition C50_code : expr :=
  EMatch [] (var "x")
    [arm1 "0" (call0 "a");
     arm1 "1" (EBlock [] None
       [SLocal (Local [auto_enum_attr [TkIdent "Clone"]] (PBind "s") None
          (Some (EIf [] (var "d") [SExpr (call0 "g") false] (Some (EBlock [] None [SExpr (call0 "h") false])))) None);
        SExpr (var "s") false]);
     arm1 "_" (EMacro [] (Mac (plain_path ["panic"]) None))].
Definition C50_code_run (i : input) (x : string) (j : input) : sres trace :=
  run_input trace (traced sample_oracle) (marker_name sample_args i) 5 j (sample_vars x false) [].
Lemma C50_code_conditions i y :
  i = InExpr C50_code \/ i = InStmt (SLocal (Local [] (PBind "z") None (Some C50_code) None)) \/ i = InExpr (EClosure [] [] C50_code) ->
  ends (marker_name sample_args i) "marker" y (fun _ => False) C50_code
  /\ closure C50_code = false /\ closure_takes "marker" C50_code = TakesReturns
  /\ returns_taken "marker" (exits false (Place false false) C50_code) = true.
Proof.
  intros I. split; [|split; [reflexivity|split; reflexivity]]. apply en_match; [reflexivity|].
  apply ea_cons; [apply em_whole; [reflexivity| |reflexivity..]; intros X; look|].
  apply ea_cons; [apply em_whole; [reflexivity| |reflexivity..]; intros X; look|].
  apply ea_cons; [apply em_leaving; [reflexivity|]; constructor; [reflexivity|]; destruct I as [E|[E|E]]; subst i; reflexivity|]. apply ea_nil.
Qed.
Example C50_code_example :
  let i1 := InExpr C50_code in
  let i2 := InStmt (SLocal (Local [] (PBind "z") None (Some C50_code) None)) in
  let i3 := InExpr (EClosure [] [] C50_code) in
  match code_of (run sample_args i1), code_of (run sample_args i2), code_of (run sample_args i3) with
  | Some j1, Some j2, Some j3 =>
      C50_code_run i1 "1" j1 = SGo _ [] (VWrap "__Enum2" "__Variant1" (VWrap "__Enum5" "__Variant0" (VOp "new g" []))) [("call", [VOp "g" []])]
      /\ C50_code_run i2 "1" j2
         = SGo _ [("z", (false, VWrap "__Enum1" "__Variant1" (VWrap "__Enum5" "__Variant0" (VOp "new g" []))))] VUnit [("call", [VOp "g" []])]
      /\ match C50_code_run i3 "1" j3 with
         | SGo _ _ (VClos _ b en) w => eval trace (traced sample_oracle) (marker_name sample_args i3) 5 b en w
             = (ONorm (VWrap "__Enum2" "__Variant1" (VWrap "__Enum5" "__Variant0" (VOp "new g" []))), [("call", [VOp "g" []])])
         | _ => False
         end
  | _, _, _ => False
  end.
Proof. vm_compute. auto. Qed.

(** [match x {
       0 => a(),
       #[nested] 1 => 'l: loop {
         #[auto_enum(Clone)] let s = if d { g() } else { h() };
         if c { break s; }
         loop { break 'l k(); } }
       _ => panic!() }] *)
Definition C50_loop : expr :=
  EMatch [] (var "x")
    [arm1 "0" (call0 "a");
     Arm [plain_attr "nested"] (POther "1") None (ELoop [] (Some "l")
       [SLocal (Local [auto_enum_attr [TkIdent "Clone"]] (PBind "s") None
          (Some (EIf [] (var "d") [SExpr (call0 "g") false] (Some (EBlock [] None [SExpr (call0 "h") false])))) None);
        SExpr (EIf [] (var "c") [SExpr (EBreak [] None (Some (var "s"))) true] None) false;
        SExpr (ELoop [] None [SExpr (EBreak [] (Some "l") (Some (call0 "k"))) true]) false]) false;
     arm1 "_" (EMacro [] (Mac (plain_path ["panic"]) None))].
Lemma C50_loop_conditions y : ends (marker_name sample_args (InExpr C50_loop)) "marker" y (fun _ => False) C50_loop.
Proof.
  apply en_match; [reflexivity|].
  apply ea_cons; [apply em_whole; [reflexivity| |reflexivity..]; intros X; look|].
  apply ea_cons; [apply em_nested; [exists [], []; eexists; (split; [reflexivity|split; reflexivity])|apply en_loop; reflexivity]|].
  apply ea_cons; [apply em_leaving; [reflexivity|]; constructor; reflexivity|]. apply ea_nil.
Qed.
Example C50_loop_example :
  let i := InExpr C50_loop in
  let run1 c j := run_input trace (traced sample_oracle) (marker_name sample_args i) 5 j (sample_vars "1" c) [] in
  match code_of (run sample_args i) with
  | Some j =>
      run1 true j = SGo _ [] (VWrap "__Enum2" "__Variant1" (VWrap "__Enum5" "__Variant0" (VOp "new g" []))) [("call", [VOp "g" []])]
      /\ run1 false j = SGo _ [] (VWrap "__Enum2" "__Variant2" (VOp "new k" [])) [("call", [VOp "k" []]); ("call", [VOp "g" []])]
      /\ run1 false i = SGo _ [] (VOp "new k" []) [("call", [VOp "k" []]); ("call", [VOp "g" []])]
  | None => False
  end.
Proof. vm_compute. auto. Qed.
