(** Property C44: no spurious errors.  Every error has its cause in the arguments or in the code, and code without such
    causes whose value has two branches is expanded. *)

Require Import Coq.Strings.String Coq.Lists.List Coq.Bool.Bool Coq.Arith.Arith Coq.NArith.NArith Lia.
Require Import Verif.Syntax Verif.Context Verif.ExprModel Verif.AutoEnum Verif.Edits Verif.NoValueSpec Verif.Tails Verif.AttrFold.
Require Import Verif.AttributeRun Verif.ArgsSpec Verif.Exits Verif.ExitsTop Verif.Changes Verif.ChangesTop Verif.Branches Verif.BranchesRun.
Require Import Verif.Frame Verif.Grammar Verif.HaltRun Verif.RootRun Verif.Scope Verif.Causes Verif.CauseRun Verif.FewRun.
Require Import Verif.CleanRun Verif.BranchesClean Verif.Samples.
Import ListNotations.
Open Scope string_scope.
Open Scope list_scope.

Notation enum_for hash i := (enum_name (hash (NInput i))).

(** Every error is the one about the number of branches, or has a cause in the input (Causes.v). *)
Theorem C44_errors_have_causes : forall hash ta n args i l e,
  attribute hash ta n args i = ROk (Errors l) -> In e l ->
  (exists one semi, e = ErrFewVariants one semi) \/ cause args i e.
Proof.
  intros hash ta n args i l e H I. pose proof (errors_accounted hash ta n args i l H) as F.
  apply (proj1 (Forall_forall _ _)) with (x := e) in F; [|exact I]. destruct F as [F|F]; [left|right; exact F].
  destruct e; try discriminate F. eauto.
Qed.
Print Assumptions C44_errors_have_causes.

(** Without causes, and without other attributes inside, the macro returns code, or the one error about branches. *)
Theorem C44_one_error : forall hash ta args i,
  wf_input i = true -> names_input i = [] -> (forall e, ~ cause args i e) ->
  exists n o, (forall k, n <= k -> attribute hash ta k args i = ROk o)
    /\ ((exists i' cx, o = Code i' cx) \/ exists one, o = Errors [ErrFewVariants one (ends_in_semi i)]).
Proof.
  intros hash ta args i WF NI NC. destruct (attribute_halts hash ta args i WF) as (n & o & H). exists n, o. split; [exact H|].
  destruct o as [i' cx|l]; [left; eauto|right]. pose proof (H n (le_n n)) as H0.
  assert (L : l <> []).
  { unfold attribute in H0. destruct (ctx_root _ args); [injection H0 as <-; discriminate|].
    destruct (expand_input _ _ _ _) as [[j cx]| |]; try discriminate. destruct (cx_errs cx); congruence. }
  destruct l as [|e l]; [congruence|]. destruct (C44_errors_have_causes _ _ _ _ _ _ e H0 (or_introl eq_refl)) as [(one & semi & ->)|C].
  - destruct (few_error_exact _ _ _ _ _ _ _ _ H0 NI (or_introl eq_refl)) as (-> & -> & _). eauto.
  - exfalso. exact (NC _ C).
Qed.
Print Assumptions C44_one_error.

(** The error about branches is right: the expansion of the code uses no variant of the new enum or one. *)
Theorem C44_too_few : forall hash ta n args ps mo i l one semi,
  parse_args args = inr (ps, mo) -> ps <> [] -> names_input i = [] ->
  attribute hash ta n args i = ROk (Errors l) -> In (ErrFewVariants one semi) l ->
  exists i1, expanded (enum_for hash i) (own_marker mo) i i1
    /\ own_uses (enum_for hash i) i1 = own_uses (enum_for hash i) i + (if one then 1 else 0).
Proof.
  intros hash ta n args ps mo i l one semi HP N NI H HF.
  exact (proj1 (few_run hash ta n args ps mo HP N i l one semi H NI HF)).
Qed.
Print Assumptions C44_too_few.

(** Code without causes that uses two variants however it is expanded is expanded. *)
Theorem C44_accepted : forall hash ta args ps mo i,
  parse_args args = inr (ps, mo) -> ps <> [] -> wf_input i = true -> names_input i = [] -> (forall e, ~ cause args i e) ->
  (forall i1, expanded (enum_for hash i) (own_marker mo) i i1 -> own_uses (enum_for hash i) i + 2 <= own_uses (enum_for hash i) i1) ->
  exists n i' cx, forall k, n <= k -> attribute hash ta k args i = ROk (Code i' cx).
Proof.
  intros hash ta args ps mo i HP N WF NI NC U. destruct (C44_one_error hash ta args i WF NI NC) as (n & o & H & [(i' & cx & ->)|(one & ->)]).
  - eauto.
  - exfalso. destruct (C44_too_few _ _ _ _ _ _ _ _ one (ends_in_semi i) HP N NI (H n (le_n n)) (or_introl eq_refl)) as (i1 & X & E).
    apply U in X. destruct one; lia.
Qed.
Print Assumptions C44_accepted.

(** Plain code: an expression, a statement or a function with a body, an [else] for every [if] at the end, none of the helper
    attributes anywhere, and only expressions in marker macros. *)
Definition plain_part (args : list token) (i : input) (p : part) : bool :=
  no_help (part_attrs p)
  && match p with PtExpr (EMacro _ (Mac q None)) => negb (existsb (is_ident q) ("marker" :: flat_map (fun r => match snd r with Some m => [m] | None => [] end) (all_args args i))) | _ => true end.
Definition plain_code (args : list token) (i : input) : bool :=
  match i with
  | InBad | InStmt (SLocal (Local _ _ _ None _)) | InStmt (SItem (IEnum _)) | InStmt (SItem (IOther _)) | InStmt (SItem (IFn _ _ _ [])) => false
  | _ => true
  end
  && input_ends_well i && forallb (plain_part args i) (input_parts i).

Lemma no_help_none name a x : no_help a = true -> name = "auto_enum" \/ name = "nested" \/ name = "never" \/ name = "rec" ->
  In x a -> named name x -> False.
Proof.
  intros N NM I E. apply no_help_named in N. destruct N as (N1 & N2 & N3 & N4).
  assert (attr_named name a = true) by (apply has_any_named; exists x; auto).
  destruct NM as [-> | [-> | [-> | ->]]]; congruence.
Qed.

(** Plain code has no causes of errors if its attribute has well-formed arguments. *)
Theorem C44_plain : forall args ps mo i,
  parse_args args = inr (ps, mo) -> names_input i = [] -> plain_code args i = true -> forall e, ~ cause args i e.
Proof.
  intros args ps mo i HP NI PC e C. unfold plain_code in PC. apply andb_true_iff in PC. destruct PC as [PC PP].
  apply andb_true_iff in PC. destruct PC as [PK PE]. pose proof (proj1 (forallb_forall _ _) PP) as PA. clear PP.
  assert (NH : forall p name x, In p (input_parts i) -> name = "auto_enum" \/ name = "nested" \/ name = "never" \/ name = "rec" ->
            In x (part_attrs p) -> named name x -> False).
  { intros p name x I NM IX E. apply PA in I. unfold plain_part in I. apply andb_true_iff in I. destruct I as [I _].
    eapply no_help_none; eassumption. }
  destruct C as [e E|E|E|it E NF|a p t d E|a p t d x I (IX & E & _)|a s o E|E|p I AN E|p x name I IX E NM NP|p I (x & IX & E)|a p m I E MN
                |p x I (IX & E & _)|p x toks e I (IX & E & _)|m M].
  - congruence.
  - subst i. discriminate PK.
  - subst i. discriminate PK.
  - subst i. destruct it; try discriminate PK. eapply NF. reflexivity.
  - subst i. discriminate PK.
  - eapply (NH _ "auto_enum"); eauto.
  - subst i. discriminate PK.
  - congruence.
  - destruct AN as [(x & IX & N)|(x & IX & N & _)]; [apply (NH p "nested" x)|apply (NH p "auto_enum" x)]; auto.
  - eapply (NH p name); eauto. destruct NM; auto.
  - eapply (NH _ "rec"); eauto 6.
  - apply PA in I. unfold plain_part in I. apply andb_true_iff in I. destruct I as [_ I]. unfold marker_name in MN.
    apply existsb_exists in MN. destruct MN as (m0 & I0 & E0). apply String.eqb_eq in E0. subst m0.
    apply negb_true_iff in I. enough (X : existsb (is_ident p) ("marker" :: flat_map (fun r => match snd r with Some m => [m] | None => [] end) (all_args args i)) = true) by congruence.
    apply existsb_exists. exists m. auto.
  - eapply (NH _ "auto_enum"); eauto.
  - eapply (NH _ "auto_enum"); eauto.
  - destruct M as [(ps' & mo' & _ & _ & (qs & A))|(p & l & x & r & toks & ps' & mo' & I & EP & (IX & E & _) & _)].
    + rewrite NI in A. destruct A.
    + eapply (NH _ "auto_enum"); eauto.
Qed.
Print Assumptions C44_plain.

Lemma two_used {A} (R : list string -> A -> A -> Prop) (S : A -> Prop) t l1 y l2 z l3 l' :
  (forall t x x', R t x x' -> S x \/ length t = 1) -> seq2 R t (l1 ++ y :: l2 ++ z :: l3) l' -> ~ S y -> ~ S z -> 2 <= length t.
Proof.
  intros HR H NY NZ. apply seq2_app in H. destruct H as (t1 & t2 & q1 & q2 & -> & -> & _ & H).
  inversion H as [|u1 u2 ? y' ? q3 H1 H2]; subst. apply seq2_app in H2. destruct H2 as (v1 & v2 & q4 & q5 & -> & -> & _ & H2).
  inversion H2 as [|w1 w2 ? z' ? q6 H3 H4]; subst. rewrite !app_length.
  destruct (HR _ _ _ H1) as [|L1]; [contradiction|]. destruct (HR _ _ _ H3) as [|L2]; [contradiction|]. lia.
Qed.

Lemma value_accepted hash ta args ps mo i y x :
  parse_args args = inr (ps, mo) -> ps <> [] -> wf_input i = true -> names_input i = [] -> (forall e, ~ cause args i e) ->
  value_of (own_marker mo) i y x ->
  (forall t y1, branches (outermost (enum_for hash i) (own_marker mo) x) t y y1 -> 2 <= length t) ->
  exists n i' cx, forall k, n <= k -> attribute hash ta k args i = ROk (Code i' cx).
Proof.
  intros HP N WF NI NC V U. destruct (C44_one_error hash ta args i WF NI NC) as (n & o & H & [(i' & cx & ->)|(one & ->)]).
  - eauto.
  - exfalso. destruct (few_run hash ta n args ps mo HP N i _ one (ends_in_semi i) (H n (le_n n)) NI (or_introl eq_refl)) as [_ F].
    destruct (F _ _ V) as (t & y1 & B & L). apply U in B. destruct one; lia.
Qed.

(** The names of marker macros are those of the attribute. *)
Definition own_name (mo : option string) (s : string) : Prop := w_mark (outermost "" (own_marker mo) TakesNone) s.

(** A [match] with two arms that are not skipped at the end of the annotated code. *)
Theorem C44_match_accepted : forall hash ta args ps mo i a s l1 y l2 z l3 x,
  parse_args args = inr (ps, mo) -> ps <> [] -> wf_input i = true -> names_input i = [] -> (forall e, ~ cause args i e) ->
  value_of (own_marker mo) i (EMatch a s (l1 ++ y :: l2 ++ z :: l3)) x -> x <> TakesQuestions -> no_help a = true ->
  ~ arm_skipped (own_name mo) y -> ~ arm_skipped (own_name mo) z ->
  exists n i' cx, forall k, n <= k -> attribute hash ta k args i = ROk (Code i' cx).
Proof.
  intros hash ta args ps mo i a s l1 y l2 z l3 x HP N WF NI NC V X NH NY NZ. eapply value_accepted; try eassumption.
  intros t e1 B. destruct (no_help_named _ NH) as (A & _ & NN & _). unfold branches in B. replace (w_branches _) with true in B by (destruct x; reflexivity || congruence).
  inversion B as [? NV|? BL|? ? ? ? x1 NV S| | | | | |]; subst.
  - exfalso. inversion NV as [? P|? P| | | | | | | |? ? ? K| |]; subst.
    + apply has_plain_named in P. cbn [e_attrs] in P. congruence.
    + apply has_any_named in P. cbn [e_attrs] in P. congruence.
    + apply NY. clear -K. induction l1 as [|[b p g c d] l1 IH]; cbn in K.
      * inversion K as [|b p g c d l P K1|b p g c d l P K1]; subst; cbn; tauto.
      * apply IH. inversion K; assumption.
  - discriminate.
  - eapply (two_used _ (arm_skipped (own_name mo))); [|exact S|exact NY|exact NZ].
    intros t0 x0 x0' W. destruct W as [x0 W|]; [left; exact W|right; reflexivity].
Qed.
Print Assumptions C44_match_accepted.

(** A chain of [if]s with two branches that are not skipped. *)
Theorem C44_if_accepted : forall hash ta args ps mo i a c b o l1 y l2 z l3 x,
  parse_args args = inr (ps, mo) -> ps <> [] -> wf_input i = true -> names_input i = [] -> (forall e, ~ cause args i e) ->
  value_of (own_marker mo) i (EIf a c b o) x -> x <> TakesQuestions -> no_help a = true ->
  chain_branches (EIf a c b o) = l1 ++ y :: l2 ++ z :: l3 ->
  ~ branch_skipped (own_name mo) y -> ~ branch_skipped (own_name mo) z ->
  exists n i' cx, forall k, n <= k -> attribute hash ta k args i = ROk (Code i' cx).
Proof.
  intros hash ta args ps mo i a c b o l1 y l2 z l3 x HP N WF NI NC V X NH EB NY NZ. eapply value_accepted; try eassumption.
  intros t e1 B. destruct (no_help_named _ NH) as (A & _ & NN & _). unfold branches in B. replace (w_branches _) with true in B by (destruct x; reflexivity || congruence).
  inversion B as [? NV|? BL| |? ? ? ? ? ? NV W| | | | |]; subst.
  - exfalso. inversion NV as [? P|? P| | | | | | | | | |]; subst.
    + apply has_plain_named in P. cbn [e_attrs] in P. congruence.
    + apply has_any_named in P. cbn [e_attrs] in P. congruence.
  - discriminate.
  - assert (exists l', seq2 (branch_wrapped (enum_for hash i) (own_name mo)) t (chain_branches (EIf a c b o)) l') as (l' & S).
    { clear -W. match type of W with if_wrapped _ _ _ ?e _ => revert W; generalize e; intros e0 W end.
      induction W as [t1 t2 a0 c0 b1 b1' ea l b2 b2' W1 W2|t1 t2 a0 c0 b1 b1' e2 e2' W1 W2 (l' & IH)].
      - exists [b1'; b2']. rewrite <- (app_nil_r t2). repeat (constructor; try assumption).
      - exists (b1' :: l'). constructor; assumption. }
    rewrite EB in S. eapply (two_used _ (branch_skipped (own_name mo))); [|exact S|exact NY|exact NZ].
    intros t0 x0 x0' W0. destruct W0 as [x0 W0|]; [left; exact W0|right; reflexivity].
Qed.
Print Assumptions C44_if_accepted.

(** ** Examples *)

(** Two errors at once, with their causes. *)
Definition bad_sample : input :=
  InExpr (EMatch [] (var "x")
    [Arm [plain_attr "rec"] (POther "0") None (EIf [plain_attr "nested"] (var "c") [SExpr (call0 "b") false] None) true;
     Arm [] (POther "_") None (call0 "a") true]).
Example C44_errors_example :
  run sample_args bad_sample = ROk (Errors [ErrNoElse; ErrRec])
  /\ cause sample_args bad_sample ErrNoElse /\ cause sample_args bad_sample ErrRec.
Proof.
  split; [vm_compute; reflexivity|]. split.
  - eapply ca_nested_else with (p := PtExpr (EIf [plain_attr "nested"] (var "c") [SExpr (call0 "b") false] None)).
    + cbn. repeat (try (left; reflexivity); right).
    + left. exists (plain_attr "nested"). split; [left; reflexivity|reflexivity].
    + reflexivity.
  - eapply ca_rec with (p := PtArm (Arm [plain_attr "rec"] (POther "0") None (EIf [plain_attr "nested"] (var "c") [SExpr (call0 "b") false] None) true)).
    + cbn. repeat (try (left; reflexivity); right).
    + exists (plain_attr "rec"). split; [left; reflexivity|reflexivity].
Qed.

(** A [match] at the end of a block in a function: all conditions hold. *)
Definition good_fn : input :=
  InStmt (SItem (IFn [] "f" (Some (impl_ty "Iterator"))
    [SExpr (EIf [] (var "c") [SExpr (EReturn [] (Some (call0 "m"))) true] None) false; SExpr (EParen [] sample_match) false])).
Lemma good_fn_plain : plain_code sample_args good_fn = true /\ wf_input good_fn = true /\ names_input good_fn = [].
Proof. vm_compute. auto. Qed.
Lemma call_kept mk f : ~ arm_skipped mk (arm1 f (call0 "a")) /\ ~ arm_skipped mk (arm1 f (call0 "b")).
Proof.
  split; cbn; intros [(p & [] & _)|[(p & [] & _)|[H|[(e & E & _)|E]]]]; try discriminate;
    inversion H as [? P|? P| | | | | | | | | |]; destruct P as (p & [] & _).
Qed.
Example C44_match_example : forall hash ta, exists n i' cx, forall k, n <= k -> attribute hash ta k sample_args good_fn = ROk (Code i' cx).
Proof.
  intros hash ta. destruct good_fn_plain as (PL & WF & NI).
  eapply (C44_match_accepted hash ta sample_args [plain_path ["Iterator"]] None good_fn [] (var "x") [] (arm1 "0" (call0 "a")) [] (arm1 "1" (call0 "b"))).
  - reflexivity.
  - discriminate.
  - exact WF.
  - exact NI.
  - eapply C44_plain; [reflexivity|exact NI|exact PL].
  - refine (vo_fn _ _ _ _ [_] _ _ _ _ _); [apply ft_impl|]. apply ew_paren; [reflexivity|]. apply ew_here.
  - discriminate.
  - reflexivity.
  - apply call_kept.
  - apply call_kept.
Qed.

(** [if c { a() } else if d { b() } else { panic!() }] in a [let] *)
Definition good_if : expr :=
  EIf [] (var "c") [SExpr (call0 "a") false]
    (Some (EIf [] (var "d") [SExpr (call0 "b") false] (Some (EBlock [] None [SExpr (EMacro [] (Mac (plain_path ["panic"]) None)) false])))).
Definition good_let : input := InStmt (SLocal (Local [] (PBind "z") None (Some good_if) None)).
Lemma call_branch_kept mk f : ~ branch_skipped mk [SExpr (call0 f) false].
Proof.
  intros (r & s & E & H). destruct r as [|s0 r]; [|destruct r; discriminate]. injection E as <-.
  destruct H as [(p & [] & _)|[H|(x & [<-|[]] & E)]]; [|discriminate].
  inversion H as [? P|? P| | | | | | | | | |]; destruct P as (p & [] & _).
Qed.
Example C44_if_example : forall hash ta, exists n i' cx, forall k, n <= k -> attribute hash ta k sample_args good_let = ROk (Code i' cx).
Proof.
  intros hash ta. assert (plain_code sample_args good_let = true /\ wf_input good_let = true /\ names_input good_let = []) as (PL & WF & NI) by (vm_compute; auto).
  eapply (C44_if_accepted hash ta sample_args [plain_path ["Iterator"]] None good_let) with (l1 := []) (l2 := []).
  - reflexivity.
  - discriminate.
  - exact WF.
  - exact NI.
  - eapply C44_plain; [reflexivity|exact NI|exact PL].
  - apply vo_let. apply vi_other; [reflexivity|apply ew_here].
  - discriminate.
  - reflexivity.
  - reflexivity.
  - apply call_branch_kept.
  - apply call_branch_kept.
Qed.

(** One branch: the error, and the only expansion of the code uses one variant. *)
Example C44_few_example :
  let i := InExpr (EMatch [] (var "x") [arm1 "0" (call0 "a"); arm1 "_" (EReturn [] None)]) in
  run sample_args i = ROk (Errors [ErrFewVariants true false]) /\ plain_code sample_args i = true /\ names_input i = [] /\ wf_input i = true.
Proof. vm_compute. auto. Qed.

(** [match x { 0 => a(), _ => b() }]: every expansion uses two variants. *)
Definition two_arms : expr := EMatch [] (var "x") [arm1 "0" (call0 "a"); arm1 "_" (call0 "b")].
Example C44_accepted_example : forall own i1, expanded own "marker" (InExpr two_arms) i1 ->
  own_uses own (InExpr two_arms) + 2 <= own_uses own i1.
Proof.
  intros own i1 X.
  destruct (value_outcome _ _ _ _ two_arms TakesNone X) as (y' & k & PL & O); [constructor; apply vi_other; [reflexivity|constructor]|].
  apply match_outcome in O; [|reflexivity|reflexivity]. destruct O as (s' & x' & -> & D & S).
  destruct done_clean_all as (DE & _). apply DE in D; try reflexivity. subst s'.
  apply arms_clean in S; [|reflexivity|reflexivity].
  inversion S as [|t1 t2 ? y1 ? l1 A1 S1]; subst. inversion S1 as [|t3 t4 ? y2 ? l2 A2 S2]; subst. inversion S2; subst.
  inversion A1; subst; [exfalso; match goal with H : arm_skipped ?mk _ |- _ => first [exact (proj1 (call_kept mk _) H)|exact (proj2 (call_kept mk _) H)] end|].
  inversion A2; subst; [exfalso; match goal with H : arm_skipped ?mk _ |- _ => first [exact (proj1 (call_kept mk _) H)|exact (proj2 (call_kept mk _) H)] end|].
  assert (Q : forall e', placed_in own two_arms two_arms e' (EMatch [] (var "x")
              [Arm [] (POther "0") None (wrap own v (call0 "a")) true; Arm [] (POther "_") None (wrap own v0 (call0 "b")) true]) ->
            length (filter (fun iv => String.eqb (fst iv) own) (mentions_expr e')) = 2).
  { intros e' HP. inversion HP as [|e e1 e2 y y' _ SE DC]; subst. inversion SE; subst.
    destruct DC as [->|(j & dv & _ & ->)]; cbn; rewrite String.eqb_refl; reflexivity. }
  inversion PL as [? ? ? ? PI| | |]; subst. apply Q in PI. unfold own_uses. cbn [mentions]. rewrite PI. cbn. lia.
Qed.
