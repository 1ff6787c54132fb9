(** The enum of the outermost attribute, and variants that are used once. *)

Require Import Coq.Strings.String Coq.Lists.List Coq.Bool.Bool Coq.Arith.Arith Coq.NArith.NArith Lia.
Require Import Coq.Sorting.Permutation.
Require Import Verif.Syntax Verif.Context Verif.ExprModel Verif.TypeAnalysis Verif.AutoEnum.
Require Import Verif.Edits Verif.RunLemmas Verif.Frame Verif.VisitRun Verif.AttributeRun Verif.Scope Verif.ScopeRun
  Verif.ScopeTop.
Import ListNotations.
Open Scope string_scope.
Open Scope list_scope.

(** [e'] is a block that declares [g] first. *)
Definition declares_first (g : genum) (e' : expr) : Prop :=
  exists e, e' = EBlock [] None [SItem (IEnum g); SExpr e false].

(** The annotated code begins with the declaration of [g]: the block around the expression, around the
    initializer of the [let], or the function body. *)
Definition begins_with (g : genum) (i' : input) : Prop :=
  match i' with
  | InExpr e => declares_first g e
  | InStmt (SExpr e _) => declares_first g e
  | InStmt (SLocal (Local _ _ _ (Some e) _)) => declares_first g e
  | InStmt (SItem (IFn _ _ _ b)) => exists r, b = SItem (IEnum g) :: r
  | _ => False
  end.

Section Parent.
  Variables (hash : node -> N) (ta : bool) (n : nat).

  (** The enum that a context builds. *)
  Definition own_enum (cx : ctx) : genum := enum_of (cx_ident cx) (cx_variants cx) (cx_args cx ++ cx_traits cx).

  (** The end of an expansion without errors. *)
  Definition finished (cx cx' : ctx) (P : Prop) : Prop :=
    (2 <= length (cx_variants cx') /\ P) \/ (cx_variants cx' = [] /\ cx_has_child cx' = true).

  Lemma build_finished {A} f (x : A) cx x' cx' :
    build f x cx = ROk (x', cx') -> cx_errs cx' = [] ->
    cx' = cx /\ finished cx cx' (x' = f (own_enum cx') x).
  Proof.
    unfold build, has_error, finished. destruct (cx_errs cx) eqn:E.
    - destruct (cx_variants cx) as [|v1 [|v2 r]] eqn:V; cbn [length].
      + destruct (cx_has_child cx) eqn:C; intros H EE; [inversion H; subst; auto|].
        minv. apply app_nil_inv in EE. destruct EE; discriminate.
      + intros H EE. minv. apply app_nil_inv in EE. destruct EE; discriminate.
      + intros H EE. inversion H; subst. split; [reflexivity|]. left. rewrite V. cbn. split; [lia|].
        unfold builder_build, own_enum, enum_of. rewrite V. reflexivity.
    - intros H EE. inversion H; subst. congruence.
  Qed.

  Lemma parent_expr_finished R e b cx e' cx' :
    expand_parent_expr ta R e b cx = ROk (e', cx') -> cx_errs cx' = [] -> cx_args cx <> [] ->
    finished cx cx' (declares_first (own_enum cx') e').
  Proof.
    intros H EE A. unfold expand_parent_expr in H.
    apply bind_ok in H. destruct H as (u & cxa & H0 & H).
    assert (Aa : cx_args cxa <> []) by (destruct b; minv; assumption). clear H0.
    minv. unfold is_dummy in H. destruct (cx_args cxa) eqn:EA; [congruence|].
    apply bind_ok in H. destruct H as (e1 & cx1 & H1 & H).
    apply build_finished in H; [|assumption]. destruct H as [-> [[L ->]|F]]; [left|right; exact F].
    split; [assumption|]. exists e1. reflexivity.
  Qed.

  Lemma parent_stmt_finished R s cx s' cx' :
    expand_parent_stmt ta R s cx = ROk (s', cx') -> cx_errs cx' = [] -> cx_args cx <> [] ->
    match s with SMacro _ _ _ => False | _ => True end ->
    finished cx cx' (begins_with (own_enum cx') (InStmt s')).
  Proof.
    intros H EE A NM. destruct s as [l|it|e semi|]; [| | |contradiction].
    - cbn [expand_parent_stmt] in H. apply bind_ok in H. destruct H as (l' & cx1 & H & H2). minv.
      destruct l as [a p t i d]. unfold expand_parent_local in H.
      apply bind_ok in H. destruct H as (t' & cxa & H0 & H).
      assert (Aa : cx_args cxa <> []).
      { unfold local_ty in H0. destruct ta; [|minv; assumption]. destruct t as [t0|]; [|minv; assumption].
        apply bind_ok in H0. destruct H0 as ([tr fd] & cxb & Hb & H0). minv. assumption. }
      clear H0. minv. unfold is_dummy in H. destruct (cx_args cxa) eqn:EA; [congruence|].
      destruct i as [e|]; [|minv; apply app_nil_inv in EE; destruct EE; discriminate].
      apply bind_ok in H. destruct H as (e1 & cxb & H1 & H).
      apply bind_ok in H. destruct H as (e2 & cxc & H2 & H). minv.
      apply build_finished in H2; [|assumption]. destruct H2 as [-> [[L ->]|F]]; [left|right; exact F].
      split; [assumption|]. exists e1. reflexivity.
    - cbn [expand_parent_stmt] in H. destruct it as [a sg out b| |];
        [|minv; apply app_nil_inv in EE; destruct EE; discriminate
         |minv; apply app_nil_inv in EE; destruct EE; discriminate].
      apply bind_ok in H. destruct H as (b' & cx1 & H & H2). minv.
      unfold expand_parent_item_fn in H.
      apply bind_ok in H. destruct H as (u1 & cxa & H1 & H).
      apply bind_ok in H. destruct H as (u2 & cxb & H2 & H).
      assert (Aa : cx_args cxa = cx_args cx).
      { unfold fn_mode in H1. minv. destruct (match cx_last cx with LNever => false | _ => true end); [|minv; reflexivity].
        destruct out as [[| |]|]; try (minv; reflexivity);
          (destruct (is_result_impl _); [|minv; reflexivity]; minv;
           destruct (2 <=? _)%nat; minv; reflexivity). }
      assert (Ab : cx_args cxb = cx_args cxa).
      { unfold fn_collect in H2. destruct ta; [|minv; reflexivity]. destruct out; [|minv; reflexivity].
        apply bind_ok in H2. destruct H2 as ([tr fd] & cxd & Hb & H2). minv. reflexivity. }
      apply bind_ok in H. destruct H as (d & cxc & H3 & H). apply gets_ok in H3. destruct H3 as [-> ->].
      unfold is_dummy in H. destruct (cx_args cxb) eqn:EA; [congruence|].
      apply bind_ok in H. destruct H as (b1 & cxd & H3 & H).
      apply bind_ok in H. destruct H as (d & cxe & H4 & H). apply gets_ok in H4. destruct H4 as [-> ->].
      assert (Ad : cx_args cxd <> []).
      { destruct b as [|s0 r]; [minv; cbn; congruence|].
        assert (PR : pres same_mode (map_last_expr child_expr (s0 :: r))).
        { apply map_last_pres; [apply same_mode_refl|apply same_mode_trans|].
          apply Forall_forall. intros [] _; try exact I. apply child_expr_frame. }
        apply PR in H3. destruct H3 as (_ & _ & _ & E & _). rewrite E. congruence. }
      unfold ta_dummy in H. destruct (cx_args cxd) eqn:ED; [congruence|].
      replace (ta && match cx_mode cxd with VReturn count => false && variant_is_empty cxd && (count <? 2)%nat
                     | _ => false end) with false in H by (destruct ta, (cx_mode cxd); reflexivity).
      apply bind_ok in H. destruct H as (b2 & cxf & H5 & H).
      apply build_finished in H; [|assumption]. destruct H as [-> [[L ->]|F]]; [left|right; exact F].
      split; [assumption|]. exists b2. reflexivity.
    - cbn [expand_parent_stmt] in H. apply bind_ok in H. destruct H as (e' & cx1 & H & H2). minv.
      exact (parent_expr_finished _ _ _ _ _ _ H EE A).
  Qed.

  (** The outermost attribute, if it has a trait list and no error is found. *)
  Theorem root_finished args i i' cx ps m :
    attribute hash ta n args i = ROk (Code i' cx) -> parse_args args = inr (ps, m) -> ps <> [] ->
    (forall a mc semi, i <> InStmt (SMacro a mc semi)) -> decls i = [] ->
    (exists k tr, 2 <= k
       /\ begins_with (enum_of (enum_name (hash (NInput i))) (variants k) (ps ++ tr)) i')
    \/ names_input i <> [].
  Proof.
    intros H HP PS NM D. pose proof (shaped_output _ _ _ _ _ _ _ H D) as SH.
    destruct (attribute_run _ _ _ _ _ _ _ H) as (cx0 & t & C0 & HX & EE & R & B & CL).
    unfold ctx_root, ctx_new in C0. rewrite HP in C0.
    assert (CX : cx_ident cx0 = enum_name (hash (NInput i)) /\ cx_args cx0 = ps /\ cx_has_child cx0 = false).
    { destruct m; cbn in C0; inversion C0; subst; auto. }
    destruct CX as (CI & CA & CC).
    assert (F : finished cx0 cx (begins_with (own_enum cx) i')).
    { unfold expand_input in HX. destruct i as [s|e|].
      - apply bind_ok in HX. destruct HX as (s' & cx1 & H1 & H2). minv.
        eapply parent_stmt_finished; try eassumption; [congruence|].
        destruct s; try exact I. eapply NM. reflexivity.
      - apply bind_ok in HX. destruct HX as (e' & cx1 & H1 & H2). minv.
        cbn [begins_with]. eapply parent_expr_finished; try eassumption. congruence.
      - apply bind_ok in HX. destruct HX as (u & cx1 & H1 & H2). minv.
        apply app_nil_inv in EE. destruct EE; discriminate. }
    destruct F as [[L F]|[V C]].
    - left.
      assert (IN : In (own_enum cx) (decls i')).
      { destruct i' as [[[a p ty [e|] d]|[a sg o b| |]|e semi|]|e|]; cbn in F; try contradiction;
          destruct F as (x & ->); cbn; auto. }
      rewrite Forall_forall in SH. destruct (SH _ IN) as (j & k & d & K & E).
      unfold own_enum, enum_of in E. injection E as E1 E2 E3 E4.
      exists k, (cx_traits cx). split; [assumption|].
      unfold own_enum in F. rewrite E2, (b_ident _ _ B), (b_args _ _ B), CI, CA in F. exact F.
    - right. destruct (b_child2 _ _ B C) as [X|X]; [congruence|exact X].
  Qed.
End Parent.

(** ** Variants that are used exactly once *)

Lemma clean_enums : forall t, forallb clean t = true ->
  Forall (fun g => gen_name (g_ident g) = true) (flat_map enums t).
Proof.
  assert (L : forall l, clean l = true -> Forall (fun g => gen_name (g_ident g) = true) (enums l)).
  { fix IH 1. intros [i v|g t|]; cbn; intros H; try constructor.
    - apply andb_true_iff in H. apply H.
    - apply andb_true_iff in H. destruct H as [_ H]. induction t as [|x r IHr]; cbn in *; [constructor|].
      apply andb_true_iff in H. destruct H as [H1 H2]. apply Forall_app. split; [apply IH; exact H1|auto]. }
  induction t as [|x r IH]; cbn; intros H; [constructor|].
  apply andb_true_iff in H. destruct H as [H1 H2]. apply Forall_app. auto.
Qed.

Section Once.
  Variables (hash : node -> N) (ta : bool).

  Lemma generated_names n args i i' cx :
    attribute hash ta n args i = ROk (Code i' cx) -> decls i = [] ->
    Forall (fun g => gen_name (g_ident g) = true) (decls i').
  Proof.
    intros H D. destruct (attribute_edits _ _ _ _ _ _ _ H) as (t & R & [C _] & _).
    apply clean_enums in C. rewrite Forall_forall in *. intros g Hg. apply C.
    apply (decls_in_input _ _ _ _ g R) in Hg. rewrite D in Hg. destruct Hg as [[]|Hg]. exact Hg.
  Qed.

  Lemma derived_output n args i i' cx :
    attribute hash ta n args i = ROk (Code i' cx) -> decls i = [] ->
    Forall (fun g => exists ps tr, g_derive g = ps ++ tr /\ In ps (map fst (all_args args i))) (decls i').
  Proof.
    intros H D. destruct (attribute_edits _ _ _ _ _ _ _ H) as (t & R & [_ C] & _).
    rewrite Forall_forall in *. intros g Hg. apply C.
    apply (decls_in_input _ _ _ _ g R) in Hg. rewrite D in Hg. destruct Hg as [[]|Hg]. exact Hg.
  Qed.

  Lemma count_other G iv :
    (forall g, In g G -> g_ident g <> fst iv) -> count_occ ctor_dec (flat_map ctors G) iv = 0.
  Proof.
    intros H. apply count_occ_not_In. intros F. apply in_flat_map in F. destruct F as (g & Hg & F).
    unfold ctors in F. apply in_map_iff in F. destruct F as (x & <- & _). apply (H g Hg). reflexivity.
  Qed.

  Lemma count_own g v :
    NoDup (map fst (g_variants g)) ->
    count_occ ctor_dec (ctors g) (g_ident g, v)
    = if in_dec string_dec v (map fst (g_variants g)) then 1 else 0.
  Proof.
    intros ND. assert (NC : NoDup (ctors g)).
    { unfold ctors. assert (E : map (fun x => (g_ident g, fst x)) (g_variants g)
                                = map (pair (g_ident g)) (map fst (g_variants g))) by (rewrite map_map; reflexivity).
      rewrite E. apply FinFun.Injective_map_NoDup; [|assumption]. intros a b H. inversion H. reflexivity. }
    destruct in_dec as [Hi|Hi].
    - apply NoDup_count_occ'; [assumption|]. unfold ctors. apply in_map_iff in Hi.
      destruct Hi as (x & <- & Hx). apply (in_map (fun x => (g_ident g, fst x))) in Hx. exact Hx.
    - apply count_occ_not_In. intros F. unfold ctors in F. apply in_map_iff in F.
      destruct F as (x & E & Hx). inversion E. apply Hi. subst. apply in_map. assumption.
  Qed.

  Theorem variants_once n args i i' cx g v :
    attribute hash ta n args i = ROk (Code i' cx) -> decls i = [] ->
    (forall iv, gen_name (fst iv) = true -> uses iv i = 0) ->
    NoDup (map g_ident (decls i')) -> In g (decls i') ->
    uses (g_ident g, v) i' = if in_dec string_dec v (map fst (g_variants g)) then 1 else 0.
  Proof.
    intros H D U ND IN. rewrite (uses_output _ _ _ _ _ _ _ (g_ident g, v) H D).
    pose proof (generated_names _ _ _ _ _ H D) as GN. rewrite Forall_forall in GN.
    rewrite U by (apply GN; assumption). cbn [Nat.add].
    pose proof (shaped_output _ _ _ _ _ _ _ H D) as SH. rewrite Forall_forall in SH.
    destruct (SH _ IN) as (j & k & d & _ & E).
    destruct (in_split _ _ IN) as (l1 & l2 & EQ). rewrite EQ in *.
    rewrite map_app in ND. cbn [map] in ND. apply NoDup_remove_2 in ND.
    rewrite flat_map_app, count_occ_app. cbn [flat_map]. rewrite count_occ_app.
    rewrite (count_other l1), (count_other l2).
    - rewrite count_own; [destruct in_dec; reflexivity|]. subst g. cbn [g_variants enum_of].
      replace (map fst (combine (variants k) (variants k))) with (variants k).
      + apply variants_NoDup.
      + generalize (variants k). intros l. induction l; cbn; congruence.
    - intros g' Hg E'. apply ND. apply in_or_app. right. cbn in E'. rewrite <- E'. apply in_map. assumption.
    - intros g' Hg E'. apply ND. apply in_or_app. left. cbn in E'. rewrite <- E'. apply in_map. assumption.
  Qed.
End Once.

(** ** The error about too few branches *)

Section Few.
  Variables (hash : node -> N) (ta : bool) (n : nat).
  Notation R := (engine hash ta n).

  (** The code ends in [;], so that only marker macros count. *)
  Definition ends_in_semi (i : input) : bool :=
    match i with InStmt (SExpr _ semi) => semi | _ => false end.

  (** What an expansion does about too few branches, if it finds no nested attribute. *)
  Definition few_exact (semi : bool) (cx cx' : ctx) : Prop :=
    cx_has_child cx' = true
    \/ exists de, cx_errs cx' = cx_errs cx ++ de
       /\ (existsb few de = false
           \/ (cx_errs cx = [] /\ de = [ErrFewVariants (length (cx_variants cx') =? 1)%nat semi]
               /\ length (cx_variants cx') < 2)).

  Lemma few_of_no_few semi cx cx' : no_few cx cx' -> few_exact semi cx cx'.
  Proof. intros [_ [H|(de & E & F)]]; [left; assumption|right]. eauto. Qed.

  Lemma build_few {A} f (x : A) cx0 cx x' cx' :
    no_few cx0 cx -> build f x cx = ROk (x', cx') ->
    few_exact (match cx_last cx with LNever => true | LDefault => false end) cx0 cx'.
  Proof.
    intros [_ [NF|(de & E & F)]] H.
    - unfold build in H. left. destruct (has_error cx); [inversion H; subst; assumption|].
      destruct (length (cx_variants cx)) as [|[|k]]; [rewrite NF in H| |]; minv; try (inversion H; subst); assumption.
    - unfold build, has_error in H. destruct (cx_errs cx) eqn:EE.
      + symmetry in E. apply app_nil_inv in E. destruct E as [E0 ->].
        destruct (cx_variants cx) as [|v1 [|v2 r]] eqn:V; cbn [length] in H.
        * destruct (cx_has_child cx) eqn:C; [left; inversion H; subst; assumption|].
          minv. right. eexists. split; [cbn; rewrite EE, E0; reflexivity|].
          right. unfold variant_is_empty. cbn. rewrite V. cbn. auto.
        * minv. right. eexists. split; [cbn; rewrite EE, E0; reflexivity|].
          right. unfold variant_is_empty. cbn. rewrite V. cbn. auto.
        * inversion H; subst. right. exists []. rewrite EE, E0. auto.
      + inversion H; subst. right. exists de. rewrite EE. split; [assumption|left; assumption].
  Qed.

  Lemma no_few_refl cx : no_few cx cx.
  Proof. apply no_few_same; reflexivity. Qed.

  Lemma no_few_err e cx : few e = false -> no_few cx (set_errs (cx_errs cx ++ [e]) cx).
  Proof. intros F. split; [auto|]. right. exists [e]. cbn. rewrite F. auto. Qed.

  Lemma few_trans semi a b c : no_few a b -> cx_errs b = cx_errs a -> few_exact semi b c -> few_exact semi a c.
  Proof.
    intros N E [H|(de & E1 & H)]; [left; assumption|right].
    exists de. rewrite <- E. auto.
  Qed.

  Lemma expand_body_no_few e : pres no_few (expand_body ta R e).
  Proof.
    unfold expand_body. apply pres_bind; [apply no_few_trans|apply child_expr_no_few|]. intros e1.
    apply pres_bind; [apply no_few_trans|apply pres_gets; apply no_few_refl|].
    intros []; [apply dummy_no_few|apply visitor_no_few].
  Qed.

  Lemma no_few_mode m cx : no_few cx (set_mode m cx).
  Proof. apply no_few_same; reflexivity. Qed.

  Lemma expand_expr_no_few e : pres no_few (expand_expr ta R e).
  Proof.
    unfold expand_expr. apply pres_bind; [apply no_few_trans|apply pres_gets; apply no_few_refl|].
    intros vl. destruct e; try apply expand_body_no_few.
    destruct vl; [|apply expand_body_no_few].
    apply pres_bind; [apply no_few_trans|apply pres_gets; apply no_few_refl|]. intros cnt.
    apply pres_bind; [apply no_few_trans|apply pres_modify; intros; apply no_few_mode|]. intros _.
    apply pres_bind; [apply no_few_trans|apply expand_body_no_few|]. intros.
    apply pres_ret. apply no_few_refl.
  Qed.

  Lemma expand_expr_last e : pres (fun cx cx' => cx_last cx' = cx_last cx) (expand_expr ta R e).
  Proof.
    assert (T : forall a b c : ctx, cx_last b = cx_last a -> cx_last c = cx_last b -> cx_last c = cx_last a)
      by (intros; congruence).
    assert (B : forall e, pres (fun cx cx' => cx_last cx' = cx_last cx) (expand_body ta R e)).
    { intros x. unfold expand_body. apply pres_bind; [apply T| |].
      - intros cx a cx' H. apply child_expr_frame in H. apply H.
      - intros e1. apply pres_bind; [apply T|apply pres_gets; reflexivity|]. intros [] cx a cx' H.
        + apply dummy_frame in H. apply H.
        + apply visitor_frame in H. apply H. }
    unfold expand_expr. apply pres_bind; [apply T|apply pres_gets; reflexivity|].
    intros vl. destruct e; try apply B. destruct vl; [|apply B].
    apply pres_bind; [apply T|apply pres_gets; reflexivity|]. intros cnt.
    apply pres_bind; [apply T|apply pres_modify; reflexivity|]. intros _.
    apply pres_bind; [apply T|apply B|]. intros. apply pres_ret. reflexivity.
  Qed.

  Lemma parent_expr_few e b cx e' cx' :
    expand_parent_expr ta R e b cx = ROk (e', cx') -> cx_last cx = LDefault -> few_exact b cx cx'.
  Proof.
    intros H L. unfold expand_parent_expr in H.
    apply bind_ok in H. destruct H as (u & cxa & H0 & H).
    assert (Na : no_few cx cxa /\ cx_errs cxa = cx_errs cx
                 /\ match cx_last cxa with LNever => true | LDefault => false end = b).
    { destruct b; minv; cbn; rewrite ?L; split; auto using no_few_same. }
    destruct Na as (Na & Ea & La). clear H0. apply (few_trans _ _ _ _ Na Ea).
    minv. destruct (is_dummy cxa).
    - minv. apply few_of_no_few. exact (proj1 (dummy_no_few hash ta n) _ _ _ _ H).
    - apply bind_ok in H. destruct H as (e1 & cx1 & H1 & H).
      rewrite <- La. rewrite <- (expand_expr_last _ _ _ _ H1).
      eapply build_few; [|eassumption]. eapply expand_expr_no_few. eassumption.
  Qed.

  Lemma map_last_no_few b : pres no_few (map_last_expr child_expr b).
  Proof.
    apply map_last_pres; [apply no_few_refl|apply no_few_trans|].
    apply Forall_forall. intros [] _; try exact I. apply child_expr_no_few.
  Qed.

  Theorem expand_input_few i cx i' cx' :
    expand_input ta R i cx = ROk (i', cx') -> cx_last cx = LDefault -> few_exact (ends_in_semi i) cx cx'.
  Proof.
    intros H L. unfold expand_input in H. destruct i as [s|e|].
    - apply bind_ok in H. destruct H as (s' & cx9 & H & H2). minv.
      destruct s as [l|it|e semi|a m semi]; cbn [ends_in_semi].
      + cbn [expand_parent_stmt] in H. apply bind_ok in H. destruct H as (l' & cx8 & H & H2). minv.
        destruct l as [a p t i d]. unfold expand_parent_local in H.
        apply bind_ok in H. destruct H as (t' & cxa & H0 & H).
        assert (Na : no_few cx cxa /\ cx_errs cxa = cx_errs cx /\ cx_last cxa = LDefault).
        { unfold local_ty in H0. destruct ta; [|minv; auto using no_few_refl].
          destruct t as [t0|]; [|minv; auto using no_few_refl].
          apply bind_ok in H0. destruct H0 as ([tr fd] & cxb & Hb & H0). minv.
          split; [apply no_few_same; reflexivity|auto]. }
        destruct Na as (Na & Ea & La). apply (few_trans _ _ _ _ Na Ea). clear H0. minv.
        destruct (is_dummy cxa).
        * minv. apply few_of_no_few. eapply walk_local_pres in H;
            [exact H|apply no_few_refl|apply no_few_trans|apply dummy_no_few].
        * destruct i as [e|]; [|minv; apply few_of_no_few; apply no_few_err; reflexivity].
          apply bind_ok in H. destruct H as (e1 & cxb & H1 & H).
          apply bind_ok in H. destruct H as (e2 & cxc & H2 & H). minv.
          replace false with (match cx_last cxb with LNever => true | LDefault => false end)
            by (rewrite (expand_expr_last _ _ _ _ H1), La; reflexivity).
          eapply build_few; [|eassumption]. eapply expand_expr_no_few. eassumption.
      + cbn [expand_parent_stmt] in H. destruct it as [a sg out b| |];
          [|minv; apply few_of_no_few; apply no_few_err; reflexivity
           |minv; apply few_of_no_few; apply no_few_err; reflexivity].
        apply bind_ok in H. destruct H as (b' & cx8 & H & H2). minv.
        unfold expand_parent_item_fn in H.
        apply bind_ok in H. destruct H as (u1 & cxa & H1 & H).
        apply bind_ok in H. destruct H as (u2 & cxb & H2 & H).
        assert (Na : no_few cx cxa /\ cx_errs cxa = cx_errs cx /\ cx_last cxa = LDefault).
        { unfold fn_mode in H1. minv. rewrite L in H1.
          destruct out as [[| |]|]; try (minv; auto using no_few_refl, no_few_mode; fail);
            (destruct (is_result_impl _); [|minv; auto using no_few_refl]; minv;
             destruct (2 <=? _)%nat; minv; auto using no_few_refl, no_few_mode). }
        assert (Nb : no_few cxa cxb /\ cx_errs cxb = cx_errs cxa /\ cx_last cxb = cx_last cxa).
        { unfold fn_collect in H2. destruct ta; [|minv; auto using no_few_refl].
          destruct out; [|minv; auto using no_few_refl].
          apply bind_ok in H2. destruct H2 as ([tr fd] & cxd & Hb & H2). minv.
          split; [apply no_few_same; reflexivity|auto]. }
        destruct Na as (Na & Ea & La), Nb as (Nb & Eb & Lb).
        apply (few_trans _ _ _ _ Na Ea), (few_trans _ _ _ _ Nb Eb). rewrite La in Lb.
        apply bind_ok in H. destruct H as (d & cxc & H3 & H). apply gets_ok in H3. destruct H3 as [-> ->].
        destruct (is_dummy cxb).
        * minv. apply few_of_no_few. eapply pres_mapM_all in H;
            [exact H|apply no_few_refl|apply no_few_trans|apply dummy_no_few].
        * apply bind_ok in H. destruct H as (b1 & cxd & H3 & H).
          apply bind_ok in H. destruct H as (d & cxe & H4 & H). apply gets_ok in H4. destruct H4 as [-> ->].
          assert (Nd : no_few cxb cxd /\ cx_last cxd = LDefault).
          { destruct b as [|s0 r].
            - minv. split; [apply no_few_err; reflexivity|assumption].
            - split; [eapply map_last_no_few; eassumption|].
              assert (PR : pres same_mode (map_last_expr child_expr (s0 :: r))).
              { apply map_last_pres; [apply same_mode_refl|apply same_mode_trans|].
                apply Forall_forall. intros [] _; try exact I. apply child_expr_frame. }
              apply PR in H3. destruct H3 as (_ & E & _). congruence. }
          destruct Nd as [Nd Ld]. destruct (ta_dummy ta cxd).
          -- apply few_of_no_few. eapply no_few_trans; [exact Nd|].
             eapply pres_mapM_all in H; [exact H|apply no_few_refl|apply no_few_trans|apply dummy_no_few].
          -- apply bind_ok in H. destruct H as (b2 & cxf & H5 & H).
             replace false with (match cx_last cxf with LNever => true | LDefault => false end).
             ++ eapply build_few; [|eassumption]. eapply no_few_trans; [exact Nd|].
                eapply pres_mapM_all in H5; [exact H5|apply no_few_refl|apply no_few_trans|apply visitor_no_few].
             ++ eapply pres_mapM_all in H5; [|apply same_mode_refl|apply same_mode_trans|apply visitor_frame].
                destruct H5 as (_ & E & _). rewrite E, Ld. reflexivity.
      + cbn [expand_parent_stmt] in H. apply bind_ok in H. destruct H as (e' & cx8 & H & H2). minv.
        eapply parent_expr_few; eassumption.
      + cbn [expand_parent_stmt] in H. minv. apply few_of_no_few, no_few_refl.
    - apply bind_ok in H. destruct H as (e' & cx1 & H & H2). minv. eapply parent_expr_few; eassumption.
    - minv. apply few_of_no_few. eapply no_few_trans; [apply (no_few_err ErrInputSyntax)|apply no_few_err]; reflexivity.
  Qed.

  Theorem few_error_exact args i l one semi :
    attribute hash ta n args i = ROk (Errors l) -> names_input i = [] ->
    In (ErrFewVariants one semi) l ->
    l = [ErrFewVariants one semi] /\ semi = ends_in_semi i
    /\ exists cx0 i' cx', ctx_root (enum_name (hash (NInput i))) args = inr cx0
       /\ expand_input ta R i cx0 = ROk (i', cx') /\ length (cx_variants cx') = if one then 1 else 0.
  Proof.
    unfold attribute. destruct (ctx_root _ args) as [e|cx] eqn:EC.
    - intros H _ HI. inversion H; subst. destruct HI as [->|[]]. unfold ctx_root, ctx_new in EC.
      destruct (parse_args args) as [er|[ps [m|]]] eqn:EP; inversion EC; subst.
      exfalso. clear -EP. unfold parse_args in EP. revert EP. generalize (S (length args)), (@nil path), (@None string).
      intros k. revert args. induction k; cbn; [discriminate|].
      intros toks ar mk. destruct toks; [discriminate|].
      destruct (peek_marker _) as [[|[s| | | |s] r]|]; try discriminate.
      + destruct mk; [discriminate|]. destruct r as [|[] r]; try discriminate. apply IHk.
      + destruct (parse_path _) as [[p r]|]; [|discriminate]. destruct r as [|[] r]; try discriminate. apply IHk.
    - intros H NI HI. destruct (expand_input _ _ i cx) as [[j cxj]| |] eqn:EI; try discriminate.
      destruct (expand_run _ _ _ _ _ _ _ _ EC EI) as (B & _).
      pose proof EC as EC0. unfold ctx_root in EC. apply ctx_new_ok in EC.
      destruct EC as (cur & ps & m & EP & Ec & _ & ->).
      assert (HL : l = cx_errs cxj) by (destruct (cx_errs cxj); inversion H; reflexivity).
      destruct (expand_input_few _ _ _ _ EI eq_refl) as [C|(de & E & F)].
      + destruct (b_child2 _ _ B C) as [X|X]; [discriminate|contradiction].
      + cbn in E. rewrite E in HL. clear E H. subst l. destruct F as [F|(_ & F & LV)].
        * exfalso. assert (T : existsb few de = true); [|congruence].
          apply existsb_exists. eexists. split; [eassumption|reflexivity].
        * subst de. destruct HI as [HI|[]]. inversion HI; subst. repeat split.
          eexists _, j, cxj. split; [reflexivity|]. split; [exact EI|].
          destruct (length (cx_variants cxj)) as [|[|k]]; try reflexivity. lia.
  Qed.
End Few.
