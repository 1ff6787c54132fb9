(** Contexts without their state; runs of [child_expr] that report no error are in the relations of Twin.v. *)

Require Import Coq.Strings.String Coq.Lists.List Coq.Bool.Bool Coq.Arith.Arith Coq.NArith.NArith Lia.
Require Import Verif.Syntax Verif.Context Verif.ExprModel Verif.TypeAnalysis Verif.AutoEnum Verif.Edits.
Require Import Verif.AstInd Verif.RunLemmas Verif.EditsRun Verif.VisitRun Verif.Twin.
Import ListNotations.
Open Scope string_scope.
Open Scope list_scope.

(** ** Errors stay *)

(** If there is no error at the end there was none at the start. *)
Definition mono {A} (m : M A) : Prop :=
  forall cx a cx', m cx = ROk (a, cx') -> cx_errs cx' = [] -> cx_errs cx = [].

Lemma mono_ret {A} (a : A) : mono (ret a).
Proof. intros cx b cx' E N. apply ret_ok in E. destruct E as [_ ->]. assumption. Qed.
Lemma mono_bind {A B} (m : M A) (k : A -> M B) : mono m -> (forall a, mono (k a)) -> mono (bind m k).
Proof. intros H1 H2 cx b cx' E N. apply bind_ok in E. destruct E as (a & c & E1 & E2). exact (H1 _ _ _ E1 (H2 _ _ _ _ E2 N)). Qed.
Lemma mono_gets {A} (f : ctx -> A) : mono (gets f).
Proof. intros cx b cx' E N. apply gets_ok in E. destruct E as [_ ->]. assumption. Qed.
Lemma mono_massert f s : mono (massert f s).
Proof. intros cx b cx' E N. apply massert_ok in E. destruct E as (_ & _ & ->). assumption. Qed.
Lemma mono_modify f : (forall cx, cx_errs (f cx) = cx_errs cx) -> mono (modify f).
Proof. intros H cx b cx' E N. apply modify_ok in E. destruct E as (_ & ->). rewrite H in N. assumption. Qed.
Lemma mono_error e : mono (error e).
Proof. intros cx b cx' E N. apply error_ok in E. destruct E as [_ ->]. cbn in N. destruct (cx_errs cx); discriminate. Qed.
Lemma mono_fuel {A} : mono (@out_of_fuel A).
Proof. intros cx b cx' E. discriminate. Qed.
Lemma mono_panic {A} s : mono (@panic A s).
Proof. intros cx b cx' E. discriminate. Qed.
Lemma mono_next a e : mono (next_expr_with_attrs a e).
Proof. intros cx b cx' E N. apply next_expr_attrs_ok in E. destruct E as [_ ->]. exact N. Qed.
Lemma mono_replace o : mono (replace_boxed_expr o).
Proof.
  intros cx b cx'. unfold replace_boxed_expr. destruct (is_marker_expr cx _); intros H N; [inversion H; subst; assumption|].
  minv. eapply mono_next; eassumption.
Qed.
Lemma mono_mapM {A B} (f : A -> M B) l : Forall (fun x => mono (f x)) l -> mono (mapM f l).
Proof. induction 1; cbn [mapM]; [apply mono_ret|]. apply mono_bind; [assumption|]. intros. apply mono_bind; [assumption|]. intros; apply mono_ret. Qed.
Lemma mono_mapM_all {A B} (f : A -> M B) l : (forall x, mono (f x)) -> mono (mapM f l).
Proof. intros H. apply mono_mapM. apply Forall_forall. auto. Qed.
Lemma mono_optM {A B} (f : A -> M B) o : opt_all (fun x => mono (f x)) o -> mono (optM f o).
Proof. destruct o; cbn; intros H; [|apply mono_ret]. apply mono_bind; [assumption|]. intros; apply mono_ret. Qed.
Lemma mono_optM_all {A B} (f : A -> M B) o : (forall x, mono (f x)) -> mono (optM f o).
Proof. intros H. apply mono_optM. destruct o; cbn; auto. Qed.

Ltac mn := repeat first
  [ assumption
  | match goal with
    | |- mono (bind _ _) => apply mono_bind
    | |- mono (ret _) => apply mono_ret
    | |- mono (gets _) => apply mono_gets
    | |- mono (massert _ _) => apply mono_massert
    | |- mono (error _) => apply mono_error
    | |- mono (modify _) => apply mono_modify; reflexivity
    | |- mono out_of_fuel => apply mono_fuel
    | |- mono (panic _) => apply mono_panic
    | |- mono (next_expr_with_attrs _ _) => apply mono_next
    | |- mono (next_expr _) => apply mono_next
    | |- mono (replace_boxed_expr _) => apply mono_replace
    | |- mono (optM _ _) => apply mono_optM_all
    | |- mono (mapM _ _) => apply mono_mapM_all
    | |- mono (match ?x with _ => _ end) => destruct x
    | H : forall _, mono _ |- mono _ => apply H
    | H : forall _ _, mono _ |- mono _ => apply H
    | H : forall _ _ _, mono _ |- mono _ => apply H
    | |- forall _, _ => intro
    end ].

Lemma mono_walk_arm f x : (forall e, mono (f e)) -> mono (walk_arm f x).
Proof. intros H. destruct x. cbn [walk_arm]. mn. Qed.
Lemma mono_walk_local f x : (forall e, mono (f e)) -> mono (walk_local f x).
Proof. intros H. destruct x. cbn [walk_local]. mn. Qed.
Lemma mono_walk_stmt fe fl s : (forall e, mono (fe e)) -> (forall e, mono (fl e)) -> mono (walk_stmt fe fl s).
Proof. intros H1 H2. destruct s; cbn [walk_stmt]; mn. Qed.
Lemma mono_walk V e :
  (forall x, mono (on_expr V x)) -> (forall x, mono (on_stmt V x)) -> (forall x, mono (on_arm V x)) ->
  mono (walk_expr V e).
Proof. intros H1 H2 H3. destruct e; cbn [walk_expr]; mn. Qed.

Lemma mono_loop :
  (forall e label nested, mono (loop_expr label nested e))
  /\ (forall s label nested, mono (loop_stmt label nested s))
  /\ (forall x label nested, mono (loop_arm label nested x))
  /\ (forall x label nested, mono (loop_local label nested x)).
Proof.
  assert (L : forall A (f : option string -> bool -> A -> M A) l label nested,
             Forall (fun x => forall la n, mono (f la n x)) l -> mono (mapM (f label nested) l)).
  { intros. apply mono_mapM. eapply Forall_impl; [|eassumption]. cbn. auto. }
  assert (O : forall A (f : option string -> bool -> A -> M A) o label nested,
             opt_all (fun x => forall la n, mono (f la n x)) o -> mono (optM (f label nested) o)).
  { intros. apply mono_optM. destruct o; cbn in *; auto. }
  apply ast_ind; intros; cbn [loop_expr loop_stmt loop_arm loop_local e_attrs];
    try (destruct (any_empty_attr a NEVER); [apply mono_ret|]);
    cbn [walk_expr walk_stmt walk_arm walk_local on_expr on_stmt on_arm on_local];
    try (destruct k); try (destruct label); cbn [walk_expr on_expr on_stmt on_arm on_local];
    try solve [ repeat first [ apply mono_bind | apply mono_ret | apply L; assumption | apply O; assumption
                 | match goal with H : _ |- _ => apply H end
                 | match goal with |- forall _, _ => intro end ] ].
  - destruct (_ || _); [|apply mono_bind; [apply O; assumption|intros; apply mono_ret]].
    destruct e as [y|]; mn; try (apply H).
  - destruct (_ || _); [|apply mono_bind; [apply O; assumption|intros; apply mono_ret]].
    destruct e as [y|]; mn; try (apply H).
Qed.

Lemma mono_last_block b : mono (visit_last_block b).
Proof. unfold visit_last_block. mn. Qed.

Lemma mono_last_if : forall e, mono (visit_last_expr_if e).
Proof.
  destruct (ast_ind (fun e => mono (visit_last_expr_if e)) (fun _ => True) (fun _ => True) (fun _ => True)) as (H & _);
    [..|exact H]; cbv beta; intros; try exact I; cbn [visit_last_expr_if]; try apply mono_ret.
  apply mono_bind; [apply mono_last_block|intros].
  apply mono_bind; [|intros; apply mono_ret].
  destruct els as [els|]; [|mn]. cbn in H1.
  destruct els; try apply mono_panic.
  - apply mono_bind; [apply mono_last_block|intros; apply mono_ret].
  - apply mono_bind; [exact H1|intros; apply mono_ret].
Qed.

Lemma mono_map_last f b :
  Forall (fun s => match s with SExpr e _ => mono (f e) | _ => True end) b -> mono (map_last_expr f b).
Proof.
  induction 1 as [|s b H _ IH]; cbn [map_last_expr]; [apply mono_ret|].
  destruct b; [|apply mono_bind; [exact IH|intros; apply mono_ret]].
  destruct s as [| |e []|]; mn.
Qed.

Lemma mono_visit_arm x : mono (visit_last_arm x).
Proof. unfold visit_last_arm. mn. Qed.

Lemma mono_child : forall e, mono (child_expr e).
Proof.
  destruct (ast_ind (fun e => mono (child_expr e))
    (fun s => match s with SExpr e _ => mono (child_expr e) | _ => True end)
    (fun _ => True) (fun _ => True)) as (H & _); [..|exact H]; cbv beta; intros; try exact I; try assumption;
    cbn [child_expr]; (apply mono_bind; [apply mono_gets|intros []; [apply mono_ret|]]); try apply mono_ret.
  - apply mono_bind; [apply mono_map_last; assumption|intros; apply mono_ret].
  - destruct k; try apply mono_ret. apply mono_bind; [apply mono_map_last; assumption|intros; apply mono_ret].
  - apply mono_bind; [apply mono_mapM_all; intros; apply mono_visit_arm|intros; apply mono_ret].
  - apply mono_last_if.
  - apply mono_bind; [apply mono_mapM_all; intros; apply mono_loop|intros; apply mono_ret].
  - mn.
  - mn.
Qed.

(** Engines whose functions keep errors. *)
Record emono (R : engine_t) : Prop := EMono {
  em_vexpr : forall sc b e, mono (r_vexpr R sc b e);
  em_vstmt : forall sc s, mono (r_vstmt R sc s);
  em_varm : forall sc x, mono (r_varm R sc x);
  em_vlocal : forall sc x, mono (r_vlocal R sc x);
  em_dexpr : forall e, mono (r_dexpr R e);
  em_dstmt : forall s, mono (r_dstmt R s)
}.

Section Mono.
  Variables (hash : node -> N) (ta : bool) (R : engine_t).
  Hypothesis G : emono R.

  Ltac mr := mn; repeat first
    [ apply (em_vexpr _ G) | apply (em_vstmt _ G) | apply (em_varm _ G) | apply (em_vlocal _ G)
    | apply (em_dexpr _ G) | apply (em_dstmt _ G) | apply mono_child ].

  Lemma mono_build {A} f (x : A) : mono (build f x).
  Proof.
    intros cx x' cx'. unfold build. destruct (has_error cx); [intros H N; inversion H; subst; assumption|].
    destruct (length _) as [|[|]]; [destruct (cx_has_child cx)| |]; intros H N;
      try (inversion H; subst; assumption); minv; cbn in N; destruct (cx_errs cx); discriminate.
  Qed.

  Lemma mono_body e : mono (expand_body ta R e).
  Proof. unfold expand_body. mr. Qed.
  Lemma mono_expand e : mono (expand_expr ta R e).
  Proof. unfold expand_expr. mn; apply mono_body. Qed.
  Lemma mono_parent_expr e b : mono (expand_parent_expr ta R e b).
  Proof. unfold expand_parent_expr. mr; [apply mono_expand|apply mono_build]. Qed.
  Lemma mono_local_ty t : mono (local_ty ta t).
  Proof. unfold local_ty. mn. Qed.
  Lemma mono_parent_local l : mono (expand_parent_local ta R l).
  Proof.
    unfold expand_parent_local. destruct l. apply mono_bind; [apply mono_local_ty|intros].
    mn; try apply mono_walk_local; mr; try apply mono_expand; try apply mono_build.
  Qed.
  Lemma mono_parent_fn out b : mono (expand_parent_item_fn ta R out b).
  Proof.
    unfold expand_parent_item_fn, fn_mode, fn_collect.
    apply mono_bind; [mn|intros]. apply mono_bind; [mn|intros]. apply mono_bind; [mn|intros [|]].
    - mr.
    - apply mono_bind.
      + destruct b; [mn|]. apply mono_map_last. apply Forall_forall. intros [] _; auto. apply mono_child.
      + intros. mr. apply mono_build.
  Qed.
  Lemma mono_parent_stmt s : mono (expand_parent_stmt ta R s).
  Proof.
    destruct s as [|[]| |]; cbn [expand_parent_stmt]; mn;
      [apply mono_parent_local|apply mono_parent_fn|apply mono_parent_expr].
  Qed.

  (** A run in a nested context: the errors of the outer one are moved into it. *)
  Lemma mono_nested_run {A} i toks (w : M A) (g : A -> M A) :
    mono w -> (forall x, mono (g x)) ->
    mono (r <- make_child i toks ;; x <- w ;;
          match r with inl er => error er ;;; ret x | inr child => in_child child (g x) end).
  Proof.
    intros W Hg cx a cx' H N. apply bind_ok in H. destruct H as (r & c1 & H1 & H).
    apply bind_ok in H. destruct H as (x & c2 & H2 & H).
    unfold make_child in H1. minv. destruct (ctx_new _ _ _ _ _) as [er|child] eqn:C.
    - minv. cbn in N. destruct (cx_errs c2); discriminate.
    - unfold in_child in H. destruct (g x child) as [[y c']| |] eqn:X; try discriminate.
      unfold join_child in H. minv. cbn in N. apply app_nil_inv in N. destruct N as [_ N].
      apply Hg in X. specialize (X N). unfold ctx_new in C.
      destruct (parse_args toks) as [|[ps mo]]; [discriminate|].
      destruct (match mo with Some _ => _ | None => _ end) as [|cur]; [discriminate|]. inversion C; subst. exact X.
  Qed.

  Lemma mono_fail_run {A B} (r : M (err + ctx)) (w : M A) (g : ctx -> A -> M B) (h : A -> M B) er :
    r = ret (inl er) -> mono w -> (forall x, mono (h x)) ->
    mono (r <- r ;; x <- w ;; match r with inl er => h x | inr child => g child x end).
  Proof. intros -> W Hh. change (mono (x <- w ;; h x)). apply mono_bind; assumption. Qed.

  Lemma mono_vs_expr V e b :
    (forall x, mono (on_expr V x)) -> (forall x, mono (on_stmt V x)) -> (forall x, mono (on_arm V x)) ->
    mono (vs_visit_expr hash ta R V e b).
  Proof.
    intros H1 H2 H3. unfold vs_visit_expr.
    destruct (find_remove_attr (e_attrs e) NAME) as [[at_ a']|]; [|apply mono_walk; assumption].
    assert (W : mono (walk_expr V (set_attrs e a'))) by (apply mono_walk; assumption).
    destruct at_ as [p|p toks|p v].
    - change (mono (x <- walk_expr V (set_attrs e a') ;; (error ErrExpectedList ;;; ret x))). mn.
    - apply mono_nested_run; [exact W|]. intros; apply mono_parent_expr.
    - change (mono (x <- walk_expr V (set_attrs e a') ;; (error ErrExpectedList ;;; ret x))). mn.
  Qed.

  Lemma mono_vs_stmt V s :
    (forall x, mono (on_expr V x)) -> (forall x, mono (on_stmt V x)) -> (forall x, mono (on_arm V x)) ->
    (forall x, mono (on_local V x)) -> mono (vs_visit_stmt hash ta R V s).
  Proof.
    intros H1 H2 H3 H4. destruct s as [[a p t i d]| | |]; cbn [vs_visit_stmt].
    - destruct (find_remove_attr a NAME) as [[at_ a']|]; [|apply mono_walk_stmt; assumption].
      assert (W : mono (walk_stmt (on_expr V) (on_local V) (SLocal (Local a' p t i d))))
        by (apply mono_walk_stmt; assumption).
      destruct at_ as [q|q toks|q v].
      + apply mono_nested_run; [exact W|]. intros; apply mono_parent_stmt.
      + apply mono_nested_run; [exact W|]. intros; apply mono_parent_stmt.
      + change (mono (x <- walk_stmt (on_expr V) (on_local V) (SLocal (Local a' p t i d)) ;;
                      (error ErrExpectedList ;;; ret x))). mn.
    - mn.
    - apply mono_bind; [apply mono_vs_expr; assumption|mn].
    - apply mono_walk_stmt; assumption.
  Qed.

  Lemma mono_attrs sc a : mono (find_remove_attrs sc a).
  Proof. unfold find_remove_attrs. mn. Qed.

  Lemma mono_unless {A} (x : A) m : mono m -> mono (unless_error x m).
  Proof. intros. unfold unless_error. mn. Qed.

  Lemma mono_nested sc e a : mono (visit_nested sc e a).
  Proof. unfold visit_nested. mn. apply mono_child. Qed.

  Lemma mono_note a : mono (note_child a).
  Proof. unfold note_child. mn. Qed.

  Lemma emono_step : emono (step hash ta R).
  Proof.
    split; intros; cbn [step r_vexpr r_vstmt r_varm r_vlocal r_dexpr r_dstmt]; apply mono_unless.
    - unfold visit_expr. apply mono_bind; [mn|intros]. apply mono_bind; [apply mono_note|intros].
      apply mono_bind; [mn|intros]. apply mono_bind; [unfold visit_return, visit_try; mn|intros].
      apply mono_bind; [|intros; apply mono_bind; [apply mono_vs_expr; cbn; unfold v_expr; intros; mr|]].
      + destruct (sc_foreign _); [mn|]. destruct (find_remove_attr _ _) as [[]|]; [|mn]. apply mono_nested.
      + intros. apply mono_bind; [mn|intros]. destruct (_ || _); [|mn].
        apply mono_bind; [unfold visit_marker_macro; mn|intros].
        unfold find_remove_attrs_expr. apply mono_bind; [apply mono_attrs|mn].
    - unfold visit_stmt. destruct s as [l|i|e semi|a m semi];
        try (apply mono_bind; [apply mono_note|intros; apply mono_vs_stmt; cbn; unfold v_expr; intros; mr]).
      mr.
    - unfold visit_arm. destruct x. apply mono_bind.
      + destruct (sc_foreign _); [mn|]. destruct (find_remove_attr _ _) as [[]|]; [|mn].
        apply mono_bind; [apply mono_nested|mn].
      + intros. apply mono_bind; [apply mono_walk_arm; unfold v_expr; intros; mr|].
        intros []. apply mono_bind; [apply mono_attrs|mn].
    - unfold visit_local. destruct x. apply mono_bind.
      + destruct (sc_foreign _); [mn|]. destruct (find_remove_attr _ _) as [[]|]; [|mn].
        apply mono_bind; [apply mono_optM_all; intros; apply mono_nested|mn].
      + intros. apply mono_bind; [apply mono_walk_local; unfold v_expr; intros; mr|].
        intros []. apply mono_bind; [apply mono_attrs|mn].
    - unfold dummy_expr. apply mono_bind; [apply mono_note|intros].
      apply mono_vs_expr; cbn; intros; mr. apply mono_walk_arm. apply (em_dexpr _ G).
    - unfold dummy_stmt. apply mono_bind; [apply mono_note|intros].
      apply mono_vs_stmt; cbn; intros; mr; [apply mono_walk_arm|apply mono_walk_local]; apply (em_dexpr _ G).
  Qed.
End Mono.

Lemma emono_engine hash ta n : emono (engine hash ta n).
Proof. induction n; [split; intros; apply mono_fuel|]. cbn [engine]. apply emono_step. assumption. Qed.

(** ** The constant part of a context *)

Record st (cx P : ctx) : Prop := St {
  st_ident : cx_ident cx = cx_ident P;
  st_marker : cx_marker cx = cx_marker P;
  st_markers : cx_markers cx = cx_markers P;
  st_root : cx_root cx = cx_root P;
  st_mode : cx_mode cx = cx_mode P;
  st_last : cx_last cx = cx_last P;
  st_args : cx_args cx = cx_args P;
  st_traits : cx_traits cx = cx_traits P;
  st_vars : cx_variants cx = variants (length (cx_variants cx))
}.

Lemma st_new i toks r mk d cx : ctx_new i toks r mk d = inr cx -> st cx cx.
Proof.
  unfold ctx_new. destruct (parse_args toks) as [|[ps mo]]; [discriminate|].
  destruct (match mo with Some _ => _ | None => _ end) as [|cur]; [discriminate|]. intros H; inversion H; subst. split; reflexivity.
Qed.

Lemma st_next cx P : st cx P -> st (set_variants (cx_variants cx ++ [variant_name (length (cx_variants cx))]) cx) P.
Proof.
  intros []. split; try assumption. cbn. rewrite app_length. cbn. unfold variants. rewrite seq_app, map_app. cbn.
  fold (variants (length (cx_variants cx))). rewrite <- st_vars0. reflexivity.
Qed.

Section Static.
  Variables (cx P : ctx).
  Hypothesis S : st cx P.

  Lemma s_visit_last : visit_last cx = visit_last P.
  Proof. unfold visit_last. rewrite (st_last _ _ S), (st_mode _ _ S). reflexivity. Qed.
  Lemma s_is_dummy : is_dummy cx = is_dummy P.
  Proof. unfold is_dummy. rewrite (st_args _ _ S), (st_traits _ _ S). reflexivity. Qed.
  Lemma s_marker_macro m : is_marker_macro cx m = is_marker_macro P m.
  Proof. unfold is_marker_macro, is_marker_macro_exact. rewrite (st_marker _ _ S), (st_root _ _ S), (st_markers _ _ S). reflexivity. Qed.
  Lemma s_marker_expr e : is_marker_expr cx e = is_marker_expr P e.
  Proof. destruct e; try reflexivity. apply s_marker_macro. Qed.

  Lemma s_on_last {A} (f g : stmt -> A) d b : Forall (fun s => f s = g s) b -> on_last f d b = on_last g d b.
  Proof. induction 1 as [|x l E F IH]; [reflexivity|]. cbn [on_last]. destruct l; [exact E|exact IH]. Qed.

  Lemma s_unreachable_both :
    (forall e, is_unreachable cx e = is_unreachable P e)
    /\ (forall s, is_unreachable_stmt cx s = is_unreachable_stmt P s)
    /\ (forall x, match x with Arm _ _ _ b _ => is_unreachable cx b = is_unreachable P b end)
    /\ (forall x, match x with Local _ _ _ (Some e) _ => is_unreachable cx e = is_unreachable P e | _ => True end).
  Proof.
    apply ast_ind; intros; cbn [is_unreachable is_unreachable_stmt e_attrs]; try reflexivity; try assumption;
      try (destruct (any_empty_attr a NEVER || any_attr a NAME); [reflexivity|]);
      try reflexivity; try assumption.
    - apply s_on_last. assumption.
    - destruct k; try reflexivity. apply s_on_last. assumption.
    - induction H0 as [|[]]; [reflexivity|]. cbn [forallb]. congruence.
    - unfold is_unreachable_macro. rewrite s_marker_macro. reflexivity.
    - destruct l as [? ? ? [] ?]; assumption || reflexivity.
    - unfold is_unreachable_macro. rewrite s_marker_macro. reflexivity.
  Qed.
  Lemma s_unreachable e : is_unreachable cx e = is_unreachable P e.
  Proof. apply s_unreachable_both. Qed.
  Lemma s_unreachable_stmt e : is_unreachable_stmt cx e = is_unreachable_stmt P e.
  Proof. apply s_unreachable_both. Qed.

  Lemma s_skip_arm x : skip_arm cx x = skip_arm P x.
  Proof. destruct x. unfold skip_arm. rewrite s_unreachable. reflexivity. Qed.
  Lemma s_skip_block b : skip_block cx b = skip_block P b.
  Proof.
    unfold skip_block. apply s_on_last. apply Forall_forall. intros s _.
    destruct s as [| |? []|]; rewrite ?s_unreachable, ?s_unreachable_stmt; reflexivity.
  Qed.

  Lemma s_fold_list {A B} (plus : A -> A -> A) z (f g : B -> A) l :
    Forall (fun s => f s = g s) l -> fold_list plus z f l = fold_list plus z g l.
  Proof. induction 1 as [|x l E F IH]; [reflexivity|]. cbn. rewrite E. unfold fold_list in IH. rewrite IH. reflexivity. Qed.
  Lemma s_fold_opt {A B} (z : A) (f g : B -> A) o :
    opt_all (fun s => f s = g s) o -> fold_opt z f o = fold_opt z g o.
  Proof. destruct o; auto. Qed.

  Lemma s_count_node e : fn_count_node cx e = fn_count_node P e.
  Proof.
    unfold fn_count_node. destruct (any_empty_attr _ _); [reflexivity|].
    destruct e; try reflexivity; [destruct e; [rewrite s_marker_expr|]; reflexivity|rewrite s_marker_expr; reflexivity].
  Qed.

  Lemma s_count_both :
    (forall e, fn_count_expr cx e = fn_count_expr P e)
    /\ (forall s, fn_count_stmt cx s = fn_count_stmt P s)
    /\ (forall x, fn_count_arm cx x = fn_count_arm P x)
    /\ (forall x, fn_count_local cx x = fn_count_local P x).
  Proof.
    apply ast_ind; intros; cbn [fn_count_expr fn_count_stmt fn_count_arm fn_count_local enters_closure
        fold_expr fold_stmt fold_arm fold_local]; rewrite ?s_count_node; try reflexivity; try assumption;
      repeat match goal with
             | H : Forall _ _ |- _ => apply (s_fold_list fc_plus fc_zero) in H; rewrite H; clear H
             | H : opt_all _ _ |- _ => apply (s_fold_opt fc_zero) in H; rewrite H; clear H
             | H : _ = _ |- _ => rewrite H; clear H
             end; reflexivity.
  Qed.
  Lemma s_count_expr e : visit_fn_expr cx e = visit_fn_expr P e.
  Proof. apply s_count_both. Qed.
  Lemma s_count_block b : visit_fn_block cx b = visit_fn_block P b.
  Proof. unfold visit_fn_block. apply s_fold_list. apply Forall_forall. intros; apply s_count_both. Qed.
End Static.

(** ** Runs and relations *)

(** In a run without errors from a context like [P] the result and a context like the final one are
    in [Q]. *)
Definition tw {A} (P : ctx) (m : M A) (Q : A -> ctx -> Prop) : Prop :=
  forall cx a cx', m cx = ROk (a, cx') -> cx_errs cx' = [] -> st cx P -> exists P', st cx' P' /\ Q a P'.

(** The final context is like [P] again. *)
Definition tk {A} (P : ctx) (m : M A) (Q : A -> Prop) : Prop := tw P m (fun a P' => P' = P /\ Q a).

Lemma tw_bind {A B} P (m : M A) (k : A -> M B) Q1 Q2 :
  tw P m Q1 -> (forall a, mono (k a)) -> (forall a P', Q1 a P' -> tw P' (k a) Q2) -> tw P (bind m k) Q2.
Proof.
  intros H1 Hm H2 cx b cx' E N S. apply bind_ok in E. destruct E as (a & c & E1 & E2).
  destruct (H1 _ _ _ E1 (Hm _ _ _ _ E2 N) S) as (P' & S' & q). eapply H2; eassumption.
Qed.

Lemma tk_bind {A B} P (m : M A) (k : A -> M B) Q1 Q2 :
  tk P m Q1 -> (forall a, mono (k a)) -> (forall a, Q1 a -> tw P (k a) Q2) -> tw P (bind m k) Q2.
Proof. intros H1 Hm H2. eapply tw_bind; [exact H1|exact Hm|]. cbv beta. intros a P' (-> & q). auto. Qed.

Lemma tw_weaken {A} P (m : M A) (Q1 Q2 : A -> ctx -> Prop) :
  tw P m Q1 -> (forall a P', Q1 a P' -> Q2 a P') -> tw P m Q2.
Proof. intros H1 H2 cx b cx' E N S. destruct (H1 _ _ _ E N S) as (P' & S' & q). eauto. Qed.

Lemma tw_ret {A} P (a : A) (Q : A -> ctx -> Prop) : Q a P -> tw P (ret a) Q.
Proof. intros H cx b cx' E N S. apply ret_ok in E. destruct E as [-> ->]. eauto. Qed.
Lemma tk_ret {A} P (a : A) (Q : A -> Prop) : Q a -> tk P (ret a) Q.
Proof. intros H. apply tw_ret. auto. Qed.
Lemma tk_gets {A} P (f : ctx -> A) : (forall cx, st cx P -> f cx = f P) -> tk P (gets f) (fun a => a = f P).
Proof. intros H cx b cx' E N S. apply gets_ok in E. destruct E as [-> ->]. eexists. split; [exact S|auto]. Qed.
Lemma tk_massert P f s : tk P (massert f s) (fun _ => True).
Proof. intros cx b cx' E N S. apply massert_ok in E. destruct E as (_ & -> & ->). eexists. split; [exact S|auto]. Qed.
Lemma tw_modify P P1 f : (forall cx, st cx P -> st (f cx) P1) -> tw P (modify f) (fun _ P' => P' = P1).
Proof. intros H cx b cx' E N S. apply modify_ok in E. destruct E as (-> & ->). exists P1. auto. Qed.
Lemma tw_error {A} P e (k : unit -> M A) Q : (forall a, mono (k a)) -> tw P (bind (error e) k) Q.
Proof.
  intros H cx b cx' E N S. apply bind_ok in E. destruct E as (a & c & E1 & E2).
  pose proof (H _ _ _ _ E2 N) as E3. apply error_ok in E1. destruct E1 as [_ ->]. cbn in E3. destruct (cx_errs cx); discriminate.
Qed.
Lemma tk_next P a e : tk P (next_expr_with_attrs a e)
  (fun e' => exists v, e' = ECall a (EPath [] false (ctor (cx_ident P) v)) [e]).
Proof.
  intros cx e' cx' E N S. apply next_expr_attrs_ok in E. destruct E as [-> ->]. exists P. split; [|split; [reflexivity|]].
  - apply st_next. assumption.
  - rewrite (st_ident _ _ S). eauto.
Qed.
Lemma tk_next_expr P e : tk P (next_expr e) (wraps P e).
Proof. apply tk_next. Qed.

Lemma tk_mapM {A} P (f : A -> M A) (R : A -> A -> Prop) l :
  Forall (fun x => mono (f x)) l -> Forall (fun x => tk P (f x) (R x)) l -> tk P (mapM f l) (all2 R l).
Proof.
  intros Hm H. induction H as [|x l H1 H2 IH]; cbn [mapM all2]; [apply tk_ret; reflexivity|]. inversion Hm; subst.
  eapply tk_bind; [exact H1|intros; apply mono_bind; [apply mono_mapM; assumption|mn]|]. intros y Hy.
  eapply tk_bind; [apply IH; assumption|mn|]. intros ys Hys. apply tk_ret. eauto.
Qed.
Lemma tk_mapM_all {A} P (f : A -> M A) (R : A -> A -> Prop) l :
  (forall x, mono (f x)) -> (forall x, tk P (f x) (R x)) -> tk P (mapM f l) (all2 R l).
Proof. intros. apply tk_mapM; apply Forall_forall; auto. Qed.
Lemma tk_optM {A} P (f : A -> M A) (R : A -> A -> Prop) o :
  opt_all (fun x => tk P (f x) (R x)) o -> tk P (optM f o) (opt2 R o).
Proof.
  destruct o; cbn; intros H; [|apply tk_ret; reflexivity].
  eapply tk_bind; [exact H|mn|]. intros y Hy. apply tk_ret. cbn. eauto.
Qed.
Lemma tk_optM_all {A} P (f : A -> M A) (R : A -> A -> Prop) o :
  (forall x, tk P (f x) (R x)) -> tk P (optM f o) (opt2 R o).
Proof. intros. apply tk_optM. destruct o; cbn; auto. Qed.

Ltac tret := apply tk_ret; cbn [t_arm t_local t_stmt t_walk opt2 all2]; eauto 12.

(** ** Walks *)

Lemma tk_walk_arm P f (R : expr -> expr -> Prop) x :
  (forall e, mono (f e)) -> (match x with Arm _ _ g b _ => opt_all (fun e => tk P (f e) (R e)) g /\ tk P (f b) (R b) end) ->
  tk P (walk_arm f x) (t_arm R x).
Proof.
  intros Hm. destruct x. cbn [walk_arm t_arm]. intros [H1 H2].
  eapply tk_bind; [apply tk_optM; exact H1|mn|]. intros g' Hg.
  eapply tk_bind; [exact H2|mn|]. intros b' Hb. tret.
Qed.
Lemma tk_walk_local P f (R : expr -> expr -> Prop) x :
  (forall e, mono (f e)) ->
  (match x with Local _ _ _ i d => opt_all (fun e => tk P (f e) (R e)) i /\ opt_all (fun e => tk P (f e) (R e)) d end) ->
  tk P (walk_local f x) (t_local R x).
Proof.
  intros Hm. destruct x. cbn [walk_local t_local]. intros [H1 H2].
  eapply tk_bind; [apply tk_optM; exact H1|mn|]. intros g' Hg.
  eapply tk_bind; [apply tk_optM; exact H2|mn|]. intros b' Hb. tret.
Qed.
Lemma tk_walk_stmt P fe fl Re Rl s :
  (match s with SExpr e _ => tk P (fe e) (Re e) | SLocal l => tk P (fl l) (Rl l) | _ => True end) ->
  tk P (walk_stmt fe fl s) (t_stmt Re Rl s).
Proof.
  destruct s; cbn [walk_stmt t_stmt]; intros H; try (apply tk_ret; reflexivity).
  - eapply tk_bind; [exact H|mn|]. intros. tret.
  - eapply tk_bind; [exact H|mn|]. intros. tret.
Qed.

(** Hypotheses for the children of an expression. *)
Definition kids (He : expr -> Prop) (Hs : stmt -> Prop) (Ha : arm -> Prop) (e : expr) : Prop :=
  match e with
  | EBlock _ _ b | EBlk _ _ b | ELoop _ _ b => Forall Hs b
  | EMatch _ s arms => He s /\ Forall Ha arms
  | EIf _ c t els => He c /\ Forall Hs t /\ opt_all He els
  | ELet _ _ x | ETry _ x | EClosure _ _ x | EParen _ x => He x
  | EWhile _ _ c b | EFor _ _ _ c b => He c /\ Forall Hs b
  | EBreak _ _ x | EReturn _ x => opt_all He x
  | EMethodCall _ r _ l | ECall _ r l => He r /\ Forall He l
  | EOther _ _ l => Forall He l
  | EContinue _ _ | EMacro _ _ | EPath _ _ _ | EVerbatim _ => True
  end.

Lemma kids_all (He : expr -> Prop) (Hs : stmt -> Prop) (Ha : arm -> Prop) e :
  (forall x, He x) -> (forall x, Hs x) -> (forall x, Ha x) -> kids He Hs Ha e.
Proof.
  intros. assert (O : forall o, opt_all He o) by (destruct o; cbn; auto).
  destruct e; cbn; repeat split; auto; apply Forall_forall; auto.
Qed.

Lemma tk_walk P V (T : rvis) e :
  (forall x, mono (on_expr V x)) -> (forall x, mono (on_stmt V x)) -> (forall x, mono (on_arm V x)) ->
  kids (fun x => tk P (on_expr V x) (o_expr T x)) (fun x => tk P (on_stmt V x) (o_stmt T x))
       (fun x => tk P (on_arm V x) (o_arm T x)) e ->
  tk P (walk_expr V e) (t_walk T e).
Proof.
  intros M1 M2 M3 K.
  assert (L : forall (b : list stmt), Forall (fun x => tk P (on_stmt V x) (o_stmt T x)) b -> tk P (mapM (on_stmt V) b) (all2 (o_stmt T) b)).
  { intros. apply tk_mapM; [apply Forall_forall; auto|assumption]. }
  assert (LE : forall (b : list expr), Forall (fun x => tk P (on_expr V x) (o_expr T x)) b -> tk P (mapM (on_expr V) b) (all2 (o_expr T) b)).
  { intros. apply tk_mapM; [apply Forall_forall; auto|assumption]. }
  assert (LA : forall (b : list arm), Forall (fun x => tk P (on_arm V x) (o_arm T x)) b -> tk P (mapM (on_arm V) b) (all2 (o_arm T) b)).
  { intros. apply tk_mapM; [apply Forall_forall; auto|assumption]. }
  destruct e; cbn [walk_expr t_walk kids] in *; try (apply tk_ret; reflexivity);
    repeat match goal with H : _ /\ _ |- _ => destruct H end;
    repeat match goal with
      | |- tk P (bind _ _) _ => unfold tk at 1
      | |- tw P (bind _ _) _ =>
          eapply tk_bind; [first [eassumption | apply L; assumption | apply LE; assumption | apply LA; assumption
                                 | apply tk_optM; eassumption] | mn | intros ? ?]
      | |- tw P (ret _) _ => tret
      end.
Qed.

(** ** Loops *)

Lemma tk_loop P :
  (forall e label nested, tk P (loop_expr label nested e) (c_loop P label nested e))
  /\ (forall s label nested, tk P (loop_stmt label nested s) (c_loop_stmt P label nested s))
  /\ (forall x label nested, tk P (loop_arm label nested x) (c_loop_arm P label nested x))
  /\ (forall x label nested, tk P (loop_local label nested x) (c_loop_local P label nested x)).
Proof.
  assert (M1 := proj1 mono_loop). assert (M2 := proj1 (proj2 mono_loop)). assert (M3 := proj1 (proj2 (proj2 mono_loop))).
  assert (S : forall A (f : option string -> bool -> A -> M A) (g : option string -> bool -> A -> A -> Prop) l la n,
    Forall (fun x => forall la n, tk P (f la n x) (g la n x)) l -> Forall (fun x => tk P (f la n x) (g la n x)) l).
  { intros. eapply Forall_impl; [|eassumption]. cbn. auto. }
  assert (O : forall A (f : option string -> bool -> A -> M A) (g : option string -> bool -> A -> A -> Prop) l la n,
    opt_all (fun x => forall la n, tk P (f la n x) (g la n x)) l -> opt_all (fun x => tk P (f la n x) (g la n x)) l).
  { intros A f g [] la n; cbn; auto. }
  assert (W : forall la n e,
    kids (fun x => forall la n, tk P (loop_expr la n x) (c_loop P la n x))
         (fun x => forall la n, tk P (loop_stmt la n x) (c_loop_stmt P la n x))
         (fun x => forall la n, tk P (loop_arm la n x) (c_loop_arm P la n x)) e ->
    tk P (walk_expr (Vis (loop_expr la n) (loop_stmt la n) (loop_arm la n) (loop_local la n)) e)
         (t_walk (RVis (c_loop P la n) (c_loop_stmt P la n) (c_loop_arm P la n) (c_loop_local P la n)) e)).
  { intros la n e K. apply tk_walk; cbn [on_expr on_stmt on_arm o_expr o_stmt o_arm]; [intro; apply M1|intro; apply M2|intro; apply M3|].
    destruct e; cbn [kids] in *; repeat match goal with H : _ /\ _ |- _ => destruct H end; repeat split; auto. }
  apply ast_ind; intros.
  all: try match goal with
    | |- tk _ (loop_arm _ _ _) _ =>
        apply tk_walk_arm; [intro; apply M1|split; [apply O; assumption|auto]]
    | |- tk _ (loop_local _ _ _) _ =>
        apply tk_walk_local; [intro; apply M1|split; apply O; assumption]
    | |- tk _ (loop_stmt _ _ _) _ => apply tk_walk_stmt; auto
    end.
  all: cbn [loop_expr c_loop e_attrs]; try (destruct (any_empty_attr a NEVER); [apply tk_ret; reflexivity|]).
  all: try (apply W; cbn [kids]; auto).
  - destruct k; try (apply W; cbn [kids]; auto). apply tk_ret; reflexivity.
  - destruct label; [apply W; cbn [kids]; auto|apply tk_ret; reflexivity].
  - destruct label; [apply W; cbn [kids]; auto|apply tk_ret; reflexivity].
  - destruct label; [apply W; cbn [kids]; auto|apply tk_ret; reflexivity].
  - unfold own_break. destruct (_ || _).
    + destruct e as [y|].
      * cbn [opt_all] in H. eapply tk_bind; [apply tk_gets; intros; apply s_marker_expr; assumption|mn; apply M1|].
        intros mk ->. destruct (is_marker_expr P y).
        -- eapply tk_bind; [apply H|mn|]. intros y' Hy. apply tk_ret. eauto.
        -- eapply tk_bind; [apply tk_next_expr|mn; apply M1|]. intros call (v & ->).
           eapply tk_bind; [apply H|mn|]. intros y' Hy. apply tk_ret. exists y'. split; [assumption|].
           eexists. split; [reflexivity|]. exists v. reflexivity.
      * cbn. intros cx x cx' E N ST. apply bind_ok in E. destruct E as (z & c & E1 & E2). apply ret_ok in E2. destruct E2 as [-> ->].
        unfold replace_boxed_expr in E1. cbn [is_marker_expr unit_expr] in E1.
        apply bind_ok in E1. destruct E1 as (z1 & c1 & E1 & E2). apply ret_ok in E2. destruct E2 as [-> ->].
        destruct (tk_next_expr P _ _ _ _ E1 N ST) as (P' & ST' & -> & Q). exists P. split; [assumption|]. split; [reflexivity|].
        eexists. split; [reflexivity|exact Q].
    + eapply tk_bind; [apply tk_optM; apply O; exact H|mn|]. intros x' Hx. apply tk_ret. eauto.
  - apply tk_ret. reflexivity.
Qed.

(** ** The last expression *)

Lemma tk_last_block P b : tk P (visit_last_block b) (c_block P b).
Proof.
  unfold visit_last_block, c_block. eapply tk_bind; [apply tk_gets; intros; apply s_skip_block; assumption|mn|].
  intros skip ->. destruct (skip_block P b); [apply tk_ret; reflexivity|].
  eapply tk_bind; [apply tk_next_expr|mn|]. intros e' He. apply tk_ret. eauto.
Qed.

Lemma tk_last_arm P x : tk P (visit_last_arm x) (c_arm P x).
Proof.
  unfold visit_last_arm, c_arm. eapply tk_bind; [apply tk_gets; intros; apply s_skip_arm; assumption|mn|].
  intros skip ->. destruct (skip_arm P x); [apply tk_ret; reflexivity|]. destruct x.
  eapply tk_bind; [apply tk_next_expr|mn|]. intros e' He. apply tk_ret. eauto.
Qed.

Lemma tk_last_if P : forall e, tk P (visit_last_expr_if e) (c_if P e).
Proof.
  destruct (ast_ind (fun e => tk P (visit_last_expr_if e) (c_if P e)) (fun _ => True) (fun _ => True) (fun _ => True)) as (H & _);
    [..|exact H]; cbv beta; intros; try exact I; cbn [visit_last_expr_if c_if]; try (apply tk_ret; reflexivity).
  assert (M0 : forall o : option expr, mono match o with
     | Some (EBlock ea l b) => b' <- visit_last_block b ;; ret (Some (EBlock ea l b'))
     | Some (EIf _ _ _ _ as e2) => e2' <- visit_last_expr_if e2 ;; ret (Some e2')
     | None => error ErrNoElse ;;; ret None
     | Some _ => panic "wrong_if" end).
  { intros [[]|]; mn; try apply mono_last_block; try apply mono_last_if. }
  eapply tk_bind; [apply tk_last_block|intros; apply mono_bind; [apply M0|mn]|]. intros t' Ht.
  unfold tk.
  eapply tk_bind with (Q1 := fun els' => match els with
             | Some (EBlock ea l b) => exists b', els' = Some (EBlock ea l b') /\ c_block P b b'
             | Some (EIf _ _ _ _ as e2) => exists e2', els' = Some e2' /\ c_if P e2 e2'
             | _ => False
             end); [|mn|].
  - destruct els as [els|]; [|apply tw_error; mn]. cbn [opt_all] in H1.
    destruct els; try (intros ? ? ? E; discriminate E).
    + eapply tk_bind; [apply tk_last_block|mn|]. intros b' Hb. apply tk_ret. eauto.
    + eapply tk_bind; [exact H1|mn|]. intros b' Hb. apply tk_ret. eauto.
  - intros els' He. apply tk_ret. eauto.
Qed.

Lemma tk_map_last P f R b :
  (forall e, mono (f e)) -> Forall (fun s => match s with SExpr e _ => tk P (f e) (R e) | _ => True end) b ->
  tk P (map_last_expr f b) (t_last R b).
Proof.
  intros Hm. induction 1 as [|s b H _ IH]; cbn [map_last_expr t_last]; [apply tk_ret; reflexivity|].
  destruct b.
  - destruct s as [| |e []|]; try (apply tk_ret; reflexivity).
    eapply tk_bind; [exact H|mn|]. intros e' He. apply tk_ret. eauto.
  - eapply tk_bind; [exact IH|mn|]. intros e' He. apply tk_ret. eauto.
Qed.

Lemma tk_child P : forall e, tk P (child_expr e) (c_expr P e).
Proof.
  destruct (ast_ind (fun e => tk P (child_expr e) (c_expr P e))
    (fun s => match s with SExpr e _ => tk P (child_expr e) (c_expr P e) | _ => True end)
    (fun _ => True) (fun _ => True)) as (H & _); [..|exact H]; cbv beta; intros; try exact I; try assumption;
    cbn [child_expr c_expr];
    (eapply tk_bind;
      [apply tk_gets; intros cx ST; rewrite (s_visit_last _ _ ST), (s_unreachable _ _ ST); reflexivity| |
       intros stop ->; destruct (negb (visit_last P) || _); [apply tk_ret; reflexivity|]]);
    try (apply tk_ret; reflexivity);
    try (intros []; [apply mono_ret|]); try apply mono_ret.
  - apply mono_bind; [apply mono_map_last; apply Forall_forall; intros [] _; auto; apply mono_child|mn].
  - eapply tk_bind; [apply tk_map_last; [apply mono_child|exact H]|mn|]. intros b' Hb. apply tk_ret. eauto.
  - destruct k; try apply mono_ret. apply mono_bind; [apply mono_map_last; apply Forall_forall; intros [] _; auto; apply mono_child|mn].
  - destruct k; try (apply tk_ret; reflexivity).
    eapply tk_bind; [apply tk_map_last; [apply mono_child|exact H]|mn|]. intros b' Hb. apply tk_ret. eauto.
  - mn. apply mono_visit_arm.
  - eapply tk_bind; [apply tk_mapM_all; [intros; apply mono_visit_arm|intros; apply tk_last_arm]|mn|].
    intros b' Hb. apply tk_ret. eauto.
  - apply mono_last_if.
  - apply tk_last_if.
  - unfold visit_last_expr_loop. mn. apply mono_loop.
  - unfold visit_last_expr_loop. eapply tk_bind; [apply tk_mapM_all; [intros; apply mono_loop|intros; apply tk_loop]|mn|].
    intros b' Hb. apply tk_ret. eauto.
  - mn. apply mono_child.
  - eapply tk_bind; [exact H|mn|]. intros b' Hb. apply tk_ret. eauto.
  - mn. apply mono_child.
  - eapply tk_bind; [exact H|mn|]. intros b' Hb. apply tk_ret. eauto.
Qed.
