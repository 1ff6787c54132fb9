(** An attribute without traits only expands the attributes below it. *)

Require Import Coq.Strings.String Coq.Lists.List Coq.Bool.Bool Coq.Arith.Arith Coq.NArith.NArith Lia.
Require Import Verif.Syntax Verif.Context Verif.ExprModel Verif.TypeAnalysis Verif.AutoEnum.
Require Import Verif.Halt Verif.AstInd Verif.RunLemmas Verif.Frame Verif.Edits Verif.Outside Verif.TraitRun.
Import ListNotations.
Open Scope string_scope.
Open Scope list_scope.

Lemma find_remove_annotated a r : find_remove_attr a NAME = Some r -> annotated a.
Proof.
  unfold find_remove_attr. revert r. induction a as [|x a IH]; cbn [find_remove]; intros r H; [discriminate|].
  destruct (is_ident (attr_path x) NAME) eqn:E.
  - exists x. split; [left; reflexivity|exact E].
  - destruct (find_remove _ a) as [[y l]|]; [|discriminate].
    destruct (IH _ eq_refl) as (y0 & I & J). exists y0. split; [right|]; assumption.
Qed.

Lemma find_remove_free a : free_of a = true -> find_remove_attr a NAME = None.
Proof.
  unfold free_of, find_remove_attr. induction a as [|x a IH]; cbn [existsb find_remove]; [reflexivity|].
  change "auto_enum" with NAME in *. destruct (is_ident (attr_path x) NAME); cbn; [discriminate|].
  intros H. rewrite (IH H). reflexivity.
Qed.

Lemma any_free a : free_of a = true -> any_attr a NAME = false.
Proof. unfold free_of, any_attr. change "auto_enum" with NAME. destruct existsb; [discriminate|reflexivity]. Qed.

Lemma same_refl :
  (forall e, same_expr e e) /\ (forall s, same_stmt s s) /\ (forall x, same_arms [x] [x])
  /\ (forall l, same_stmt (SLocal l) (SLocal l)).
Proof.
  assert (LE : forall l, Forall (fun e => same_expr e e) l -> same_exprs l l)
    by (induction 1; constructor; assumption).
  assert (LS : forall l, Forall (fun e => same_stmt e e) l -> same_stmts l l)
    by (induction 1; constructor; assumption).
  assert (LA : forall l, Forall (fun x => same_arms [x] [x]) l -> same_arms l l).
  { induction 1 as [|x l H _ IH]; [constructor|]. inversion H; subst. constructor; assumption. }
  assert (LO : forall o, opt_all (fun e => same_expr e e) o -> same_opt o o)
    by (intros [] H; constructor; assumption).
  apply ast_ind; intros; auto; constructor; auto; constructor.
Qed.

Lemma same_stmts_refl b : same_stmts b b.
Proof. induction b; constructor; [apply same_refl|assumption]. Qed.

(** Successful runs relate argument and result. *)
Definition rel {A} (R : A -> A -> Prop) (f : A -> M A) : Prop :=
  forall x cx x' cx', f x cx = ROk (x', cx') -> R x x'.

Lemma rel_exprs f l cx l' cx' :
  rel same_expr f -> mapM f l cx = ROk (l', cx') -> same_exprs l l'.
Proof.
  intros H. revert cx l' cx'. induction l as [|x l IH]; cbn [mapM]; intros cx l' cx' E.
  - minv. constructor.
  - apply bind_ok in E. destruct E as (y & c1 & E1 & E). apply bind_ok in E. destruct E as (ys & c2 & E2 & E).
    minv. constructor; eauto.
Qed.

Lemma rel_stmts f l cx l' cx' :
  rel same_stmt f -> mapM f l cx = ROk (l', cx') -> same_stmts l l'.
Proof.
  intros H. revert cx l' cx'. induction l as [|x l IH]; cbn [mapM]; intros cx l' cx' E.
  - minv. constructor.
  - apply bind_ok in E. destruct E as (y & c1 & E1 & E). apply bind_ok in E. destruct E as (ys & c2 & E2 & E).
    minv. constructor; eauto.
Qed.

Lemma rel_opt f o cx o' cx' :
  rel same_expr f -> optM f o cx = ROk (o', cx') -> same_opt o o'.
Proof.
  intros H. destruct o; cbn [optM]; intros E; [|minv; constructor].
  apply bind_ok in E. destruct E as (y & c1 & E1 & E). minv. constructor. eauto.
Qed.

Lemma rel_arms f l cx l' cx' :
  rel same_expr f -> mapM (walk_arm f) l cx = ROk (l', cx') -> same_arms l l'.
Proof.
  intros H. revert cx l' cx'. induction l as [|[a p g b c] l IH]; cbn [mapM]; intros cx l' cx' E.
  - minv. constructor.
  - apply bind_ok in E. destruct E as (y & c1 & E1 & E). apply bind_ok in E. destruct E as (ys & c2 & E2 & E).
    minv. cbn [walk_arm] in E1. apply bind_ok in E1. destruct E1 as (g' & c3 & E1 & E3).
    apply bind_ok in E3. destruct E3 as (b' & c4 & E3 & E4). minv.
    constructor; [eapply rel_opt; eassumption| |]; eauto.
Qed.

Lemma rel_walk fe fs fl : rel same_expr fe -> rel same_stmt fs ->
  rel same_expr (walk_expr (Vis fe fs (walk_arm fe) fl)).
Proof.
  intros He Hs e cx e' cx' E.
  destruct e; cbn [walk_expr on_expr on_stmt on_arm on_local] in E;
    repeat match goal with
    | E : bind _ _ _ = ROk _ |- _ =>
        apply bind_ok in E; let E1 := fresh "E" in destruct E as (? & ? & E1 & E)
    end;
    match goal with E : ret _ _ = ROk _ |- _ => apply ret_ok in E; destruct E as [-> ->] end;
    try (constructor; first [ eapply rel_exprs; eassumption | eapply rel_stmts; eassumption
                  | eapply rel_arms; eassumption | eapply rel_opt; eassumption | eapply He; eassumption ]);
    apply same_refl.
Qed.

Section Run.
  Variables (hash : node -> N) (ta : bool).

  Lemma rel_vs_expr R fe fs fl b :
    rel same_expr fe -> rel same_stmt fs ->
    rel same_expr (fun e => vs_visit_expr hash ta R (Vis fe fs (walk_arm fe) fl) e b).
  Proof.
    intros He Hs e cx e' cx'. unfold vs_visit_expr.
    destruct (find_remove_attr (e_attrs e) NAME) as [r|] eqn:F.
    - intros _. apply so_annotated. eapply find_remove_annotated. eassumption.
    - apply rel_walk; assumption.
  Qed.

  Lemma parent_stmt_local R l cx s' cx' :
    expand_parent_stmt ta R (SLocal l) cx = ROk (s', cx') -> exists l', s' = SLocal l'.
  Proof. cbn [expand_parent_stmt]. intros H. apply bind_ok in H. destruct H as (l' & c & _ & H). minv. eauto. Qed.

  Lemma rel_vs_stmt R fe fs :
    rel same_expr fe -> rel same_stmt fs ->
    rel same_stmt (vs_visit_stmt hash ta R (Vis fe fs (walk_arm fe) (walk_local fe))).
  Proof.
    intros He Hs s cx s' cx' H. destruct s as [[a p t i d]| |e semi|]; cbn [vs_visit_stmt] in H.
    - destruct (find_remove_attr a NAME) as [[at_ a']|] eqn:F.
      + apply find_remove_annotated in F.
        assert (X : exists x, s' = SLocal x).
        { apply bind_ok in H. destruct H as (r & c & _ & H).
          apply bind_ok in H. destruct H as (s1 & c1 & H1 & H).
          cbn [walk_stmt on_local walk_local] in H1. apply bind_ok in H1. destruct H1 as (l1 & c2 & _ & H1).
          apply ret_ok in H1. destruct H1 as [-> ->].
          destruct r as [er|child].
          - apply bind_ok in H. destruct H as (u & c2' & _ & H). minv. eauto.
          - unfold in_child in H.
            destruct (expand_parent_stmt ta R (SLocal l1) child) as [[x c']| |] eqn:X; try discriminate.
            apply parent_stmt_local in X. destruct X as (l' & ->).
            apply bind_ok in H. destruct H as (u & c2' & _ & H). minv. eauto. }
        destruct X as (x & ->). apply sst_annotated. assumption.
      + cbn [walk_stmt on_local walk_local] in H. apply bind_ok in H. destruct H as (l' & c & H & H').
        apply bind_ok in H. destruct H as (i' & c1 & H1 & H). apply bind_ok in H. destruct H as (d' & c2 & H2 & H).
        apply ret_ok in H'. destruct H' as [-> ->]. apply ret_ok in H. destruct H as [-> ->].
        constructor; eapply rel_opt; eassumption.
    - minv. constructor.
    - apply bind_ok in H. destruct H as (e' & c & H1 & H). minv. constructor.
      eapply rel_vs_expr; eassumption.
    - cbn [walk_stmt] in H. minv. constructor.
  Qed.

  Lemma dummy_same n :
    rel same_expr (r_dexpr (engine hash ta n)) /\ rel same_stmt (r_dstmt (engine hash ta n)).
  Proof.
    induction n as [|n [IHe IHs]]; [split; intros x cx x' cx' H; discriminate|].
    split; intros x cx x' cx' H; cbn [engine step r_dexpr r_dstmt] in H; unfold unless_error in H;
      apply bind_ok in H; destruct H as (bad & c & H1 & H); destruct bad;
      try (apply ret_ok in H; destruct H as [-> ->]; apply same_refl);
      unfold dummy_expr, dummy_stmt in H; apply bind_ok in H; destruct H as (u & c1 & _ & H).
    - eapply rel_vs_expr; [exact IHe|exact IHs|exact H].
    - eapply rel_vs_stmt; [exact IHe|exact IHs|exact H].
  Qed.

  (** Without annotations below, nothing at all changes. *)
  Definition idle {A} (P : A -> bool) (f : A -> M A) : Prop :=
    forall x cx x' cx', P x = true -> f x cx = ROk (x', cx') -> x' = x /\ cx_errs cx' = cx_errs cx.

  Lemma idle_mapM {A} P (f : A -> M A) l cx l' cx' :
    idle P f -> fold_list andb true P l = true -> mapM f l cx = ROk (l', cx') -> l' = l /\ cx_errs cx' = cx_errs cx.
  Proof.
    intros H. revert cx l' cx'. induction l as [|x l IH]; cbn [mapM]; intros cx l' cx' W E.
    - minv. split; congruence.
    - cbn in W. apply andb_true_iff in W. destruct W as [W1 W2].
      apply bind_ok in E. destruct E as (y & c1 & E1 & E). apply bind_ok in E. destruct E as (ys & c2 & E2 & E).
      apply H in E1; [|assumption]. destruct E1 as [-> ?]. apply IH in E2; [|assumption].
      destruct E2 as [-> ?]. minv. split; congruence.
  Qed.

  Lemma idle_optM {A} P (f : A -> M A) o cx o' cx' :
    idle P f -> fold_opt true P o = true -> optM f o cx = ROk (o', cx') -> o' = o /\ cx_errs cx' = cx_errs cx.
  Proof.
    intros H W E. destruct o; cbn [optM] in E; [|minv; auto].
    apply bind_ok in E. destruct E as (y & c1 & E1 & E).
    apply H in E1; [|assumption]. destruct E1 as [-> ?]. minv. split; congruence.
  Qed.

  Lemma idle_arm f : idle plain_expr f -> idle plain_arm (walk_arm f).
  Proof.
    intros H [a p g b c] cx x' cx' W E. cbn in W. apply andb_true_iff in W. destruct W as [W1 W2].
    cbn [walk_arm] in E.
    apply bind_ok in E. destruct E as (y & c1 & E1 & E). apply bind_ok in E. destruct E as (ys & c2 & E2 & E).
    eapply idle_optM in E1; [|eassumption|eassumption]. destruct E1 as [-> ?].
    apply H in E2; [|assumption]. destruct E2 as [-> ?]. minv. split; congruence.
  Qed.

  Lemma idle_local f : idle plain_expr f -> idle (fold_local andb true plain_expr) (walk_local f).
  Proof.
    intros H [a p t i d] cx x' cx' W E. cbn in W. apply andb_true_iff in W. destruct W as [W1 W2].
    cbn [walk_local] in E.
    apply bind_ok in E. destruct E as (y & c1 & E1 & E). apply bind_ok in E. destruct E as (ys & c2 & E2 & E).
    eapply idle_optM in E1; [|eassumption|eassumption]. destruct E1 as [-> ?].
    eapply idle_optM in E2; [|eassumption|eassumption]. destruct E2 as [-> ?]. minv. split; congruence.
  Qed.

  Lemma plain_expr_eq e :
    plain_expr e = free_of (e_attrs e) && fold_expr andb true plain_expr plain_stmt plain_arm e.
  Proof. destruct e; reflexivity. Qed.

  Lemma plain_local_eq a p t i d :
    plain_local (Local a p t i d) = free_of a && fold_local andb true plain_expr (Local a p t i d).
  Proof. reflexivity. Qed.

  Lemma idle_walk fe fs fl e cx e' cx' :
    idle plain_expr fe -> idle plain_stmt fs ->
    fold_expr andb true plain_expr plain_stmt plain_arm e = true ->
    walk_expr (Vis fe fs (walk_arm fe) fl) e cx = ROk (e', cx') -> e' = e /\ cx_errs cx' = cx_errs cx.
  Proof.
    intros He Hs W E.
    destruct e; cbn [walk_expr on_expr on_stmt on_arm on_local] in E; cbn [fold_expr] in W;
      rewrite ?andb_true_iff in W;
      repeat match goal with
      | E : bind _ _ _ = ROk _ |- _ =>
          apply bind_ok in E; let E1 := fresh "E" in destruct E as (? & ? & E1 & E)
      end;
      match goal with E : ret _ _ = ROk _ |- _ => apply ret_ok in E; destruct E as [-> ->] end;
      repeat match goal with
      | W : _ /\ _ |- _ => destruct W
      | E : mapM fe ?l ?c = ROk _ |- _ => eapply idle_mapM in E; [|eassumption|eassumption]; destruct E as [-> ?]
      | E : mapM fs ?l ?c = ROk _ |- _ => eapply idle_mapM in E; [|eassumption|eassumption]; destruct E as [-> ?]
      | E : mapM (walk_arm fe) ?l ?c = ROk _ |- _ =>
          eapply idle_mapM in E; [|apply idle_arm; eassumption|eassumption]; destruct E as [-> ?]
      | E : optM fe ?l ?c = ROk _ |- _ => eapply idle_optM in E; [|eassumption|eassumption]; destruct E as [-> ?]
      | E : fe ?l ?c = ROk _ |- _ => apply He in E; [|assumption]; destruct E as [-> ?]
      end; split; congruence.
  Qed.

  Lemma idle_vs_expr R fe fs fl b :
    idle plain_expr fe -> idle plain_stmt fs ->
    idle plain_expr (fun e => vs_visit_expr hash ta R (Vis fe fs (walk_arm fe) fl) e b).
  Proof.
    intros He Hs e cx e' cx' W. rewrite plain_expr_eq in W. apply andb_true_iff in W. destruct W as [W1 W2].
    unfold vs_visit_expr. rewrite (find_remove_free _ W1). apply idle_walk; assumption.
  Qed.

  Lemma dummy_idle n :
    idle plain_expr (r_dexpr (engine hash ta n)) /\ idle plain_stmt (r_dstmt (engine hash ta n)).
  Proof.
    induction n as [|n [IHe IHs]]; [split; intros x cx x' cx' W H; discriminate|].
    split; intros x cx x' cx' W H; cbn [engine step r_dexpr r_dstmt] in H; unfold unless_error in H;
      apply bind_ok in H; destruct H as (bad & c & H1 & H); apply gets_ok in H1; destruct H1 as [_ ->];
      destruct bad; try (apply ret_ok in H; destruct H as [-> ->]; auto; fail);
      unfold dummy_expr, dummy_stmt in H; apply bind_ok in H; destruct H as (u & c1 & H1 & H).
    - assert (N : free_of (e_attrs x) = true)
        by (rewrite plain_expr_eq in W; apply andb_true_iff in W; apply W).
      unfold note_child in H1. rewrite (any_free _ N) in H1. apply ret_ok in H1. destruct H1 as [_ ->].
      eapply idle_vs_expr; [exact IHe|exact IHs|exact W|exact H].
    - destruct x as [[a p t i d]| |e semi|]; cbn [vs_visit_stmt s_attrs plain_stmt fold_stmt] in *.
      + change (plain_local (Local a p t i d) = true) in W.
        rewrite plain_local_eq in W. apply andb_true_iff in W. destruct W as [W1 W2].
        unfold note_child in H1. rewrite (any_free _ W1) in H1. apply ret_ok in H1. destruct H1 as [_ ->].
        rewrite (find_remove_free _ W1) in H. cbn [walk_stmt d_vis on_local] in H.
        apply bind_ok in H. destruct H as (l' & c2 & H & H').
        apply idle_local in H; [|exact IHe|exact W2]. destruct H as [-> ?]. minv. split; congruence.
      + minv. unfold note_child in H1. cbn in H1. minv. auto.
      + assert (N : free_of (e_attrs e) = true)
          by (rewrite plain_expr_eq in W; apply andb_true_iff in W; apply W).
        unfold note_child in H1. rewrite (any_free _ N) in H1. apply ret_ok in H1. destruct H1 as [_ ->].
        apply bind_ok in H. destruct H as (e' & c2 & H2 & H).
        eapply idle_vs_expr in H2; [|exact IHe|exact IHs|exact W]. destruct H2 as [-> ?]. minv. split; congruence.
      + minv. unfold note_child in H1. destruct any_attr; cbn in H; minv; auto.
  Qed.

  Variable n : nat.
  Let R := engine hash ta n.

  (** The expansion when there is nothing to derive. *)
  Definition dummy_input (i : input) : M input :=
    match i with
    | InExpr e => e' <- r_dexpr R e ;; ret (InExpr e')
    | InStmt (SExpr e semi) => e' <- r_dexpr R e ;; ret (InStmt (SExpr e' semi))
    | InStmt (SLocal l) => l' <- walk_local (r_dexpr R) l ;; ret (InStmt (SLocal l'))
    | InStmt (SMacro a m semi) => ret (InStmt (SMacro a m semi))
    | InStmt (SItem (IFn a sg o b)) => b' <- mapM (r_dstmt R) b ;; ret (InStmt (SItem (IFn a sg o b')))
    | InStmt (SItem i) => error ErrPosition ;;; ret (InStmt (SItem i))
    | InBad => error ErrInputSyntax ;;; error ErrPosition ;;; ret InBad
    end.

  Lemma bind_bind {A B C} (m : M A) (k : A -> M B) (k2 : B -> M C) cx :
    bind (bind m k) k2 cx = bind m (fun x => bind (k x) k2) cx.
  Proof. unfold bind. destruct (m cx) as [[]| |]; reflexivity. Qed.

  Lemma is_dummy_true cx : cx_args cx = [] -> cx_traits cx = [] -> is_dummy cx = true.
  Proof. unfold is_dummy. intros -> ->. reflexivity. Qed.

  Lemma bind_ext {A B} (m : M A) (f g : A -> M B) cx :
    (forall x c, f x c = g x c) -> bind m f cx = bind m g cx.
  Proof. intros H. unfold bind. destruct (m cx) as [[]| |]; auto. Qed.

  Lemma parent_expr_dummy e b cx : cx_args cx = [] -> cx_traits cx = [] ->
    expand_parent_expr ta R e b cx = r_dexpr R e (if b then set_last LNever cx else cx).
  Proof.
    intros A T. unfold expand_parent_expr, bind, ret, modify, gets, massert.
    destruct b; rewrite is_dummy_true by assumption; cbn [cx_args set_last]; rewrite A; reflexivity.
  Qed.

  Lemma dummy_shape cx0 i :
    cx_args cx0 = [] -> cx_traits cx0 = [] -> taken ta [] (annotated_type i) = [] ->
    exists cx1, expand_input ta R i cx0 = dummy_input i cx1
      /\ cx_errs cx1 = cx_errs cx0 /\ cx_variants cx1 = cx_variants cx0 /\ cx_markers cx1 = cx_markers cx0.
  Proof.
    intros A T N. destruct i as [s|e|]; cbn [expand_input dummy_input].
    - destruct s as [[a p t i d]|[a sg o b| |]|e semi|a m semi]; cbn [expand_parent_stmt annotated_type] in *.
      + exists cx0. split; [|auto]. rewrite bind_bind.
        unfold expand_parent_local. rewrite bind_bind.
        assert (X : local_ty ta t cx0 = ROk (t, cx0)).
        { unfold local_ty, taken in *. destruct ta; [|reflexivity]. destruct t as [t|]; [|reflexivity].
          unfold bind, gets, modify, ret, collect_impl_trait. rewrite A, T, N. cbn.
          destruct cx0; cbn in *; subst; reflexivity. }
        unfold bind at 1. rewrite X. unfold bind, gets. rewrite is_dummy_true by assumption.
        unfold massert. rewrite A. destruct (walk_local _ _ cx0) as [[]| |]; reflexivity.
      + assert (X : exists cxa, fn_mode o b cx0 = ROk (tt, cxa) /\ cx_args cxa = [] /\ cx_traits cxa = []
                     /\ cx_errs cxa = cx_errs cx0 /\ cx_variants cxa = cx_variants cx0
                     /\ cx_markers cxa = cx_markers cx0).
        { unfold fn_mode, bind, gets, modify, ret. destruct (cx_last cx0); [|eauto 10].
          destruct o as [[]|]; try destruct (is_result_impl _); try destruct (2 <=? _)%nat; eauto 10. }
        destruct X as (cxa & X & A1 & A2 & A3 & A4 & A5).
        assert (Y : fn_collect ta o cxa = ROk (tt, cxa)).
        { unfold fn_collect, taken in *. destruct ta; [|reflexivity]. destruct o as [t|]; [|reflexivity].
          unfold bind, gets, modify, collect_impl_trait. rewrite A1, A2, N. cbn.
          destruct cxa; cbn in *; subst; reflexivity. }
        exists cxa. split; [|auto]. unfold expand_parent_item_fn, bind at 1 2 3 4. rewrite X, Y.
        unfold bind, gets. rewrite is_dummy_true by assumption. unfold massert. rewrite A1.
        destruct (mapM _ _ _) as [[]| |]; reflexivity.
      + exists cx0. split; [reflexivity|auto].
      + exists cx0. split; [reflexivity|auto].
      + exists (if semi then set_last LNever cx0 else cx0). split; [|destruct semi; auto].
        rewrite bind_bind. unfold bind at 1. rewrite parent_expr_dummy by assumption. reflexivity.
      + exists cx0. auto.
    - exists cx0. split; [|auto]. unfold bind at 1. rewrite parent_expr_dummy by assumption. reflexivity.
    - exists cx0. auto.
  Qed.

  Lemma dummy_root cx0 i i' cx :
    cx_args cx0 = [] -> cx_traits cx0 = [] -> taken ta [] (annotated_type i) = [] ->
    expand_input ta R i cx0 = ROk (i', cx) -> cx_errs cx = [] ->
    same_input i i' /\ cx_variants cx = cx_variants cx0.
  Proof.
    intros A T N H E. destruct (dummy_shape cx0 i A T N) as (cx1 & X & _ & V & _). rewrite X in H. rewrite <- V.
    assert (DE : forall e, pres (fun c c' => cx_variants c' = cx_variants c) (r_dexpr R e))
      by (intros e c y c' Hx; apply dummy_frame in Hx; apply Hx).
    assert (DS : forall e, pres (fun c c' => cx_variants c' = cx_variants c) (r_dstmt R e))
      by (intros e c y c' Hx; apply dummy_frame in Hx; apply Hx).
    destruct i as [[[a p t i d]|[a sg o b| |]|e semi|a m semi]|e|]; cbn [dummy_input] in H;
      try (minv; cbn in E; apply app_nil_inv in E; destruct E; discriminate);
      try (apply bind_ok in H; destruct H as (y & c & H & H2); apply ret_ok in H2; destruct H2 as [-> ->]).
    - split.
      + cbn [walk_local] in H. apply bind_ok in H. destruct H as (i' & c1 & H1 & H).
        apply bind_ok in H. destruct H as (d' & c2 & H2 & H). minv.
        constructor; eapply rel_opt; try eassumption; apply (dummy_same n).
      + revert H. apply (walk_local_pres (fun c c' => cx_variants c' = cx_variants c)); [reflexivity|congruence|exact DE].
    - split.
      + constructor. eapply rel_stmts; [|exact H]. apply (dummy_same n).
      + revert H. apply (pres_mapM_all (fun c c' => cx_variants c' = cx_variants c)); [reflexivity|congruence|exact DS].
    - split; [constructor; eapply (dummy_same n); eassumption|]. apply DE in H. exact H.
    - minv. split; [constructor|reflexivity].
    - split; [constructor; eapply (dummy_same n); eassumption|]. apply DE in H. exact H.
  Qed.

  Lemma dummy_root_idle cx0 i i' cx :
    cx_args cx0 = [] -> cx_traits cx0 = [] -> taken ta [] (annotated_type i) = [] ->
    plain_input i = true ->
    expand_input ta R i cx0 = ROk (i', cx) -> i' = i /\ cx_errs cx = cx_errs cx0.
  Proof.
    intros A T N P H. destruct (dummy_shape cx0 i A T N) as (cx1 & X & V & _ & _). rewrite X in H. rewrite <- V.
    destruct i as [[[a p t i d]|[a sg o b| |]|e semi|a m semi]|e|]; cbn [dummy_input plain_input] in *;
      try discriminate;
      try (apply bind_ok in H; destruct H as (y & c & H & H2); apply ret_ok in H2; destruct H2 as [-> ->]).
    - apply idle_local in H; [|apply (dummy_idle n)|exact P]. destruct H as [-> ?]. auto.
    - eapply idle_mapM in H; [|apply (dummy_idle n)|]; [|rewrite fold_list_forallb; exact P].
      destruct H as [-> ?]. auto.
    - apply (dummy_idle n) in H; [|exact P]. destruct H as [-> ?]. auto.
    - minv. auto.
    - apply (dummy_idle n) in H; [|exact P]. destruct H as [-> ?]. auto.
  Qed.

  Variables (args : list token) (m : option string) (i : input).
  Hypothesis none : parse_args args = inr ([], m).
  Hypothesis found : taken ta [] (annotated_type i) = [].

  Lemma root_fields cx0 : ctx_root (enum_name (hash (NInput i))) args = inr cx0 ->
    cx_args cx0 = [] /\ cx_traits cx0 = [] /\ cx_errs cx0 = [] /\ cx_variants cx0 = [].
  Proof.
    unfold ctx_root, ctx_new. rewrite none. destruct m; cbn; intros H; inversion H; subst; auto.
  Qed.

  Theorem dummy_same_input i' cx :
    attribute hash ta n args i = ROk (Code i' cx) -> same_input i i' /\ cx_variants cx = [].
  Proof.
    unfold attribute. destruct (ctx_root _ args) as [|cx0] eqn:C; [discriminate|].
    destruct (root_fields _ C) as (A & T & _ & V). fold R.
    destruct (expand_input ta R i cx0) as [[i1 cx1]| |] eqn:X; try discriminate.
    destruct (cx_errs cx1) eqn:E; [|discriminate]. intros H. inversion H; subst. rewrite <- V.
    eapply dummy_root; eassumption.
  Qed.

  Theorem dummy_identity o :
    plain_input i = true -> attribute hash ta n args i = ROk o -> exists cx, o = Code i cx.
  Proof.
    intros P. unfold attribute. destruct (ctx_root _ args) as [|cx0] eqn:C.
    { unfold ctx_root, ctx_new in C. rewrite none in C. destruct m; discriminate. }
    destruct (root_fields _ C) as (A & T & E0 & _). fold R.
    destruct (expand_input ta R i cx0) as [[i1 cx1]| |] eqn:X; try discriminate.
    apply dummy_root_idle in X; try assumption. destruct X as [-> E]. rewrite E, E0.
    intros H. inversion H. eauto.
  Qed.
End Run.
