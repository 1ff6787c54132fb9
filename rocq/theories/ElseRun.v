(** Proof: an [if] without [else] makes the expansion fail. *)

Require Import Coq.Strings.String Coq.Lists.List Coq.Bool.Bool Coq.Arith.Arith Coq.NArith.NArith.
Require Import Verif.Syntax Verif.Context Verif.ExprModel Verif.TypeAnalysis Verif.AutoEnum Verif.Edits.
Require Import Verif.RunLemmas Verif.ErrorRun Verif.NoValueSpec Verif.NoValueRun Verif.Tails Verif.Changes Verif.Exits Verif.ExitsTop Verif.ChangesTop.
Require Import Verif.Branches Verif.BranchesRun.
Import ListNotations.
Open Scope string_scope.
Open Scope list_scope.

Definition stuck (cx : ctx) : Prop := In ErrNoElse (cx_errs cx).

Lemma if_stuck : forall e cx e' cx', no_else e = true -> visit_last_expr_if e cx = ROk (e', cx') -> stuck cx'.
Proof.
  fix F 1. intros e cx e' cx' N H. destruct e; try discriminate N. destruct els as [els|].
  - pose proof (F els) as G. clear F. cbn [visit_last_expr_if] in H. apply bind_ok in H. destruct H as (t1 & cx1 & _ & H).
    apply bind_ok in H. destruct H as (o & cx2 & H & H2). destruct els; try discriminate N.
    apply bind_ok in H. destruct H as (x & cx3 & H & H3). minv.
    eapply G; [|exact H]; exact N.
  - clear F. cbn [visit_last_expr_if] in H. minv. unfold stuck. cbn. apply in_or_app. right. left. reflexivity.
Qed.

Lemma bare_value cx a c b o : bare_chain (EIf a c b o) = true -> is_unreachable cx (EIf a c b o) = false.
Proof.
  intros N. assert (NA : no_help a = true) by (cbn in N; destruct o; [apply andb_true_iff in N; tauto|exact N]).
  destruct (no_help_named _ NA) as (A & _ & NN & _).
  destruct (is_unreachable cx _) eqn:E; [|reflexivity]. exfalso. apply unreachable_iff in E.
  inversion E as [? P|? P| | | | | | | | | |]; subst.
  - apply has_plain_named in P. cbn [e_attrs] in P. congruence.
  - apply has_any_named in P. cbn [e_attrs] in P. congruence.
Qed.

Lemma value_up cx e y : ends_with e y -> is_unreachable cx y = false -> is_unreachable cx e = false.
Proof.
  intros H E. destruct (is_unreachable cx e) eqn:U; [|reflexivity]. exfalso. apply unreachable_iff in U.
  assert (no_value (ctx_marker cx) y).
  { clear E. induction H as [|a l r e y N H IH|a r e y N H IH|a e m l y N H IH|a e y N H IH]; [exact U|apply IH..];
      [eapply no_value_block|eapply no_value_unsafe|eapply no_value_method|eapply no_value_paren]; eassumption. }
  apply unreachable_iff in H0. congruence.
Qed.

Lemma map_last_snoc f r e cx b' cx' : map_last_expr f (r ++ [SExpr e false]) cx = ROk (b', cx') ->
  exists e', f e cx = ROk (e', cx').
Proof.
  revert b'. induction r as [|s r IH]; intros b' H.
  - cbn in H. minv. eauto.
  - cbn [app map_last_expr] in H. destruct (r ++ [SExpr e false]) eqn:E; [destruct r; discriminate|]. minv. eauto.
Qed.

Lemma end_stuck e a c b o : ends_with e (EIf a c b o) -> bare_chain (EIf a c b o) = true -> no_else (EIf a c b o) = true ->
  forall cx e' cx', visit_last cx = true -> child_expr e cx = ROk (e', cx') -> stuck cx'.
Proof.
  intros W B N. remember (EIf a c b o) as y eqn:EY. pose proof W as W0.
  induction W as [y|a0 l r e y NH W IH|a0 r e y NH W IH|a0 e m l y NH W IH|a0 e y NH W IH]; intros cx e' cx' V H;
    (assert (U : is_unreachable cx y = false) by (subst y; apply bare_value; exact B)); pose proof (value_up cx _ _ W0 U) as UE.
  - subst y. cbn [child_expr] in H. unfold bind at 1, gets at 1 in H. rewrite V, UE in H. cbn [negb orb] in H. eapply if_stuck; eassumption.
  - cbn [child_expr] in H. unfold bind at 1, gets at 1 in H. rewrite V, UE in H. cbn [negb orb] in H. minv.
    match goal with K : map_last_expr _ _ _ = ROk _ |- _ => apply map_last_snoc in K; destruct K as (x & K) end. eapply IH; eassumption.
  - cbn [child_expr] in H. unfold bind at 1, gets at 1 in H. rewrite V, UE in H. cbn [negb orb] in H. minv.
    match goal with K : map_last_expr _ _ _ = ROk _ |- _ => apply map_last_snoc in K; destruct K as (x & K) end. eapply IH; eassumption.
  - cbn [child_expr] in H. unfold bind at 1, gets at 1 in H. rewrite V, UE in H. cbn [negb orb] in H. minv. eapply IH; eassumption.
  - cbn [child_expr] in H. unfold bind at 1, gets at 1 in H. rewrite V, UE in H. cbn [negb orb] in H. minv. eapply IH; eassumption.
Qed.

Section Top.
  Variables (hash : node -> N) (ta : bool) (n : nat).
  Let R := engine hash ta n.

  Lemma stuck_errs cx : stuck cx -> cx_errs cx <> [].
  Proof. unfold stuck. destruct (cx_errs cx); [contradiction|discriminate]. Qed.
  Lemma vexpr_stuck sc b e cx x cx' : stuck cx -> r_vexpr R sc b e cx = ROk (x, cx') -> stuck cx'.
  Proof.
    intros S. unfold R. destruct n as [|k]; [discriminate|].
    destruct (errors_stop hash ta k cx (stuck_errs _ S)) as (E & _). rewrite E. intros H. injection H as <- <-. exact S.
  Qed.
  Lemma dexpr_stuck e cx x cx' : stuck cx -> r_dexpr R e cx = ROk (x, cx') -> stuck cx'.
  Proof.
    intros S. unfold R. destruct n as [|k]; [discriminate|].
    destruct (errors_stop hash ta k cx (stuck_errs _ S)) as (_ & _ & _ & _ & E & _). rewrite E. intros H. injection H as <- <-. exact S.
  Qed.
  Lemma vstmts_stuck sc b : forall cx x cx', stuck cx -> mapM (r_vstmt R sc) b cx = ROk (x, cx') -> stuck cx'.
  Proof.
    induction b as [|s b IH]; intros cx x cx' S H; cbn [mapM] in H; minv; [exact S|].
    match goal with K : r_vstmt _ _ _ _ = ROk _, K2 : mapM _ _ _ = ROk _ |- _ => eapply IH; [|exact K2]; revert K end.
    unfold R. destruct n as [|k]; [discriminate|]. destruct (errors_stop hash ta k cx (stuck_errs _ S)) as (_ & E & _). rewrite E.
    intros K. injection K as <- <-. exact S.
  Qed.
  Lemma dstmts_stuck b : forall cx x cx', stuck cx -> mapM (r_dstmt R) b cx = ROk (x, cx') -> stuck cx'.
  Proof.
    induction b as [|s b IH]; intros cx x cx' S H; cbn [mapM] in H; minv; [exact S|].
    match goal with K : r_dstmt _ _ _ = ROk _, K2 : mapM _ _ _ = ROk _ |- _ => eapply IH; [|exact K2]; revert K end.
    unfold R. destruct n as [|k]; [discriminate|]. destruct (errors_stop hash ta k cx (stuck_errs _ S)) as (_ & _ & _ & _ & _ & E). rewrite E.
    intros K. injection K as <- <-. exact S.
  Qed.
  Lemma build_stuck {A} (f : genum -> A -> A) x cx y cx' : stuck cx -> build f x cx = ROk (y, cx') -> stuck cx'.
  Proof.
    intros S. unfold build, has_error. pose proof (stuck_errs _ S) as E. destruct (cx_errs cx); [congruence|].
    intros H. injection H as <- <-. exact S.
  Qed.

  Section End.
    Variables (a : list attr) (c : expr) (b : list stmt) (o : option expr) (m : string).
    Hypothesis B : bare_chain (EIf a c b o) = true.
    Hypothesis N : no_else (EIf a c b o) = true.

    Lemma body_stuck e cx x cx' : ends_with e (EIf a c b o) -> visit_last cx = true -> expand_body ta R e cx = ROk (x, cx') -> stuck cx'.
    Proof.
      intros W V H. unfold expand_body in H. minv. assert (S : stuck cx0) by (eapply end_stuck; eassumption).
      destruct (ta_dummy ta cx0); [eapply dexpr_stuck|eapply vexpr_stuck]; eassumption.
    Qed.
    Lemma expand_stuck e t cx x cx' : value_in m e (EIf a c b o) t -> t <> TakesQuestions ->
      cx_mode cx = VDefault -> cx_last cx = LDefault -> cx_root cx = true -> cx_marker cx = m ->
      expand_expr ta R e cx = ROk (x, cx') -> stuck cx'.
    Proof.
      intros V Q MD L RT M H. assert (VL : visit_last cx = true) by (unfold visit_last; rewrite MD, L; reflexivity).
      unfold expand_expr in H. unfold bind at 1, gets at 1 in H. rewrite VL in H.
      inversion V as [ca ps bd y W|e0 y CL W]; subst.
      - minv. destruct (count_exits cx RT) as (E & _).
        unfold closure_takes in Q. rewrite <- (E bd (Place false false) eq_refl) in Q.
        unfold visit_fn_expr in *.
        match goal with K : expand_body _ _ _ _ = ROk _ |- _ => eapply body_stuck; [exact W| |exact K] end.
        destruct (2 <=? fst (fn_count_expr cx bd))%nat; [congruence|]. unfold visit_last. cbn. rewrite L. reflexivity.
      - eapply body_stuck; [exact W|exact VL|]. destruct e; try discriminate CL; exact H.
    Qed.
  End End.
End Top.

Section Attribute.
  Variables (hash : node -> N) (ta : bool) (n : nat) (args : list token) (ps : list path) (mo : option string).
  Hypothesis parsed : parse_args args = inr (ps, mo).
  Hypothesis some : ps <> [].

  Lemma fn_mode_last out b t cx u cx' : fn_takes (own_marker mo) b out t -> t <> TakesQuestions ->
    cx_mode cx = VDefault -> cx_last cx = LDefault -> cx_root cx = true -> cx_marker cx = own_marker mo ->
    fn_mode out b cx = ROk (u, cx') -> visit_last cx' = true /\ cx_args cx' = cx_args cx.
  Proof.
    intros FT Q MD L RT M H. assert (VL : visit_last cx = true) by (unfold visit_last; rewrite MD, L; reflexivity).
    unfold fn_mode in H. unfold bind at 1, gets at 1 in H. rewrite L in H. destruct out as [ty|]; [|minv; auto].
    assert (X : (if is_result_impl ty then
            count <- gets (fun cx => visit_fn_block cx b) ;;
            if (2 <=? fst count)%nat then modify (set_mode VTry) else ret tt
          else ret tt) cx = ROk (u, cx') -> (forall bs, ty <> TImpl bs) -> visit_last cx' = true /\ cx_args cx' = cx_args cx).
    { intros K NI. destruct (is_result_impl ty) eqn:RI; [|minv; auto]. apply result_impl_true in RI.
      unfold bind at 1, gets at 1 in K. rewrite (count_body cx b RT), M in K.
      inversion FT as [|? ? ?|? N1 N2]; subst; [congruence|congruence|].
      specialize (N2 _ eq_refl RI). apply Nat.leb_gt in N2. rewrite N2 in K. minv. auto. }
    destruct ty; try (apply X; [exact H|intros; discriminate]). minv. cbn. unfold visit_last. cbn. rewrite L. auto.
  Qed.

  Theorem no_else_errors i a c b o t out :
    value_of (own_marker mo) i (EIf a c b o) t -> t <> TakesQuestions ->
    bare_chain (EIf a c b o) = true -> no_else (EIf a c b o) = true ->
    attribute hash ta n args i = ROk out -> exists l, out = Errors l /\ In ErrNoElse l.
  Proof.
    intros V Q B N H. unfold attribute in H. destruct (ctx_root (enum_name (hash (NInput i))) args) as [er|cx] eqn:E.
    { unfold ctx_root, ctx_new in E. rewrite parsed in E. destruct mo; discriminate. }
    destruct (root_facts _ _ _ _ _ parsed E) as (_ & _ & M & RT & A & MD & L).
    assert (ND : forall cx1, cx_args cx1 = cx_args cx -> is_dummy cx1 = false)
      by (intros cx1 EA; unfold is_dummy; rewrite EA, A; destruct ps; [congruence|reflexivity]).
    destruct (expand_input ta (engine hash ta n) i cx) as [[i' cx']| |] eqn:X; try discriminate.
    assert (S : stuck cx').
    2: { injection H as <-. unfold stuck in S. destruct (cx_errs cx') as [|e l]; [contradiction|]. eauto. }
    clear H. unfold expand_input in X.
    assert (PE : forall e cx1 e' cx2, value_in (own_marker mo) e (EIf a c b o) t -> cx1 = cx ->
      expand_parent_expr ta (engine hash ta n) e false cx1 = ROk (e', cx2) -> stuck cx2).
    { intros e cx1 e' cx2 VI -> K. unfold expand_parent_expr in K. cbn iota in K.
      apply bind_ok in K. destruct K as (u & cx3 & K1 & K). minv. rewrite (ND cx eq_refl) in K. minv.
      eapply build_stuck; [|eassumption]. eapply expand_stuck; eassumption. }
    inversion V as [e y x VI|e y x VI|a0 p t0 e d y x VI|a0 sg out0 r e y x FT W]; subst.
    - minv. eapply PE; [exact VI|reflexivity|eassumption].
    - cbn [expand_parent_stmt] in X. minv. eapply PE; [exact VI|reflexivity|eassumption].
    - cbn [expand_parent_stmt] in X. apply bind_ok in X. destruct X as (s' & cx1 & X & X2). minv.
      match goal with K : expand_parent_local _ _ _ _ = ROk _ |- _ => rename K into K0 end.
      unfold expand_parent_local in K0. apply bind_ok in K0. destruct K0 as (t' & cx2 & K1 & K).
      assert (F : cx_args cx2 = cx_args cx /\ cx_mode cx2 = VDefault /\ cx_last cx2 = LDefault /\ cx_root cx2 = true /\ cx_marker cx2 = own_marker mo).
      { unfold local_ty in K1. destruct ta; [|minv; auto]. destruct t0 as [ty|]; [|minv; auto].
        unfold bind at 1, gets at 1 in K1. destruct (collect_impl_trait _ _ _) as [tr fd]. minv. cbn. auto. }
      destruct F as (F1 & F2 & F3 & F4 & F5). unfold bind at 1, gets at 1 in K. rewrite (ND _ F1) in K. minv.
      eapply build_stuck; [|eassumption]. eapply expand_stuck; eassumption.
    - cbn [expand_parent_stmt] in X. apply bind_ok in X. destruct X as (s' & cx1 & X & X2). minv.
      match goal with K : expand_parent_item_fn _ _ _ _ _ = ROk _ |- _ => rename K into K0 end.
      unfold expand_parent_item_fn in K0. apply bind_ok in K0. destruct K0 as (u & cx2 & K1 & K).
      destruct (fn_mode_last _ _ _ _ _ _ FT Q MD L RT M K1) as [VL FA].
      apply bind_ok in K. destruct K as (u2 & cx3 & K2 & K).
      assert (F : cx_args cx3 = cx_args cx /\ visit_last cx3 = true).
      { unfold fn_collect in K2. destruct ta; [|minv; auto]. destruct out0 as [ty|]; [|minv; auto].
        unfold bind at 1, gets at 1 in K2. destruct (collect_impl_trait _ _ _) as [tr fd]. minv. cbn. auto. }
      destruct F as (F1 & F2). unfold bind at 1, gets at 1 in K. rewrite (ND _ F1) in K.
      apply bind_ok in K. destruct K as (b1 & cx4 & K3 & K).
      assert (S : stuck cx4).
      { destruct (r ++ [SExpr e false]) as [|s0 r0] eqn:EB; [destruct r; discriminate|]. rewrite <- EB in K3.
        apply map_last_snoc in K3. destruct K3 as (x & K3). eapply end_stuck; eassumption. }
      minv. destruct (ta_dummy ta cx4); [eapply dstmts_stuck; eassumption|]. minv.
      eapply build_stuck; [|eassumption]. eapply vstmts_stuck; eassumption.
  Qed.
End Attribute.
