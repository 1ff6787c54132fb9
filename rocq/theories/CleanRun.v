(** Proof: code without annotations, markers and taken exits is left as it is. *)

Require Import Coq.Strings.String Coq.Lists.List Coq.Bool.Bool Coq.Arith.Arith Coq.NArith.NArith.
Require Import Verif.Syntax Verif.ExprModel Verif.Edits.
Require Import Verif.NoValueSpec Verif.Tails Verif.Changes Verif.ChangesInd Verif.ChangesTop Verif.Branches Verif.BranchesRun.
Import ListNotations.
Open Scope string_scope.
Open Scope list_scope.

Section Same.
  Variables (Re : list string -> expr -> expr -> Prop) (Rs : list string -> stmt -> stmt -> Prop)
            (Ra : list string -> arm -> arm -> Prop).
  Variables (ce : expr -> bool) (cs : stmt -> bool) (ca : arm -> bool).
  Hypothesis He : forall t x x', Re t x x' -> ce x = true -> x' = x.
  Hypothesis Hs : forall t x x', Rs t x x' -> cs x = true -> x' = x.
  Hypothesis Ha : forall t x x', Ra t x x' -> ca x = true -> x' = x.

  Lemma seq2_same {A} (R : list string -> A -> A -> Prop) (c : A -> bool) t l l' :
    (forall t x x', R t x x' -> c x = true -> x' = x) -> seq2 R t l l' -> fold_list andb true c l = true -> l' = l.
  Proof.
    intros H. induction 1 as [|t1 t2 x x' l l' H1 H2 IH]; cbn; intros C; [reflexivity|].
    apply andb_true_iff in C. destruct C as [C1 C2]. f_equal; [eapply H; eassumption|auto].
  Qed.
  Lemma maybe2_same t o o' : maybe2 Re t o o' -> fold_opt true ce o = true -> o' = o.
  Proof. destruct 1; cbn; intros C; [reflexivity|]. f_equal. eapply He; eassumption. Qed.

  Lemma parts_same t e e' : parts Re Rs Ra t e e' -> fold_expr andb true ce cs ca e = true -> e' = e.
  Proof.
    destruct 1; cbn [fold_expr]; intros C;
      repeat match goal with H : _ && _ = true |- _ => apply andb_true_iff in H; destruct H end;
      repeat match goal with
             | H : seq2 Rs _ _ _, C : _ = true |- _ => apply (seq2_same _ _ _ _ _ Hs) in H; [|exact C]
             | H : seq2 Re _ _ _, C : _ = true |- _ => apply (seq2_same _ _ _ _ _ He) in H; [|exact C]
             | H : seq2 Ra _ _ _, C : _ = true |- _ => apply (seq2_same _ _ _ _ _ Ha) in H; [|exact C]
             | H : maybe2 Re _ _ _, C : _ = true |- _ => apply maybe2_same in H; [|exact C]
             | H : Re _ _ _, C : _ = true |- _ => apply He in H; [|exact C]
             end; subst; reflexivity.
  Qed.
End Same.

Lemma enter_facts e w : w_foreign w = false -> no_help (e_attrs e) = true ->
  w_foreign (enter e w) = false /\ w_marker (enter e w) = w_marker w /\ w_exits (enter e w) = exits_in e (w_exits w).
Proof.
  intros F N. destruct (no_help_named _ N) as (A & _). unfold enter. rewrite past_same by exact A.
  destruct e; try (repeat split; [exact F|reflexivity..]). destruct k; try (repeat split; [exact F|reflexivity..]).
  destruct (w_exits w) eqn:E; repeat split; try exact F; try reflexivity; cbn; rewrite ?E; reflexivity.
Qed.

Theorem done_clean_all :
  (forall w semi e e', done w semi e e' -> w_foreign w = false -> clean (w_marker w) (w_exits w) e = true -> e' = e)
  /\ (forall w s s', done_stmt w s s' -> w_foreign w = false -> clean_stmt (w_marker w) (w_exits w) s = true -> s' = s)
  /\ (forall w s s', done_arm w s s' -> w_foreign w = false -> clean_arm (w_marker w) (w_exits w) s = true -> s' = s).
Proof.
  pose (Pd w (semi : bool) e e' := w_foreign w = false -> clean (w_marker w) (w_exits w) e = true -> e' = e).
  pose (Pu w (semi : bool) e e' := w_foreign w = false -> attr_named "auto_enum" (e_attrs e) = false ->
    fold_expr andb true (clean (w_marker w) (w_exits w)) (clean_stmt (w_marker w) (w_exits w)) (clean_arm (w_marker w) (w_exits w)) e = true -> e' = e).
  pose (Ps w s s' := w_foreign w = false -> clean_stmt (w_marker w) (w_exits w) s = true -> s' = s).
  pose (Pa w s s' := w_foreign w = false -> clean_arm (w_marker w) (w_exits w) s = true -> s' = s).
  pose (Pl w s s' := w_foreign w = false -> clean_local (w_marker w) (w_exits w) s = true -> s' = s).
  assert (C : cases Pd Pu Ps (fun _ _ _ => True) Pa (fun _ _ _ => True) Pl (fun _ _ _ => True) (fun _ _ _ => True)
                (fun _ _ _ => True) (fun _ _ _ => True) (fun _ _ _ => True) (fun _ _ _ => True)).
  { constructor; try (intros; exact I).
    - intros w semi e e1 e2 e3 e' H1 H2 _ HU H4 F CL. unfold Pu in HU.
      assert (HC : head_clean (w_marker w) (w_exits w) e = true /\ fold_expr andb true (clean (w_marker w) (exits_in e (w_exits w)))
        (clean_stmt (w_marker w) (exits_in e (w_exits w))) (clean_arm (w_marker w) (exits_in e (w_exits w))) e = true)
        by (destruct e; apply andb_true_iff; exact CL).
      destruct HC as [HC FC]. unfold head_clean in HC. apply andb_true_iff in HC. destruct HC as [N HC].
      destruct (enter_facts e w F N) as (EF & EM & EX). destruct (no_help_named _ N) as (A & B & _).
      apply exit_step_none in H1.
      2: { intros [_ K]. rewrite EX in K. clear -K HC. destruct e; try contradiction; cbn [exits_in] in K; destruct (w_exits w); try contradiction; discriminate. }
      subst e1. apply nested_step_none in H2; [|exact B]. subst e2.
      rewrite EM, EX in HU. specialize (HU EF A FC). subst e3.
      apply close_none in H4; [exact H4|exact N|]. intros a p x ->. rewrite EM. cbn in HC. destruct (is_ident p (w_marker w)); [discriminate|reflexivity].
    - intros w semi e e' _ H F A FC. eapply parts_same; [| | |exact H|exact FC]; cbn; intros t x x' [_ K] CX; exact (K F CX).
    - intros w semi e p toks a' e1 c e' R _ _ _ _ F A. apply removes_named in R. congruence.
    - intros w e e' semi _ H F CL. cbn in CL. f_equal. exact (H F CL).
    - intros w i _ _. reflexivity.
    - intros w a m semi _ _. reflexivity.
    - intros w a p t i d l' A _ H F CL. f_equal. exact (H F CL).
    - intros w a x toks a' p t i d l1 c l' R _ _ _ _ _ _ F CL. cbn in CL. apply andb_true_iff in CL. destruct CL as [N _].
      destruct (no_help_named _ N) as (A & _). apply removes_named in R. congruence.
    - intros w x a p g b c g' b' a' NA G _ B AS F CL.
      assert (X : x = Arm a p g b c /\ no_help a = true).
      { inversion NA; subst; cbn in CL; apply andb_true_iff in CL; destruct CL as [N CL];
          [auto|match goal with R : removes _ _ _ _ |- _ => apply removes_named in R end; destruct (no_help_named _ N) as (_ & E & _); congruence]. }
      destruct X as [-> N]. cbn in CL. apply andb_true_iff in CL. destruct CL as [_ CL].
      apply andb_true_iff in CL. destruct CL as [CG CB]. rewrite (attrs_step_same _ _ _ N AS), (B F CB).
      rewrite (maybe2_same _ (clean (w_marker w) (w_exits w)) (fun t x x' K => proj2 K F) _ _ _ G CG). reflexivity.
    - intros w x a p t i d i' d' a' NA G1 G2 AS F CL.
      assert (X : x = Local a p t i d /\ no_help a = true).
      { inversion NA; subst; cbn in CL; apply andb_true_iff in CL; destruct CL as [N CL];
          [auto|match goal with R : removes _ _ _ _ |- _ => apply removes_named in R end; destruct (no_help_named _ N) as (_ & E & _); congruence..]. }
      destruct X as [-> N]. cbn in CL. apply andb_true_iff in CL. destruct CL as [_ CL]. apply andb_true_iff in CL. destruct CL as [C1 C2].
      rewrite (attrs_step_same _ _ _ N AS).
      rewrite (maybe2_same _ (clean (w_marker w) (w_exits w)) (fun t x x' K => proj2 K F) _ _ _ G1 C1).
      rewrite (maybe2_same _ (clean (w_marker w) (w_exits w)) (fun t x x' K => proj2 K F) _ _ _ G2 C2). reflexivity. }
  split; [|split]; intros w.
  - exact (ind_done _ _ _ _ _ _ _ _ _ _ _ _ _ C w).
  - exact (ind_stmt _ _ _ _ _ _ _ _ _ _ _ _ _ C w).
  - exact (ind_arm _ _ _ _ _ _ _ _ _ _ _ _ _ C w).
Qed.
