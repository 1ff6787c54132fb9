(** Errors are kept, stay in order, and stop the traversal. *)

Require Import Coq.Strings.String Coq.Lists.List Coq.Bool.Bool Coq.Arith.Arith Coq.NArith.NArith Lia.
Require Import Verif.Syntax Verif.Context Verif.ExprModel Verif.TypeAnalysis Verif.AutoEnum.
Require Import Verif.Edits Verif.AttrFold Verif.RunLemmas Verif.EditsRun Verif.Frame Verif.VisitRun Verif.EngineRun
  Verif.AttributeRun.
Import ListNotations.
Open Scope string_scope.
Open Scope list_scope.

(** The list of errors [l] begins with [l0]. *)
Definition begins {A} (l0 l : list A) : Prop := exists r, l = l0 ++ r.

Section Errors.
  Variables (hash : node -> N) (ta : bool).

  (** A configuration that asks nothing. *)
  Definition any_cfg : Cfg := MkCfg (fun _ => True) True.

  Lemma any_nok l : @nok any_cfg (fun _ => true) l.
  Proof. apply Forall_forall. intros r _. split; [exact I|]. split; [exact I|]. destruct (snd r); auto. Qed.

  Theorem errors_begin n i cx i' cx' :
    expand_input ta (engine hash ta n) i cx = ROk (i', cx') -> cx_variants cx = [] ->
    begins (cx_errs cx) (cx_errs cx').
  Proof.
    intros H V. pose (K := any_cfg).
    pose proof (@engine_is_good any_cfg (fun _ => true) hash ta eq_refl n) as G.
    assert (B : @bext any_cfg cx cx').
    { unfold expand_input in H. destruct i as [s|e|].
      - apply bind_ok in H. destruct H as (s' & cx1 & H1 & H2). minv.
        destruct (no_item s) eqn:NO.
        + destruct (expand_parent_stmt_good _ ta _ G s NO _ _ _ H1 eq_refl (any_nok _) V) as (t & _ & B & _).
          exact B.
        + destruct s as [|it| |]; try discriminate NO. cbn [expand_parent_stmt] in H1.
          destruct it as [a sg out b| |].
          * minv. match goal with HB : expand_parent_item_fn _ _ _ _ _ = _ |- _ =>
              destruct (expand_parent_fn_good _ ta _ G _ _ _ _ _ HB eq_refl (any_nok _) V) as (t & _ & B & _)
            end. exact B.
          * minv. apply ext_error.
          * minv. apply ext_error.
      - apply bind_ok in H. destruct H as (s' & cx1 & H1 & H2). minv.
        destruct (expand_parent_expr_good _ ta _ G false e _ _ _ H1 eq_refl (any_nok _) V) as (t & _ & B & _).
        exact B.
      - minv. eapply bext_trans; apply ext_error. }
    exact (b_errs _ _ B).
  Qed.

  (** A visitor that meets a context with an error changes nothing. *)
  Theorem errors_stop n cx :
    cx_errs cx <> [] ->
    (forall sc b e, r_vexpr (engine hash ta (S n)) sc b e cx = ROk (e, cx))
    /\ (forall sc s, r_vstmt (engine hash ta (S n)) sc s cx = ROk (s, cx))
    /\ (forall sc x, r_varm (engine hash ta (S n)) sc x cx = ROk (x, cx))
    /\ (forall sc x, r_vlocal (engine hash ta (S n)) sc x cx = ROk (x, cx))
    /\ (forall e, r_dexpr (engine hash ta (S n)) e cx = ROk (e, cx))
    /\ (forall s, r_dstmt (engine hash ta (S n)) s cx = ROk (s, cx)).
  Proof.
    intros E. assert (HE : has_error cx = true).
    { unfold has_error. destruct (cx_errs cx); congruence. }
    repeat split; intros; cbn [engine step r_vexpr r_vstmt r_varm r_vlocal r_dexpr r_dstmt];
      unfold unless_error, bind, gets; rewrite HE; reflexivity.
  Qed.

  (** The errors of a nested attribute reach its parent. *)
  Theorem nested_errors A i toks (w : M A) g cx x cx' :
    nested_run i toks w g cx = ROk (x, cx') ->
    forall e,
      (ctx_new i toks false (cx_markers cx) (cx_errs cx) = inl e -> In e (cx_errs cx'))
      /\ (forall child y cx1 child',
            ctx_new i toks false (cx_markers cx) (cx_errs cx) = inr child ->
            w (set_errs [] (set_markers [] cx)) = ROk (y, cx1) ->
            g y child = ROk (x, child') -> In e (cx_errs child') -> In e (cx_errs cx')).
  Proof.
    intros H e. unfold nested_run, make_child in H. 
    apply bind_ok in H. destruct H as (r & cx1 & H1 & H). minv.
    split.
    - intros E. rewrite E in *. minv. apply in_or_app. right. left. reflexivity.
    - intros child y cx2 child' E W G I. rewrite E in *.
      revert W. match goal with HW : w _ = ROk _ |- _ => intros W; rewrite W in HW; inversion HW; subst end.
      unfold in_child in H. rewrite G in H. unfold join_child in H. minv. apply in_or_app. right. assumption.
  Qed.
End Errors.
