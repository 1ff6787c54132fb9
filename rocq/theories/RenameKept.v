(** The expansion adds no attributes [auto_enum] that choose a marker. *)

Require Import Coq.Strings.String Coq.Lists.List Coq.Bool.Bool Coq.Arith.Arith.
Require Import Verif.Syntax Verif.Context Verif.ExprModel Verif.TypeAnalysis Verif.AutoEnum.
Require Import Verif.AstInd Verif.RunLemmas Verif.Outside Verif.OutsideRun Verif.Rename Verif.RenamePlain.
Import ListNotations.
Open Scope string_scope.
Open Scope list_scope.

Section Kept.
Variable fm : string -> string.
Notation kept_expr := (Rename.kept_expr fm).
Notation kept_stmt := (Rename.kept_stmt fm).
Notation kept_arm := (Rename.kept_arm fm).
Notation kept_local := (Rename.kept_local fm).

Definition kept_in (e : expr) : bool :=
  match e with
  | EMacro _ (Mac _ (Some x)) => kept_expr x
  | _ => fold_expr andb true kept_expr kept_stmt kept_arm e
  end.
Lemma kept_expr_eq e : kept_expr e = forallb (kept_marker fm) (e_attrs e) && kept_in e.
Proof. destruct e; reflexivity. Qed.

Definition vis_kept (V : vis) (e : expr) : Prop :=
  let E := fun z => kept_expr z = true -> keeps (ok kept_expr) (on_expr V z) in
  let S := fun z => kept_stmt z = true -> keeps (ok kept_stmt) (on_stmt V z) in
  let Ar := fun z => kept_arm z = true -> keeps (ok kept_arm) (on_arm V z) in
  match e with
  | EBlock _ _ b | EBlk _ _ b | ELoop _ _ b => Forall S b
  | EMatch _ s arms => E s /\ Forall Ar arms
  | EIf _ c t els => E c /\ Forall S t /\ opt_all E els
  | EWhile _ _ c b => E c /\ Forall S b
  | EFor _ _ _ c b => E c /\ Forall S b
  | EBreak _ _ o | EReturn _ o => opt_all E o
  | ELet _ _ e | ETry _ e | EParen _ e | EClosure _ _ e => E e
  | EMethodCall _ r _ args | ECall _ r args => E r /\ Forall E args
  | EOther _ _ es => Forall E es
  | EContinue _ _ | EMacro _ _ | EPath _ _ _ | EVerbatim _ => True
  end.
Ltac finish_kept := rewrite ?kept_expr_eq; cbn [e_attrs kept_in fold_expr]; repeat match goal with H : _ = true |- _ => rewrite H end; reflexivity.

Lemma kept_by_walk V e : vis_kept V e -> kept_expr e = true -> keeps (ok kept_expr) (walk_expr V e).
Proof.
  intros H W. rewrite kept_expr_eq in W.
  destruct e; cbn [vis_kept walk_expr e_attrs kept_in fold_expr] in *; split_and;
    repeat first [ apply keeps_ret; finish_kept
                 | eapply keeps_bind; [first [apply keeps_mapM; eassumption | apply keeps_optM; eassumption | match goal with H : _ -> keeps _ ?m |- keeps _ ?m => apply H; assumption end]|intros; cbv beta in *] ].
Qed.
Lemma kept_by_walk_arm f a p g b c : opt_all (fun z => kept_expr z = true -> keeps (ok kept_expr) (f z)) g ->
  (kept_expr b = true -> keeps (ok kept_expr) (f b)) -> kept_arm (Arm a p g b c) = true -> keeps (ok kept_arm) (walk_arm f (Arm a p g b c)).
Proof.
  intros Hg Hb W. change (fold_opt true kept_expr g && kept_expr b = true) in W. split_and. cbn [walk_arm].
  eapply keeps_bind; [apply keeps_optM; eassumption|intros g' Wg]. eapply keeps_bind; [apply Hb; assumption|intros b' Wb]. apply keeps_ret.
  change (fold_opt true kept_expr g' && kept_expr b' = true). cbv beta in *. rewrite Wg, Wb. reflexivity.
Qed.
Lemma kept_by_walk_local f a p t i d : opt_all (fun z => kept_expr z = true -> keeps (ok kept_expr) (f z)) i ->
  opt_all (fun z => kept_expr z = true -> keeps (ok kept_expr) (f z)) d -> kept_local (Local a p t i d) = true ->
  keeps (ok kept_local) (walk_local f (Local a p t i d)).
Proof.
  intros Hg Hb W. change ((forallb (kept_marker fm)) a && (fold_opt true kept_expr i && fold_opt true kept_expr d) = true) in W. split_and. cbn [walk_local].
  eapply keeps_bind; [apply keeps_optM; eassumption|intros g' Wg]. eapply keeps_bind; [apply keeps_optM; eassumption|intros b' Wb]. apply keeps_ret.
  change ((forallb (kept_marker fm)) a && (fold_opt true kept_expr g' && fold_opt true kept_expr b') = true). cbv beta in *. rewrite Wg, Wb, andb_true_iff. auto.
Qed.

Lemma kept_by_next e : kept_expr e = true -> keeps (ok kept_expr) (next_expr e).
Proof. intros W cx a c E. unfold next_expr, next_expr_with_attrs in E. injection E as <- _. cbn. rewrite W. reflexivity. Qed.
Lemma kept_by_replace o : fold_opt true kept_expr o = true -> keeps (opt kept_expr) (replace_boxed_expr o).
Proof.
  intros W cx a c E. unfold replace_boxed_expr in E. set (e := match o with Some e => e | None => unit_expr end) in *.
  assert (We : kept_expr e = true) by (subst e; destruct o; [exact W|reflexivity]).
  destruct (is_marker_expr cx e); [injection E as <- _; exact We|]. apply bind_ok in E. destruct E as (z & c1 & E1 & E2).
  apply kept_by_next in E1; [|exact We]. unfold ret in E2. injection E2 as <- _. exact E1.
Qed.

Lemma kept_by_loop :
  (forall e la n, kept_expr e = true -> keeps (ok kept_expr) (loop_expr la n e))
  /\ (forall s la n, kept_stmt s = true -> keeps (ok kept_stmt) (loop_stmt la n s))
  /\ (forall z la n, kept_arm z = true -> keeps (ok kept_arm) (loop_arm la n z))
  /\ (forall z la n, kept_local z = true -> keeps (ok kept_local) (loop_local la n z)).
Proof.
  assert (L : forall A (P : A -> bool) (f : option string -> bool -> A -> M A) l la n,
           Forall (fun z => forall la n, P z = true -> keeps (ok P) (f la n z)) l -> Forall (fun z => P z = true -> keeps (ok P) (f la n z)) l).
  { intros. eapply Forall_impl; [|eassumption]. cbn. auto. }
  assert (O : forall A (P : A -> bool) (f : option string -> bool -> A -> M A) l la n,
           opt_all (fun z => forall la n, P z = true -> keeps (ok P) (f la n z)) l -> opt_all (fun z => P z = true -> keeps (ok P) (f la n z)) l).
  { intros. destruct l; cbn in *; auto. }
  assert (K : forall e la n, vis_kept (Vis (loop_expr la n) (loop_stmt la n) (loop_arm la n) (loop_local la n)) e -> kept_expr e = true ->
           keeps (ok kept_expr) (walk_expr (Vis (loop_expr la n) (loop_stmt la n) (loop_arm la n) (loop_local la n)) e))
    by (intros; apply kept_by_walk; assumption).
  apply ast_ind; intros;
    try match goal with |- keeps _ (loop_expr _ _ ?e) => pose proof (K e) as Ke end;
    cbn [loop_expr loop_stmt loop_arm loop_local e_attrs];
    try (destruct (any_empty_attr a NEVER); [apply keeps_ret; assumption|]);
    try (apply keeps_ret; assumption);
    try (apply Ke; cbn [vis_kept on_expr on_stmt on_arm]; auto; fail).
  - destruct k; try (apply Ke; cbn [vis_kept on_expr on_stmt on_arm]; auto; fail). apply keeps_ret; assumption.
  - destruct la; [apply Ke; cbn [vis_kept on_expr on_stmt on_arm]; auto|apply keeps_ret; assumption].
  - destruct la; [apply Ke; cbn [vis_kept on_expr on_stmt on_arm]; auto|apply keeps_ret; assumption].
  - destruct la; [apply Ke; cbn [vis_kept on_expr on_stmt on_arm]; auto|apply keeps_ret; assumption].
  - rewrite kept_expr_eq in H0. cbn [e_attrs kept_in fold_expr] in H0. split_and.
    destruct (_ || _).
    + destruct e as [z|]; cbn [opt_all fold_opt] in *.
      * apply keeps_any. intros [].
        -- eapply keeps_bind; [apply H; assumption|]. intros z' W. apply keeps_ret. cbn [fold_opt]; rewrite kept_expr_eq. cbn [e_attrs kept_in fold_expr fold_opt].
           rewrite H0. exact W.
        -- eapply keeps_bind; [apply kept_by_next; eassumption|]. intros call Wc. eapply keeps_bind; [apply H; assumption|]. intros z' W. apply keeps_ret.
           rewrite kept_expr_eq. cbn [e_attrs kept_in fold_expr fold_opt]. rewrite H0. cbv beta in *. destruct call; try exact Wc.
           rewrite kept_expr_eq in Wc |- *. cbn [e_attrs kept_in fold_expr] in *. split_and. rewrite all_cons. cbn. repeat match goal with H : _ = true |- _ => rewrite H end. reflexivity.
      * eapply keeps_bind; [apply (kept_by_replace None); reflexivity|]. intros z' W. apply keeps_ret. rewrite kept_expr_eq. cbn [e_attrs kept_in fold_expr]. cbv beta in W. rewrite H0, W. reflexivity.
    + eapply keeps_bind; [apply keeps_optM; [apply O, H|assumption]|]. intros z' W. apply keeps_ret. rewrite kept_expr_eq. cbn [e_attrs kept_in fold_expr]. cbv beta in W. rewrite H0, W. reflexivity.
  - cbn [walk_stmt]. eapply keeps_bind; [apply H; exact H0|]. intros. apply keeps_ret. assumption.
  - cbn [walk_stmt]. eapply keeps_bind; [apply H; exact H0|]. intros. apply keeps_ret. assumption.
  - apply kept_by_walk_local; auto.
  - apply kept_by_walk_arm; auto.
Qed.

Notation kept_body := (fold_list andb true kept_stmt).
Lemma kept_single e semi : kept_body [SExpr e semi] = kept_expr e && true.
Proof. reflexivity. Qed.
Lemma kept_by_last_block b : kept_body b = true -> keeps (ok kept_body) (visit_last_block b).
Proof.
  intros W. unfold visit_last_block. apply keeps_any. intros []; [apply keeps_ret; exact W|].
  eapply keeps_bind; [apply (kept_by_next (expr_block b)); exact W|]. intros z Wz. apply keeps_ret. cbv beta in Wz. rewrite kept_single, Wz. reflexivity.
Qed.

Lemma kept_block a l b : kept_expr (EBlock a l b) = (forallb (kept_marker fm)) a && kept_body b.
Proof. reflexivity. Qed.
Lemma kept_if a c t o : kept_expr (EIf a c t o) = (forallb (kept_marker fm)) a && (kept_expr c && (kept_body t && fold_opt true kept_expr o)).
Proof. reflexivity. Qed.

Lemma kept_by_last_if : forall e, kept_expr e = true -> keeps (ok kept_expr) (visit_last_expr_if e).
Proof.
  refine (proj1 (ast_ind (fun e => kept_expr e = true -> keeps (ok kept_expr) (visit_last_expr_if e)) (fun _ => True)
                 (fun _ => True) (fun _ => True) _ _ _ _ _ _ _ _ _ _ _ _ _ _ _ _ _ _ _ _ _ _ _ _ _ _));
    intros; try exact I; cbn [visit_last_expr_if]; try (apply keeps_ret; assumption).
  rewrite kept_if in H2. split_and.
  eapply keeps_bind; [apply kept_by_last_block; eassumption|intros t' Wt]. apply (keeps_bind (opt kept_expr)).
  - destruct els as [els|]; [|apply keeps_any; intro; apply keeps_ret; reflexivity]. cbn [opt_all fold_opt] in *.
    destruct els; try (intros ? ? ? E; discriminate E).
    + rewrite kept_block in *. split_and. eapply keeps_bind; [apply kept_by_last_block; assumption|]. intros b' Wb. apply keeps_ret. cbn [fold_opt]. rewrite kept_block. cbv beta in Wb. repeat match goal with H : _ = true |- _ => rewrite H end. reflexivity.
    + eapply keeps_bind; [apply H1; assumption|]. intros b' Wb. apply keeps_ret. exact Wb.
  - intros o Wo. apply keeps_ret. rewrite kept_if. cbv beta in *. repeat match goal with H : _ = true |- _ => rewrite H end. reflexivity.
Qed.

Lemma kept_by_map_last f b :
  Forall (fun s => match s with SExpr e _ => kept_expr e = true -> keeps (ok kept_expr) (f e) | _ => True end) b -> kept_body b = true ->
  keeps (ok kept_body) (map_last_expr f b).
Proof.
  induction b as [|s r IH]; intros H W; [apply keeps_ret; reflexivity|]. inversion H; subst. 
  rewrite all_cons in W. split_and.
  destruct r as [|s2 r].
  - assert (W1 : kept_body [s] = true) by (cbn; repeat match goal with H : _ = true |- _ => rewrite H end; reflexivity).
    cbn [map_last_expr]. destruct s as [| |e []|]; try (apply keeps_ret; exact W1).
    eapply keeps_bind; [apply H2; assumption|]. intros e' We. apply keeps_ret. cbv beta in We. rewrite kept_single, We. reflexivity.
  - change (map_last_expr f (s :: s2 :: r)) with (r' <- map_last_expr f (s2 :: r) ;; ret (s :: r')).
    eapply keeps_bind; [apply IH; assumption|]. intros r' Wr. apply keeps_ret. rewrite all_cons. cbv beta in Wr. repeat match goal with H : _ = true |- _ => rewrite H end. reflexivity.
Qed.

Lemma kept_by_child : forall e, kept_expr e = true -> keeps (ok kept_expr) (child_expr e).
Proof.
  refine (proj1 (ast_ind (fun e => kept_expr e = true -> keeps (ok kept_expr) (child_expr e))
                 (fun s => match s with SExpr e _ => kept_expr e = true -> keeps (ok kept_expr) (child_expr e) | _ => True end)
                 (fun _ => True) (fun _ => True)
                 _ _ _ _ _ _ _ _ _ _ _ _ _ _ _ _ _ _ _ _ _ _ _ _ _ _));
    intros; try exact I; try (match goal with H : _ -> keeps _ ?m |- keeps _ ?m => apply H; assumption end);
    match goal with |- keeps _ (child_expr ?e) => pose proof (kept_by_last_if e) as LI end;
    cbn [child_expr]; (apply keeps_any; intros []; [apply keeps_ret; assumption|]); try (apply keeps_ret; assumption);
    try (apply LI; assumption);
    match goal with H : kept_expr _ = true |- _ => rewrite kept_expr_eq in H; cbn [e_attrs kept_in fold_expr] in H; split_and; rename H into W0 end.
  - eapply keeps_bind; [apply kept_by_map_last; eassumption|]. intros. apply keeps_ret. cbv beta in *. finish_kept.
  - destruct k; try (apply keeps_ret; finish_kept). eapply keeps_bind; [apply kept_by_map_last; eassumption|]. intros. apply keeps_ret. cbv beta in *. finish_kept.
  - eapply keeps_bind; [apply (keeps_mapM kept_arm); [|eassumption]|intros; apply keeps_ret; cbv beta in *; finish_kept].
    apply Forall_forall. intros z _ Wz. unfold visit_last_arm. apply keeps_any. intros []; [apply keeps_ret; assumption|].
    destruct z as [a0 p g b c]. change (fold_opt true kept_expr g && kept_expr b = true) in Wz. split_and.
    eapply keeps_bind; [apply (kept_by_next b); assumption|]. intros b' Wb. apply keeps_ret. change (fold_opt true kept_expr g && kept_expr b' = true).
    cbv beta in *. rewrite Wz, Wb. reflexivity.
  - apply (keeps_bind (ok kept_body)); [|intros; apply keeps_ret; cbv beta in *; finish_kept]. unfold visit_last_expr_loop.
    apply keeps_mapM; [|assumption]. apply Forall_forall. intros s _. apply kept_by_loop.
  - eapply keeps_bind; [apply H; assumption|]. intros. apply keeps_ret. cbv beta in *. finish_kept.
  - eapply keeps_bind; [apply H; assumption|]. intros. apply keeps_ret. cbv beta in *. finish_kept.
Qed.
Lemma kept_by_child_body b : kept_body b = true -> keeps (ok kept_body) (map_last_expr child_expr b).
Proof. apply kept_by_map_last, Forall_forall. intros [] _; auto. apply kept_by_child. Qed.

Lemma kept_by_return sc e : kept_expr e = true -> keeps (ok kept_expr) (visit_return sc e).
Proof.
  intros W. unfold visit_return. destruct (_ && _); [|apply keeps_ret; exact W]. destruct e; try (apply keeps_ret; exact W).
  apply keeps_any. intros []; [apply keeps_ret; exact W|]. rewrite kept_expr_eq in W. cbn [e_attrs kept_in fold_expr] in W. split_and.
  eapply keeps_bind; [apply kept_by_replace; eassumption|]. intros. apply keeps_ret. cbv beta in *. finish_kept.
Qed.
Lemma kept_try_arms err : fold_list andb true kept_arm (try_arms err) = ((kept_expr err && true) && true) && true.
Proof. reflexivity. Qed.
Lemma kept_by_try sc e : kept_expr e = true -> keeps (ok kept_expr) (visit_try sc e).
Proof.
  intros W. unfold visit_try. destruct (_ && _); [|apply keeps_ret; exact W]. destruct e; try (apply keeps_ret; exact W).
  apply keeps_any. intros []; [apply keeps_ret; exact W|]. rewrite kept_expr_eq in W. cbn [e_attrs kept_in fold_expr] in W. split_and.
  eapply keeps_bind; [apply kept_by_next; reflexivity|]. intros z Wz. apply keeps_ret. cbv beta in *.
  rewrite kept_expr_eq. cbn [e_attrs kept_in fold_expr]. rewrite kept_try_arms. repeat match goal with H : _ = true |- _ => rewrite H end. reflexivity.
Qed.
Lemma kept_by_nested sc e a : kept_expr e = true -> keeps (ok kept_expr) (visit_nested sc e a).
Proof.
  intros W. unfold visit_nested. apply keeps_any. intros _. destruct (is_path_only a); [apply kept_by_child; exact W|].
  apply keeps_any. intros. apply keeps_ret. exact W.
Qed.

End Kept.
