(** Runs do not depend on the traits, be they arguments or found by the type analysis. *)

Require Import Coq.Strings.String Coq.Lists.List Coq.Bool.Bool Coq.Arith.Arith Coq.NArith.NArith Lia.
Require Import Verif.Syntax Verif.Context Verif.ExprModel Verif.TypeAnalysis Verif.AutoEnum.
Require Import Verif.AstInd Verif.RunLemmas.
Import ListNotations.
Open Scope string_scope.
Open Scope list_scope.

Section Moves.
(** How the two lists of traits of a context are changed. *)
Context {h : list path -> list path -> list path * list path}.

(** The context with its traits changed. *)
Definition rt (cx : ctx) : ctx :=
  Ctx (cx_ident cx) (cx_variants cx) (cx_marker cx) (cx_markers cx) (cx_root cx) (cx_has_child cx)
      (cx_mode cx) (cx_last cx) (cx_errs cx) (fst (h (cx_args cx) (cx_traits cx))) (snd (h (cx_args cx) (cx_traits cx))).

(** The result with that context. *)
Definition rmap {A} (r : res (A * ctx)) : res (A * ctx) :=
  match r with
  | ROk (a, cx) => ROk (a, rt cx)
  | RFuel => RFuel
  | RPanic s => RPanic s
  end.

(** A run does the same after the move. *)
Definition cm {A} (m : M A) : Prop := forall cx, m (rt cx) = rmap (m cx).

Lemma cm_ret {A} (a : A) : cm (ret a).
Proof. intros cx. reflexivity. Qed.

Lemma cm_bind {A B} (m : M A) (k : A -> M B) : cm m -> (forall a, cm (k a)) -> cm (bind m k).
Proof.
  intros Hm Hk cx. unfold bind. rewrite (Hm cx). destruct (m cx) as [[a c]| |]; cbn [rmap]; auto. apply Hk.
Qed.

Lemma cm_bind_ret {A B} (a : A) (k : A -> M B) : cm (k a) -> cm (bind (ret a) k).
Proof. intros H cx. apply H. Qed.

Lemma cm_gets {A} (f : ctx -> A) : (forall cx, f (rt cx) = f cx) -> cm (gets f).
Proof. intros H cx. unfold gets. rewrite H. reflexivity. Qed.

Lemma cm_panic {A} s : cm (@panic A s).
Proof. intros cx. reflexivity. Qed.

Lemma cm_fuel {A} : cm (@out_of_fuel A).
Proof. intros cx. reflexivity. Qed.

Lemma cm_massert f s : (forall cx, f (rt cx) = f cx) -> cm (massert f s).
Proof. intros H cx. unfold massert. rewrite H. destruct (f cx); reflexivity. Qed.

Lemma cm_modify f : (forall cx, f (rt cx) = rt (f cx)) -> cm (modify f).
Proof. intros H cx. unfold modify. rewrite H. reflexivity. Qed.

Lemma cm_error e : cm (error e).
Proof. apply cm_modify. reflexivity. Qed.

Lemma cm_mapM {A B} (f : A -> M B) l : Forall (fun x => cm (f x)) l -> cm (mapM f l).
Proof.
  induction l; cbn [mapM]; intros H; [apply cm_ret|]. inversion H; subst.
  apply cm_bind; [assumption|intros; apply cm_bind; [auto|intros; apply cm_ret]].
Qed.

Lemma cm_optM {A B} (f : A -> M B) o : opt_all (fun x => cm (f x)) o -> cm (optM f o).
Proof. destruct o; cbn; intros H; [apply cm_bind; [assumption|]; intros|]; apply cm_ret. Qed.

Lemma cm_mapM_all {A B} (f : A -> M B) l : (forall x, cm (f x)) -> cm (mapM f l).
Proof. intros H. apply cm_mapM. apply Forall_forall. auto. Qed.

Lemma cm_optM_all {A B} (f : A -> M B) o : (forall x, cm (f x)) -> cm (optM f o).
Proof. intros H. apply cm_optM. destruct o; cbn; auto. Qed.

Lemma in_child_cm {A} child (f : M A) : cm (in_child child f).
Proof.
  intros cx. unfold in_child. destruct (f child) as [[x c']| |]; try reflexivity.
  revert cx. change (cm (join_child c' ;;; ret x)). apply cm_bind; [|intros; apply cm_ret].
  unfold join_child. apply cm_bind; [apply cm_massert; reflexivity|intros].
  apply cm_bind; [|intros]; apply cm_modify; reflexivity.
Qed.

Lemma make_child_cm i toks : cm (make_child i toks).
Proof.
  unfold make_child. apply cm_bind; [apply cm_massert; reflexivity|intros _].
  apply cm_bind; [apply cm_gets; reflexivity|intros ms]. apply cm_bind; [apply cm_gets; reflexivity|intros es].
  apply cm_bind; [|intros; apply cm_ret]. apply cm_modify. reflexivity.
Qed.

Lemma walk_arm_cm f x : (forall e, cm (f e)) -> cm (walk_arm f x).
Proof.
  intros H. destruct x. cbn [walk_arm].
  apply cm_bind; [apply cm_optM_all; auto|]. intros. apply cm_bind; auto. intros; apply cm_ret.
Qed.

Lemma walk_local_cm f x : (forall e, cm (f e)) -> cm (walk_local f x).
Proof.
  intros H. destruct x as [a p t i d]. cbn [walk_local].
  apply cm_bind; [apply cm_optM_all; auto|]. intros.
  apply cm_bind; [apply cm_optM_all; auto|]. intros; apply cm_ret.
Qed.

Lemma walk_stmt_cm fe fl s : (forall e, cm (fe e)) -> (forall e, cm (fl e)) -> cm (walk_stmt fe fl s).
Proof.
  intros He Hl. destruct s; cbn [walk_stmt]; try apply cm_ret;
    (apply cm_bind; [auto|intros; apply cm_ret]).
Qed.

Lemma walk_expr_cm V e :
  (forall x, cm (on_expr V x)) -> (forall x, cm (on_stmt V x)) -> (forall x, cm (on_arm V x)) ->
  cm (walk_expr V e).
Proof.
  intros He Hs Ha.
  destruct e; cbn [walk_expr]; try apply cm_ret;
    repeat first [ apply cm_bind | intros; apply cm_ret
                 | apply cm_mapM_all; assumption | apply cm_optM_all; assumption
                 | apply He | match goal with |- forall _, _ => intro end ].
Qed.

Lemma cm_next a e : cm (next_expr_with_attrs a e).
Proof. intros cx. reflexivity. Qed.

Lemma cm_replace o : cm (replace_boxed_expr o).
Proof.
  intros cx. unfold replace_boxed_expr. change (is_marker_expr (rt cx)) with (is_marker_expr cx).
  destruct (is_marker_expr cx _); [reflexivity|].
  assert (H : forall e, cm (e' <- next_expr e ;; ret (Some e'))) by (intros e; apply cm_bind; [apply cm_next|intros; apply cm_ret]).
  apply H.
Qed.

(** What is read about the code does not involve the traits. *)
Section Reads.
  Variable cx : ctx.

  Lemma rt_on_last {A} (f g : stmt -> A) d b : Forall (fun s => f s = g s) b -> on_last f d b = on_last g d b.
  Proof. induction 1 as [|x l E F IH]; [reflexivity|]. cbn [on_last]. destruct l; [exact E|exact IH]. Qed.

  Lemma rt_unreachable_both :
    (forall e, is_unreachable (rt cx) e = is_unreachable cx e)
    /\ (forall s, is_unreachable_stmt (rt cx) s = is_unreachable_stmt cx s)
    /\ (forall x, match x with Arm _ _ _ b _ => is_unreachable (rt cx) b = is_unreachable cx b end)
    /\ (forall x, match x with Local _ _ _ (Some e) _ => is_unreachable (rt cx) e = is_unreachable cx e | _ => True end).
  Proof.
    apply ast_ind; intros; cbn [is_unreachable is_unreachable_stmt e_attrs]; try reflexivity; try assumption;
      try (destruct (any_empty_attr a NEVER || any_attr a NAME); [reflexivity|]);
      try reflexivity; try assumption.
    - apply rt_on_last. assumption.
    - destruct k; try reflexivity. apply rt_on_last. assumption.
    - induction H0 as [|[]]; [reflexivity|]. cbn [forallb]. congruence.
    - destruct l as [? ? ? [] ?]; assumption || reflexivity.
  Qed.
  Lemma rt_unreachable e : is_unreachable (rt cx) e = is_unreachable cx e.
  Proof. apply rt_unreachable_both. Qed.
  Lemma rt_unreachable_stmt e : is_unreachable_stmt (rt cx) e = is_unreachable_stmt cx e.
  Proof. apply rt_unreachable_both. Qed.

  Lemma rt_skip_arm x : skip_arm (rt cx) x = skip_arm cx x.
  Proof. destruct x. unfold skip_arm. rewrite rt_unreachable. reflexivity. Qed.
  Lemma rt_skip_block b : skip_block (rt cx) b = skip_block cx b.
  Proof.
    unfold skip_block. apply rt_on_last. apply Forall_forall. intros s _.
    destruct s as [| |? []|]; rewrite ?rt_unreachable, ?rt_unreachable_stmt; reflexivity.
  Qed.

  Lemma rt_fold_list {A B} (plus : A -> A -> A) z (f g : B -> A) l :
    Forall (fun s => f s = g s) l -> fold_list plus z f l = fold_list plus z g l.
  Proof. induction 1 as [|x l E F IH]; [reflexivity|]. cbn. rewrite E. unfold fold_list in IH. rewrite IH. reflexivity. Qed.
  Lemma rt_fold_opt {A B} (z : A) (f g : B -> A) o :
    opt_all (fun s => f s = g s) o -> fold_opt z f o = fold_opt z g o.
  Proof. destruct o; auto. Qed.

  Lemma rt_count_both :
    (forall e, fn_count_expr (rt cx) e = fn_count_expr cx e)
    /\ (forall s, fn_count_stmt (rt cx) s = fn_count_stmt cx s)
    /\ (forall x, fn_count_arm (rt cx) x = fn_count_arm cx x)
    /\ (forall x, fn_count_local (rt cx) x = fn_count_local cx x).
  Proof.
    assert (N : forall e, fn_count_node (rt cx) e = fn_count_node cx e) by reflexivity.
    apply ast_ind; intros; cbn [fn_count_expr fn_count_stmt fn_count_arm fn_count_local enters_closure
        fold_expr fold_stmt fold_arm fold_local]; rewrite ?N; try reflexivity; try assumption;
      repeat match goal with
             | H : Forall _ _ |- _ => apply (rt_fold_list fc_plus fc_zero) in H; rewrite H; clear H
             | H : opt_all _ _ |- _ => apply (rt_fold_opt fc_zero) in H; rewrite H; clear H
             | H : fn_count_expr (rt _) _ = _ |- _ => rewrite H; clear H
             | H : fn_count_local (rt _) _ = _ |- _ => rewrite H; clear H
             end; reflexivity.
  Qed.
  Lemma rt_count_expr e : visit_fn_expr (rt cx) e = visit_fn_expr cx e.
  Proof. apply rt_count_both. Qed.
  Lemma rt_count_block b : visit_fn_block (rt cx) b = visit_fn_block cx b.
  Proof. unfold visit_fn_block. apply rt_fold_list. apply Forall_forall. intros; apply rt_count_both. Qed.
End Reads.

Ltac pp := repeat first
  [ apply cm_bind | apply cm_ret | apply cm_gets; reflexivity | apply cm_massert; reflexivity | apply cm_error
  | apply cm_next | apply cm_replace | apply cm_panic | assumption
  | match goal with |- cm (match ?x with _ => _ end) => destruct x end
  | match goal with |- forall _, _ => intro end ].

Lemma loop_cm :
  (forall e label nested, cm (loop_expr label nested e))
  /\ (forall s label nested, cm (loop_stmt label nested s))
  /\ (forall x label nested, cm (loop_arm label nested x))
  /\ (forall x label nested, cm (loop_local label nested x)).
Proof.
  assert (L : forall A (f : option string -> bool -> A -> M A) l label nested,
             Forall (fun x => forall la n, cm (f la n x)) l -> cm (mapM (f label nested) l)).
  { intros. apply cm_mapM. eapply Forall_impl; [|eassumption]. cbn. auto. }
  assert (O : forall A (f : option string -> bool -> A -> M A) o label nested,
             opt_all (fun x => forall la n, cm (f la n x)) o -> cm (optM (f label nested) o)).
  { intros. apply cm_optM. destruct o; cbn in *; auto. }
  apply ast_ind; intros; cbn [loop_expr loop_stmt loop_arm loop_local e_attrs];
    try (destruct (any_empty_attr a NEVER); [apply cm_ret|]);
    cbn [walk_expr walk_stmt walk_arm walk_local on_expr on_stmt on_arm on_local];
    try (destruct k); try (destruct label); cbn [walk_expr on_expr on_stmt on_arm on_local];
    try solve [ repeat first [ apply cm_bind | apply cm_ret | apply L; assumption | apply O; assumption
                 | match goal with H : _ |- _ => apply H end
                 | match goal with |- forall _, _ => intro end ] ].
  - destruct (_ || _); [|apply cm_bind; [apply O; assumption|intros; apply cm_ret]].
    destruct e as [y|]; pp; try (apply H).
  - destruct (_ || _); [|apply cm_bind; [apply O; assumption|intros; apply cm_ret]].
    destruct e as [y|]; pp; try (apply H).
Qed.

Lemma visit_last_block_cm b : cm (visit_last_block b).
Proof. unfold visit_last_block, next_expr. apply cm_bind; [apply cm_gets; intros; apply rt_skip_block|]. pp. Qed.

Lemma visit_last_if_cm : forall e, cm (visit_last_expr_if e).
Proof.
  refine (proj1 (ast_ind (fun e => cm (visit_last_expr_if e)) (fun _ => True)
                   (fun _ => True) (fun _ => True) _ _ _ _ _ _ _ _ _ _ _ _ _ _ _ _ _ _ _ _ _ _ _ _ _ _));
    intros; try exact I; cbn [visit_last_expr_if]; try apply cm_ret.
  apply cm_bind; [apply visit_last_block_cm|intros].
  apply cm_bind; [|intros; apply cm_ret].
  destruct els as [els|]; [|pp]. cbn in H1.
  destruct els; try apply cm_panic.
  - apply cm_bind; [apply visit_last_block_cm|intros; apply cm_ret].
  - apply cm_bind; [exact H1|intros; apply cm_ret].
Qed.

Lemma map_last_cm f b :
  Forall (fun s => match s with SExpr e _ => cm (f e) | _ => True end) b ->
  cm (map_last_expr f b).
Proof.
  induction b as [|s r IH]; intros H; [apply cm_ret|]. inversion H; subst.
  destruct r as [|s2 r].
  - cbn [map_last_expr]. destruct s; try apply cm_ret. destruct semi; pp.
  - change (map_last_expr f (s :: s2 :: r)) with
        (r' <- map_last_expr f (s2 :: r) ;; ret (s :: r')).
    apply cm_bind; [auto|intros; apply cm_ret].
Qed.

Lemma child_expr_cm : forall e, cm (child_expr e).
Proof.
  refine (proj1 (ast_ind (fun e => cm (child_expr e))
                   (fun s => match s with SExpr e _ => cm (child_expr e) | _ => True end)
                   (fun _ => True) (fun _ => True)
                   _ _ _ _ _ _ _ _ _ _ _ _ _ _ _ _ _ _ _ _ _ _ _ _ _ _));
    intros; try exact I; try assumption; cbn [child_expr];
    (apply cm_bind; [apply cm_gets; intros; rewrite rt_unreachable; reflexivity|]; intros []; [apply cm_ret|]);
    try apply cm_ret.
  - apply cm_bind; [apply map_last_cm; assumption|intros; apply cm_ret].
  - destruct k; try apply cm_ret.
    apply cm_bind; [apply map_last_cm; assumption|intros; apply cm_ret].
  - apply cm_bind; [|intros; apply cm_ret]. apply cm_mapM_all. intros x.
    unfold visit_last_arm, next_expr. destruct x. apply cm_bind; [apply cm_gets; intros; apply rt_skip_arm|]. pp.
  - apply visit_last_if_cm.
  - apply cm_bind; [|intros; apply cm_ret]. unfold visit_last_expr_loop.
    apply cm_mapM_all. intros s. apply loop_cm.
  - pp.
  - pp.
Qed.

Lemma child_block_cm b : cm (map_last_expr child_expr b).
Proof. apply map_last_cm. apply Forall_forall. intros [] _; auto. apply child_expr_cm. Qed.

Lemma find_remove_attrs_cm sc a : cm (find_remove_attrs sc a).
Proof.
  unfold find_remove_attrs. destruct (sc_foreign sc); [apply cm_ret|].
  apply cm_bind.
  - destruct (find_remove_attr a NEVER) as [[x a']|]; pp.
  - intros a2. destruct (find_remove_attr a2 REC) as [[x a']|]; pp.
Qed.

Lemma visit_nested_cm sc e a : cm (visit_nested sc e a).
Proof.
  unfold visit_nested. apply cm_bind; [apply cm_massert; reflexivity|intros].
  destruct (is_path_only a); [apply child_expr_cm|pp].
Qed.

Section Engine.
  Variable hash : node -> N.
  Variable ta : bool.

  Lemma vs_visit_expr_cm R V e b :
    (forall x, cm (on_expr V x)) -> (forall x, cm (on_stmt V x)) -> (forall x, cm (on_arm V x)) ->
    cm (vs_visit_expr hash ta R V e b).
  Proof.
    intros He Hs Ha. unfold vs_visit_expr.
    destruct (find_remove_attr (e_attrs e) NAME) as [[at_ a']|]; [|apply walk_expr_cm; auto].
    assert (W : cm (walk_expr V (set_attrs e a'))) by (apply walk_expr_cm; auto).
    apply cm_bind; [destruct at_; try apply cm_ret; apply make_child_cm|]. intros r.
    apply cm_bind; [exact W|]. intros x. destruct r; [pp|apply in_child_cm].
  Qed.

  Lemma vs_visit_stmt_cm R V s :
    (forall x, cm (on_expr V x)) -> (forall x, cm (on_stmt V x)) -> (forall x, cm (on_arm V x)) ->
    (forall x, cm (on_local V x)) -> cm (vs_visit_stmt hash ta R V s).
  Proof.
    intros He Hs Ha Hl. destruct s as [[a p t i d]| | |]; cbn [vs_visit_stmt].
    - destruct (find_remove_attr a NAME) as [[at_ a']|]; [|apply walk_stmt_cm; auto].
      assert (W : cm (walk_stmt (on_expr V) (on_local V) (SLocal (Local a' p t i d))))
        by (apply walk_stmt_cm; auto).
      apply cm_bind; [destruct at_; try apply cm_ret; apply make_child_cm|]. intros r.
      apply cm_bind; [exact W|]. intros x. destruct r; [pp|apply in_child_cm].
    - apply cm_ret.
    - apply cm_bind; [apply vs_visit_expr_cm; auto|intros; apply cm_ret].
    - apply walk_stmt_cm; auto.
  Qed.

  Lemma note_child_cm a : cm (note_child a).
  Proof. unfold note_child. destruct any_attr; [apply cm_modify; reflexivity|apply cm_ret]. Qed.

  Lemma unless_error_cm {A} (x : A) m : cm m -> cm (unless_error x m).
  Proof.
    intros H. unfold unless_error. apply cm_bind; [apply cm_gets; reflexivity|].
    intros []; [apply cm_ret|assumption].
  Qed.

  Lemma dummy_cm n :
    (forall e, cm (r_dexpr (engine hash ta n) e)) /\ (forall s, cm (r_dstmt (engine hash ta n) s)).
  Proof.
    induction n as [|n [IHe IHs]]; cbn [engine r_dexpr r_dstmt step].
    - split; intros; apply cm_fuel.
    - split; intros; apply unless_error_cm.
      + apply cm_bind; [apply note_child_cm|intros].
        apply vs_visit_expr_cm; cbn [d_vis on_expr on_stmt on_arm]; auto.
        intros; apply walk_arm_cm; auto.
      + apply cm_bind; [apply note_child_cm|intros].
        apply vs_visit_stmt_cm; cbn [d_vis on_expr on_stmt on_arm on_local]; auto;
          intros; [apply walk_arm_cm|apply walk_local_cm]; auto.
  Qed.

  Lemma visitor_cm n :
    (forall sc b e, cm (r_vexpr (engine hash ta n) sc b e))
    /\ (forall sc s, cm (r_vstmt (engine hash ta n) sc s))
    /\ (forall sc x, cm (r_varm (engine hash ta n) sc x))
    /\ (forall sc x, cm (r_vlocal (engine hash ta n) sc x)).
  Proof.
    induction n as [|n (IHe & IHs & IHa & IHl)]; cbn [engine r_vexpr r_vstmt r_varm r_vlocal step].
    - repeat split; intros; apply cm_fuel.
    - repeat split; intros; apply unless_error_cm.
      + unfold visit_expr. apply cm_bind; [apply cm_massert; reflexivity|intros _].
        apply cm_bind; [apply note_child_cm|intros _]. cbn zeta.
        apply cm_bind; [apply cm_gets; reflexivity|intros mode].
        apply cm_bind.
        { destruct mode; [apply cm_ret| |].
          - unfold visit_return. destruct (_ && _); [|apply cm_ret]. destruct e; pp.
          - unfold visit_try, next_expr. destruct (_ && _); [|apply cm_ret]. destruct e; pp. }
        intros e1. apply cm_bind.
        { destruct (sc_foreign _); [apply cm_ret|].
          destruct (find_remove_attr (e_attrs e1) NESTED) as [[x a']|]; [|apply cm_ret].
          apply visit_nested_cm. }
        intros e2. apply cm_bind.
        { apply vs_visit_expr_cm; cbn [v_vis on_expr on_stmt on_arm]; auto.
          intros; apply IHe. }
        intros e3. apply cm_bind; [apply cm_gets; reflexivity|intros cur].
        destruct (_ || _); [|apply cm_ret]. apply cm_bind.
        * unfold visit_marker_macro. apply cm_bind; [apply cm_massert; reflexivity|intros _].
          apply cm_bind; [apply cm_gets; reflexivity|intros ex].
          destruct e3; try apply cm_ret. destruct m as [p x]. destruct ex; pp.
        * intros e4. unfold find_remove_attrs_expr. apply cm_bind; [apply find_remove_attrs_cm|].
          intros; apply cm_ret.
      + unfold visit_stmt. destruct s;
          try (apply cm_bind; [apply note_child_cm|intros _];
               apply vs_visit_stmt_cm; cbn [v_vis on_expr on_stmt on_arm on_local]; auto; intros; apply IHe).
        apply cm_bind; [apply IHe|intros; apply cm_ret].
      + unfold visit_arm. destruct x as [a p g b c]. apply cm_bind.
        * destruct (sc_foreign sc); [apply cm_ret|].
          destruct (find_remove_attr a NESTED) as [[y a']|]; [|apply cm_ret].
          apply cm_bind; [apply visit_nested_cm|intros; apply cm_ret].
        * intros x1. apply cm_bind; [apply walk_arm_cm; intros; apply IHe|].
          intros []. apply cm_bind; [apply find_remove_attrs_cm|intros; apply cm_ret].
      + unfold visit_local. destruct x as [a p t i d]. apply cm_bind.
        * destruct (sc_foreign sc); [apply cm_ret|].
          destruct (find_remove_attr a NESTED) as [[y a']|]; [|apply cm_ret].
          apply cm_bind; [apply cm_optM_all; intros; apply visit_nested_cm|].
          intros; apply cm_ret.
        * intros x1. apply cm_bind; [apply walk_local_cm; intros; apply IHe|].
          intros []. apply cm_bind; [apply find_remove_attrs_cm|intros; apply cm_ret].
  Qed.
End Engine.

End Moves.

Ltac pp := repeat first
  [ apply cm_bind | apply cm_ret | apply cm_gets; reflexivity | apply cm_massert; reflexivity | apply cm_error
  | apply cm_next | apply cm_replace | apply cm_panic | assumption
  | match goal with |- cm (match ?x with _ => _ end) => destruct x end
  | match goal with |- forall _, _ => intro end ].

(** The found traits moved to the arguments. *)
Definition found_to_args (ps tr : list path) : list path * list path := (ps ++ tr, []).

Lemma build_cm {A} (f : genum -> A -> A) x : @cm found_to_args A (build f x).
Proof.
  intros cx. unfold build. change (has_error (@rt found_to_args cx)) with (has_error cx).
  destruct (has_error cx); [reflexivity|]. change (cx_variants (@rt found_to_args cx)) with (cx_variants cx).
  assert (E : forall e, @cm found_to_args A (error e ;;; ret x)) by (intros; pp).
  destruct (length (cx_variants cx)) as [|[|k]].
  - change (cx_has_child (@rt found_to_args cx)) with (cx_has_child cx). destruct (cx_has_child cx); [reflexivity|]. apply E.
  - apply E.
  - unfold builder_build. cbn [rmap rt found_to_args fst snd cx_args cx_traits cx_ident cx_variants]. rewrite app_nil_r. reflexivity.
Qed.
