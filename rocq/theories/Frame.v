(** Fields of the context that the visitors do not change. *)

Require Import Coq.Strings.String Coq.Lists.List Coq.Bool.Bool Coq.Arith.Arith Coq.NArith.NArith Lia.
Require Import Verif.Syntax Verif.Context Verif.ExprModel Verif.TypeAnalysis Verif.AutoEnum.
Require Import Verif.AstInd Verif.RunLemmas.
Import ListNotations.
Open Scope string_scope.
Open Scope list_scope.

(** The error about too few branches. *)
Definition few (e : err) : bool := match e with ErrFewVariants _ _ => true | _ => false end.

Section Pres.
  (** A relation between contexts before and after. *)
  Variable Q : ctx -> ctx -> Prop.
  Hypothesis Q_refl : forall cx, Q cx cx.
  Hypothesis Q_trans : forall a b c, Q a b -> Q b c -> Q a c.

  (** Every successful run of [m] relates the contexts. *)
  Definition pres {A} (m : M A) : Prop :=
    forall cx a cx', m cx = ROk (a, cx') -> Q cx cx'.

  Lemma pres_ret {A} (a : A) : pres (ret a).
  Proof. intros cx b cx' H. minv. apply Q_refl. Qed.

  Lemma pres_bind {A B} (m : M A) (k : A -> M B) : pres m -> (forall a, pres (k a)) -> pres (bind m k).
  Proof. intros Hm Hk cx b cx' H. minv. eapply Q_trans; [eapply Hm|eapply Hk]; eassumption. Qed.

  Lemma pres_bind_ret {A B} (a : A) (k : A -> M B) : pres (k a) -> pres (bind (ret a) k).
  Proof. intros H cx b cx' E. apply (H cx b cx'). exact E. Qed.

  Lemma pres_gets {A} (f : ctx -> A) : pres (gets f).
  Proof. intros cx b cx' H. minv. apply Q_refl. Qed.

  Lemma pres_panic {A} s : pres (@panic A s).
  Proof. intros cx b cx' H. minv. Qed.

  Lemma pres_fuel {A} : pres (@out_of_fuel A).
  Proof. intros cx b cx' H. minv. Qed.

  Lemma pres_massert f s : pres (massert f s).
  Proof. intros cx b cx' H. minv. apply Q_refl. Qed.

  Lemma pres_modify f : (forall cx, Q cx (f cx)) -> pres (modify f).
  Proof. intros Hf cx b cx' H. minv. apply Hf. Qed.

  Lemma pres_mapM {A B} (f : A -> M B) l : Forall (fun x => pres (f x)) l -> pres (mapM f l).
  Proof.
    induction l; cbn [mapM]; intros H; [apply pres_ret|]. inversion H; subst.
    apply pres_bind; [assumption|intros; apply pres_bind; [auto|intros; apply pres_ret]].
  Qed.

  Lemma pres_optM {A B} (f : A -> M B) o : opt_all (fun x => pres (f x)) o -> pres (optM f o).
  Proof. destruct o; cbn; intros H; [apply pres_bind; [assumption|]; intros|]; apply pres_ret. Qed.

  (** The expansion of a nested attribute: a child context is made, the code is visited, and then
      expanded in the child. *)
  Definition nested_run {A} i toks (w : M A) (g : A -> M A) : M A :=
    r <- make_child i toks ;; x <- w ;;
    match r with
    | inl er => error er ;;; ret x
    | inr child => in_child child (g x)
    end.

  (** A relation that ignores errors and markers. *)
  Section Simple.
    Hypothesis Q_errs : forall cx e, Q cx (set_errs e cx).
    Hypothesis Q_markers : forall cx m, Q cx (set_markers m cx).

    Lemma simple_error e : pres (error e).
    Proof. apply pres_modify. auto. Qed.

    (** A run inside a child context, seen from the parent. *)
    Lemma in_child_pres {A} child (f : M A) : pres (in_child child f).
    Proof.
      intros cx a cx' H. unfold in_child in H. destruct (f child) as [[x c']| |]; try discriminate.
      unfold join_child in H. minv.
      eapply Q_trans; [apply Q_markers|]. apply Q_errs.
    Qed.

    Lemma make_child_pres i toks : pres (make_child i toks).
    Proof.
      unfold make_child. apply pres_bind; [apply pres_massert|intros _].
      apply pres_bind; [apply pres_gets|intros ms]. apply pres_bind; [apply pres_gets|intros es].
      apply pres_bind; [|intros; apply pres_ret].
      apply pres_modify. intros. eapply Q_trans; [apply Q_markers|apply Q_errs].
    Qed.

    Lemma simple_nested A i toks (w : M A) g : pres w -> pres (nested_run i toks w g).
    Proof.
      intros W. apply pres_bind; [apply make_child_pres|]. intros r.
      apply pres_bind; [exact W|]. intros x.
      destruct r; [|apply in_child_pres]. apply pres_bind; [apply simple_error|intros; apply pres_ret].
    Qed.
  End Simple.

  (** The primitive changes. *)
  Hypothesis Q_error : forall e, few e = false -> pres (error e).
  Hypothesis Q_nested : forall A i toks (w : M A) g, pres w -> pres (nested_run i toks w g).
  Hypothesis Q_child : forall cx, Q cx (set_has_child cx).

  Ltac pres_error := apply Q_error; reflexivity.

  Lemma walk_arm_pres f x : (forall e, pres (f e)) -> pres (walk_arm f x).
  Proof.
    intros H. destruct x. cbn [walk_arm].
    apply pres_bind; [apply pres_optM; destruct guard; cbn; auto|]. intros.
    apply pres_bind; auto. intros; apply pres_ret.
  Qed.

  Lemma walk_local_pres f x : (forall e, pres (f e)) -> pres (walk_local f x).
  Proof.
    intros H. destruct x as [a p t i d]. cbn [walk_local].
    apply pres_bind; [apply pres_optM; destruct i; cbn; auto|]. intros.
    apply pres_bind; [apply pres_optM; destruct d; cbn; auto|]. intros; apply pres_ret.
  Qed.

  Lemma walk_stmt_pres fe fl s :
    (forall e, pres (fe e)) -> (forall e, pres (fl e)) -> pres (walk_stmt fe fl s).
  Proof.
    intros He Hl. destruct s; cbn [walk_stmt]; try apply pres_ret;
      (apply pres_bind; [auto|intros; apply pres_ret]).
  Qed.

  Lemma pres_mapM_all {A B} (f : A -> M B) l : (forall x, pres (f x)) -> pres (mapM f l).
  Proof. intros H. apply pres_mapM. apply Forall_forall. auto. Qed.

  Lemma pres_optM_all {A B} (f : A -> M B) o : (forall x, pres (f x)) -> pres (optM f o).
  Proof. intros H. apply pres_optM. destruct o; cbn; auto. Qed.

  Lemma walk_expr_pres V e :
    (forall x, pres (on_expr V x)) -> (forall x, pres (on_stmt V x)) -> (forall x, pres (on_arm V x)) ->
    pres (walk_expr V e).
  Proof.
    intros He Hs Ha.
    destruct e; cbn [walk_expr]; try apply pres_ret;
      repeat first [ apply pres_bind | intros; apply pres_ret
                   | apply pres_mapM_all; assumption | apply pres_optM_all; assumption
                   | apply He | match goal with |- forall _, _ => intro end ].
  Qed.

  Variable hash : node -> N.
  Variable ta : bool.

  Lemma vs_visit_expr_pres R V e b :
    (forall x, pres (on_expr V x)) -> (forall x, pres (on_stmt V x)) -> (forall x, pres (on_arm V x)) ->
    pres (vs_visit_expr hash ta R V e b).
  Proof.
    intros He Hs Ha. unfold vs_visit_expr.
    destruct (find_remove_attr (e_attrs e) NAME) as [[at_ a']|]; [|apply walk_expr_pres; auto].
    assert (W : pres (walk_expr V (set_attrs e a'))) by (apply walk_expr_pres; auto).
    destruct at_ as [p|p l|p v].
    - apply pres_bind_ret. apply pres_bind; [exact W|intros]. apply pres_bind; [pres_error|intros; apply pres_ret].
    - apply (Q_nested _ _ _ _ (fun e => expand_parent_expr ta R e b) W).
    - apply pres_bind_ret. apply pres_bind; [exact W|intros]. apply pres_bind; [pres_error|intros; apply pres_ret].
  Qed.

  Lemma vs_visit_stmt_pres R V s :
    (forall x, pres (on_expr V x)) -> (forall x, pres (on_stmt V x)) -> (forall x, pres (on_arm V x)) ->
    (forall x, pres (on_local V x)) -> pres (vs_visit_stmt hash ta R V s).
  Proof.
    intros He Hs Ha Hl. destruct s as [[a p t i d]| | |]; cbn [vs_visit_stmt].
    - destruct (find_remove_attr a NAME) as [[at_ a']|]; [|apply walk_stmt_pres; auto].
      assert (W : pres (walk_stmt (on_expr V) (on_local V) (SLocal (Local a' p t i d))))
        by (apply walk_stmt_pres; auto).
      destruct at_ as [q|q l|q v].
      + apply (Q_nested _ _ _ _ (expand_parent_stmt ta R) W).
      + apply (Q_nested _ _ _ _ (expand_parent_stmt ta R) W).
      + apply pres_bind_ret. apply pres_bind; [exact W|intros]. apply pres_bind; [pres_error|intros; apply pres_ret].
    - apply pres_ret.
    - apply pres_bind; [apply vs_visit_expr_pres; auto|intros; apply pres_ret].
    - apply walk_stmt_pres; auto.
  Qed.

  Lemma note_child_pres a : pres (note_child a).
  Proof. unfold note_child. destruct any_attr; [apply pres_modify; auto|apply pres_ret]. Qed.

  Lemma unless_error_pres {A} (x : A) m : pres m -> pres (unless_error x m).
  Proof.
    intros H. unfold unless_error. apply pres_bind; [apply pres_gets|].
    intros []; [apply pres_ret|assumption].
  Qed.

  (** [Dummy] never changes more than these fields. *)
  Lemma dummy_pres n :
    (forall e, pres (r_dexpr (engine hash ta n) e)) /\ (forall s, pres (r_dstmt (engine hash ta n) s)).
  Proof.
    induction n as [|n [IHe IHs]]; cbn [engine r_dexpr r_dstmt step].
    - split; intros; apply pres_fuel.
    - split; intros; apply unless_error_pres.
      + apply pres_bind; [apply note_child_pres|intros].
        apply vs_visit_expr_pres; cbn [d_vis on_expr on_stmt on_arm]; auto.
        intros; apply walk_arm_pres; auto.
      + apply pres_bind; [apply note_child_pres|intros].
        apply vs_visit_stmt_pres; cbn [d_vis on_expr on_stmt on_arm on_local]; auto;
          intros; [apply walk_arm_pres|apply walk_local_pres]; auto.
  Qed.

  (** With wrapping. *)
  Hypothesis Q_variants : forall cx v, Q cx (set_variants v cx).

  Lemma pres_next a e : pres (next_expr_with_attrs a e).
  Proof. intros cx b cx' H. apply next_expr_attrs_ok in H. destruct H as [_ ->]. apply Q_variants. Qed.

  Lemma pres_replace o : pres (replace_boxed_expr o).
  Proof.
    intros cx b cx'. unfold replace_boxed_expr.
    destruct (is_marker_expr cx _); intros H; [inversion H; subst; apply Q_refl|].
    minv. eapply pres_next. exact H0.
  Qed.

  Ltac pp := repeat first
    [ apply pres_bind | apply pres_ret | apply pres_gets | apply pres_massert | pres_error
    | apply pres_next | apply pres_replace | apply pres_panic | assumption
    | match goal with |- pres (match ?x with _ => _ end) => destruct x end
    | match goal with |- forall _, _ => intro end ].

  Lemma loop_pres :
    (forall e label nested, pres (loop_expr label nested e))
    /\ (forall s label nested, pres (loop_stmt label nested s))
    /\ (forall x label nested, pres (loop_arm label nested x))
    /\ (forall x label nested, pres (loop_local label nested x)).
  Proof.
    assert (L : forall A (f : option string -> bool -> A -> M A) l label nested,
               Forall (fun x => forall la n, pres (f la n x)) l -> pres (mapM (f label nested) l)).
    { intros. apply pres_mapM. eapply Forall_impl; [|eassumption]. cbn. auto. }
    assert (O : forall A (f : option string -> bool -> A -> M A) o label nested,
               opt_all (fun x => forall la n, pres (f la n x)) o -> pres (optM (f label nested) o)).
    { intros. apply pres_optM. destruct o; cbn in *; auto. }
    apply ast_ind; intros; cbn [loop_expr loop_stmt loop_arm loop_local e_attrs];
      try (destruct (any_empty_attr a NEVER); [apply pres_ret|]);
      cbn [walk_expr walk_stmt walk_arm walk_local on_expr on_stmt on_arm on_local];
      try (destruct k); try (destruct label); cbn [walk_expr on_expr on_stmt on_arm on_local];
      try solve [ repeat first [ apply pres_bind | apply pres_ret | apply L; assumption | apply O; assumption
                   | match goal with H : _ |- _ => apply H end
                   | match goal with |- forall _, _ => intro end ] ].
    - destruct (_ || _); [|apply pres_bind; [apply O; assumption|intros; apply pres_ret]].
      destruct e as [y|]; pp; try (apply H).
    - destruct (_ || _); [|apply pres_bind; [apply O; assumption|intros; apply pres_ret]].
      destruct e as [y|]; pp; try (apply H).
  Qed.

  Lemma visit_last_block_pres b : pres (visit_last_block b).
  Proof. unfold visit_last_block, next_expr. pp. Qed.

  Lemma visit_last_if_pres : forall e, pres (visit_last_expr_if e).
  Proof.
    refine (proj1 (ast_ind (fun e => pres (visit_last_expr_if e)) (fun _ => True)
                     (fun _ => True) (fun _ => True) _ _ _ _ _ _ _ _ _ _ _ _ _ _ _ _ _ _ _ _ _ _ _ _ _ _));
      intros; try exact I; cbn [visit_last_expr_if]; try apply pres_ret.
    apply pres_bind; [apply visit_last_block_pres|intros].
    apply pres_bind; [|intros; apply pres_ret].
    destruct els as [els|]; [|pp]. cbn in H1.
    destruct els; try apply pres_panic.
    - apply pres_bind; [apply visit_last_block_pres|intros; apply pres_ret].
    - apply pres_bind; [exact H1|intros; apply pres_ret].
  Qed.

  Lemma map_last_pres f b :
    Forall (fun s => match s with SExpr e _ => pres (f e) | _ => True end) b ->
    pres (map_last_expr f b).
  Proof.
    induction b as [|s r IH]; intros H; [apply pres_ret|]. inversion H; subst.
    destruct r as [|s2 r].
    - cbn [map_last_expr]. destruct s; try apply pres_ret. destruct semi; pp.
    - change (map_last_expr f (s :: s2 :: r)) with
          (r' <- map_last_expr f (s2 :: r) ;; ret (s :: r')).
      apply pres_bind; [auto|intros; apply pres_ret].
  Qed.

  Lemma child_expr_pres : forall e, pres (child_expr e).
  Proof.
    refine (proj1 (ast_ind (fun e => pres (child_expr e))
                     (fun s => match s with SExpr e _ => pres (child_expr e) | _ => True end)
                     (fun _ => True) (fun _ => True)
                     _ _ _ _ _ _ _ _ _ _ _ _ _ _ _ _ _ _ _ _ _ _ _ _ _ _));
      intros; try exact I; try assumption; cbn [child_expr];
      (apply pres_bind; [apply pres_gets|]; intros []; [apply pres_ret|]);
      try apply pres_ret.
    - apply pres_bind; [apply map_last_pres; assumption|intros; apply pres_ret].
    - destruct k; try apply pres_ret.
      apply pres_bind; [apply map_last_pres; assumption|intros; apply pres_ret].
    - apply pres_bind; [|intros; apply pres_ret]. apply pres_mapM_all. intros x.
      unfold visit_last_arm, next_expr. destruct x. pp.
    - apply visit_last_if_pres.
    - apply pres_bind; [|intros; apply pres_ret]. unfold visit_last_expr_loop.
      apply pres_mapM_all. intros s. apply loop_pres.
    - pp.
    - pp.
  Qed.

  Lemma find_remove_attrs_pres sc a : pres (find_remove_attrs sc a).
  Proof.
    unfold find_remove_attrs. destruct (sc_foreign sc); [apply pres_ret|].
    apply pres_bind.
    - destruct (find_remove_attr a NEVER) as [[x a']|]; pp.
    - intros a2. destruct (find_remove_attr a2 REC) as [[x a']|]; pp.
  Qed.

  Lemma visit_nested_pres sc e a : pres (visit_nested sc e a).
  Proof.
    unfold visit_nested. apply pres_bind; [apply pres_massert|intros].
    destruct (is_path_only a); [apply child_expr_pres|pp].
  Qed.

  Lemma visitor_pres n :
    (forall sc b e, pres (r_vexpr (engine hash ta n) sc b e))
    /\ (forall sc s, pres (r_vstmt (engine hash ta n) sc s))
    /\ (forall sc x, pres (r_varm (engine hash ta n) sc x))
    /\ (forall sc x, pres (r_vlocal (engine hash ta n) sc x)).
  Proof.
    induction n as [|n (IHe & IHs & IHa & IHl)]; cbn [engine r_vexpr r_vstmt r_varm r_vlocal step].
    - repeat split; intros; apply pres_fuel.
    - repeat split; intros; apply unless_error_pres.
      + unfold visit_expr. apply pres_bind; [apply pres_massert|intros _].
        apply pres_bind; [apply note_child_pres|intros _]. cbn zeta.
        apply pres_bind; [apply pres_gets|intros mode].
        apply pres_bind.
        { destruct mode; [apply pres_ret| |].
          - unfold visit_return. destruct (_ && _); [|apply pres_ret]. destruct e; pp.
          - unfold visit_try, next_expr. destruct (_ && _); [|apply pres_ret]. destruct e; pp. }
        intros e1. apply pres_bind.
        { destruct (sc_foreign _); [apply pres_ret|].
          destruct (find_remove_attr (e_attrs e1) NESTED) as [[x a']|]; [|apply pres_ret].
          apply visit_nested_pres. }
        intros e2. apply pres_bind.
        { apply vs_visit_expr_pres; cbn [v_vis on_expr on_stmt on_arm]; auto.
          intros; apply IHe. }
        intros e3. apply pres_bind; [apply pres_gets|intros cur].
        destruct (_ || _); [|apply pres_ret]. apply pres_bind.
        * unfold visit_marker_macro. apply pres_bind; [apply pres_massert|intros _].
          apply pres_bind; [apply pres_gets|intros ex].
          destruct e3; try apply pres_ret. destruct m as [p x]. destruct ex; pp.
        * intros e4. unfold find_remove_attrs_expr. apply pres_bind; [apply find_remove_attrs_pres|].
          intros; apply pres_ret.
      + unfold visit_stmt. destruct s;
          try (apply pres_bind; [apply note_child_pres|intros _];
               apply vs_visit_stmt_pres; cbn [v_vis on_expr on_stmt on_arm on_local]; auto; intros; apply IHe).
        apply pres_bind; [apply IHe|intros; apply pres_ret].
      + unfold visit_arm. destruct x as [a p g b c]. apply pres_bind.
        * destruct (sc_foreign sc); [apply pres_ret|].
          destruct (find_remove_attr a NESTED) as [[y a']|]; [|apply pres_ret].
          apply pres_bind; [apply visit_nested_pres|intros; apply pres_ret].
        * intros x1. apply pres_bind; [apply walk_arm_pres; intros; apply IHe|].
          intros []. apply pres_bind; [apply find_remove_attrs_pres|intros; apply pres_ret].
      + unfold visit_local. destruct x as [a p t i d]. apply pres_bind.
        * destruct (sc_foreign sc); [apply pres_ret|].
          destruct (find_remove_attr a NESTED) as [[y a']|]; [|apply pres_ret].
          apply pres_bind; [apply pres_optM_all; intros; apply visit_nested_pres|].
          intros; apply pres_ret.
        * intros x1. apply pres_bind; [apply walk_local_pres; intros; apply IHe|].
          intros []. apply pres_bind; [apply find_remove_attrs_pres|intros; apply pres_ret].
  Qed.
End Pres.

(** The mode fields are not changed by the visitors. *)
Definition same_mode (cx cx' : ctx) : Prop :=
  cx_mode cx' = cx_mode cx /\ cx_last cx' = cx_last cx /\ cx_traits cx' = cx_traits cx
  /\ cx_args cx' = cx_args cx /\ cx_root cx' = cx_root cx /\ cx_marker cx' = cx_marker cx
  /\ cx_ident cx' = cx_ident cx.

(** The dummy visitor changes no variants either. *)
Definition same_dummy (cx cx' : ctx) : Prop :=
  same_mode cx cx' /\ cx_variants cx' = cx_variants cx.

Lemma same_mode_refl cx : same_mode cx cx.
Proof. repeat split. Qed.
Lemma same_mode_trans a b c : same_mode a b -> same_mode b c -> same_mode a c.
Proof. unfold same_mode. intuition congruence. Qed.
Lemma same_dummy_refl cx : same_dummy cx cx.
Proof. repeat split. Qed.
Lemma same_dummy_trans a b c : same_dummy a b -> same_dummy b c -> same_dummy a c.
Proof. unfold same_dummy, same_mode. intuition congruence. Qed.

Theorem dummy_frame hash ta n :
  (forall e, pres same_dummy (r_dexpr (engine hash ta n) e))
  /\ (forall s, pres same_dummy (r_dstmt (engine hash ta n) s)).
Proof.
  apply dummy_pres; try apply same_dummy_trans; intros; try (repeat split; fail);
    [apply simple_error|apply simple_nested; auto; try apply same_dummy_trans]; repeat split.
Qed.

Theorem visitor_frame hash ta n :
  (forall sc b e, pres same_mode (r_vexpr (engine hash ta n) sc b e))
  /\ (forall sc s, pres same_mode (r_vstmt (engine hash ta n) sc s))
  /\ (forall sc x, pres same_mode (r_varm (engine hash ta n) sc x))
  /\ (forall sc x, pres same_mode (r_vlocal (engine hash ta n) sc x)).
Proof.
  apply visitor_pres; try apply same_mode_trans; intros; try (repeat split; fail);
    [apply simple_error|apply simple_nested; auto; try apply same_mode_trans]; repeat split.
Qed.

Theorem child_expr_frame : forall e, pres same_mode (child_expr e).
Proof.
  apply child_expr_pres; try apply same_mode_trans; intros; try (repeat split; fail);
    apply simple_error; repeat split.
Qed.

(** Without a nested attribute the visitors never report too few branches. *)
Definition no_few (cx cx' : ctx) : Prop :=
  (cx_has_child cx = true -> cx_has_child cx' = true)
  /\ (cx_has_child cx' = true
      \/ exists de, cx_errs cx' = cx_errs cx ++ de /\ existsb few de = false).

Lemma no_few_same cx cx' :
  cx_has_child cx' = cx_has_child cx -> cx_errs cx' = cx_errs cx -> no_few cx cx'.
Proof.
  intros E1 E2. split; [congruence|]. right. exists []. rewrite app_nil_r. auto.
Qed.

Lemma no_few_trans a b c : no_few a b -> no_few b c -> no_few a c.
Proof.
  intros [A1 A2] [B1 B2]. split; [auto|].
  destruct B2 as [B2|(d2 & B2 & F2)]; [auto|]. destruct A2 as [A2|(d1 & A2 & F1)]; [auto|].
  right. exists (d1 ++ d2). rewrite B2, A2, app_assoc, existsb_app, F1, F2. auto.
Qed.

Lemma no_few_error e : few e = false -> pres no_few (error e).
Proof.
  intros F cx u cx' H. minv. split; [auto|]. right. exists [e]. cbn. rewrite F. auto.
Qed.

Lemma no_few_nested A i toks (w : M A) g : pres no_few w -> pres no_few (nested_run i toks w g).
Proof.
  intros W cx a cx' H. unfold nested_run, make_child in H.
  apply bind_ok in H. destruct H as (r & cx1 & H1 & H). minv.
  match goal with HW : w _ = ROk _ |- _ => apply W in HW; destruct HW as [HW _]; cbn in HW; specialize (HW D) end.
  assert (C : cx_has_child cx' = true).
  { match goal with HM : match ?q with inl _ => _ | inr _ => _ end _ = ROk _ |- _ => destruct q end.
    - minv. assumption.
    - unfold in_child, join_child in H. destruct (g _ _) as [[]| |]; try discriminate. minv. assumption. }
  split; auto.
Qed.

Theorem visitor_no_few hash ta n :
  (forall sc b e, pres no_few (r_vexpr (engine hash ta n) sc b e))
  /\ (forall sc s, pres no_few (r_vstmt (engine hash ta n) sc s))
  /\ (forall sc x, pres no_few (r_varm (engine hash ta n) sc x))
  /\ (forall sc x, pres no_few (r_vlocal (engine hash ta n) sc x)).
Proof.
  apply visitor_pres; try apply no_few_trans; intros;
    auto using no_few_same, no_few_error, no_few_nested.
  split; cbn; auto.
Qed.

Theorem dummy_no_few hash ta n :
  (forall e, pres no_few (r_dexpr (engine hash ta n) e))
  /\ (forall s, pres no_few (r_dstmt (engine hash ta n) s)).
Proof.
  apply dummy_pres; try apply no_few_trans; intros;
    auto using no_few_same, no_few_error, no_few_nested.
  split; cbn; auto.
Qed.

Theorem child_expr_no_few : forall e, pres no_few (child_expr e).
Proof.
  apply child_expr_pres; try apply no_few_trans; intros; auto using no_few_same, no_few_error.
Qed.
