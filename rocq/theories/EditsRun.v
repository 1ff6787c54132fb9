(** Every run of the model makes only the edits of Edits.v. *)

Require Import Coq.Strings.String Coq.Lists.List Coq.Bool.Bool Coq.Arith.Arith Lia.
Require Import Coq.Sorting.Permutation.
Require Import Verif.Syntax Verif.Context Verif.ExprModel Verif.TypeAnalysis Verif.AutoEnum.
Require Import Verif.AstInd Verif.Edits Verif.AttrFold Verif.RunLemmas.
Import ListNotations.
Open Scope string_scope.
Open Scope list_scope.

(** ** Conjunctions over children *)

Lemma fold_list_and {A} (P : A -> Prop) l : fold_list and True P l <-> Forall P l.
Proof.
  induction l; cbn; split; intros H; auto.
  - destruct H. constructor; [assumption|]. apply IHl. assumption.
  - inversion H; subst. split; [assumption|]. apply IHl. assumption.
Qed.

Lemma fold_opt_and {A} (P : A -> Prop) o : fold_opt True P o <-> opt_all P o.
Proof. destruct o; cbn; tauto. Qed.

Lemma Forall_all {A} (P : A -> Prop) l : (forall x, P x) -> Forall P l.
Proof. intros H. apply Forall_forall. auto. Qed.

Lemma fold_expr_and (Pe : expr -> Prop) (Ps : stmt -> Prop) (Pa : arm -> Prop) e :
  (forall x, Pe x) -> (forall x, Ps x) -> (forall x, Pa x) -> fold_expr and True Pe Ps Pa e.
Proof.
  intros He Hs Ha.
  assert (Oe : forall o, fold_opt True Pe o) by (intros [x|]; cbn; auto).
  assert (Le : forall l, fold_list and True Pe l)
    by (intros; apply fold_list_and, Forall_all; auto).
  assert (Ls : forall l, fold_list and True Ps l)
    by (intros; apply fold_list_and, Forall_all; auto).
  assert (La : forall l, fold_list and True Pa l)
    by (intros; apply fold_list_and, Forall_all; auto).
  destruct e; cbn [fold_expr]; auto.
Qed.

(** ** Reflexivity *)

Section Run.
  Context {K : Cfg}.
  Variable mk : string -> bool.

  Notation ede := (ed_expr mk).
  Notation eds := (ed_stmt mk).
  Notation eda := (ed_arm mk).
  Notation edl := (ed_local mk).

  Lemma eo_refl o : ed_opt mk [] o o.
  Proof. destruct o; constructor. apply ee_refl. Qed.

  Lemma ees_refl l : ed_exprs mk [] l l.
  Proof. induction l; [constructor|]. apply (ees_cons mk [] []); [apply ee_refl|assumption]. Qed.

  Lemma el_refl l : edl [] l l.
  Proof. destruct l. apply (el_parts mk [] []); apply eo_refl. Qed.

  Lemma es_refl s : eds [] s s.
  Proof. destruct s; constructor. - apply el_refl. - apply ee_refl. Qed.

  Lemma ess_refl l : ed_stmts mk [] l l.
  Proof. induction l; [constructor|]. apply (ess_cons mk [] []); [apply es_refl|assumption]. Qed.

  Lemma ea_refl x : eda [] x x.
  Proof. destruct x. apply (ea_parts mk [] []); [apply eo_refl|apply ee_refl]. Qed.

  Lemma eas_refl l : ed_arms mk [] l l.
  Proof. induction l; [constructor|]. apply (eas_cons mk [] []); [apply ea_refl|assumption]. Qed.

  (** All names are marker names. *)
  Definition nitem_ok (r : nitem) : Prop :=
    c_ch /\ c_dk (fst r)
    /\ match snd r with Some m => mk m = true | None => True end.
  Definition nok (l : list nitem) : Prop := Forall nitem_ok l.

  Lemma nok_incl l l' : incl l' l -> nok l -> nok l'.
  Proof. unfold nok. intros I H. rewrite Forall_forall in *. auto. Qed.

  (** What is proved of each visiting function. *)
  Definition good {A} (R : list label -> A -> A -> Prop) (nm : A -> list nitem)
      (f : A -> M A) (x : A) : Prop :=
    forall cx x' cx', f x cx = ROk (x', cx') -> mk (cx_marker cx) = true -> nok (nm x) ->
    exists t, R t x x' /\ ext cx t cx'.

  Lemma pre_ext cx t cx' : ext cx t cx' -> mk (cx_marker cx) = true -> mk (cx_marker cx') = true.
  Proof. intros X. rewrite (x_marker _ _ _ X). auto. Qed.

  Lemma mapM_good {A} (R : list label -> A -> A -> Prop) (RL : list label -> list A -> list A -> Prop)
      (nm : A -> list nitem) (f : A -> M A) l :
    RL [] [] [] ->
    (forall t1 t2 x x' r r', R t1 x x' -> RL t2 r r' -> RL (t1 ++ t2) (x :: r) (x' :: r')) ->
    Forall (good R nm f) l ->
    good RL (fold_list (@app nitem) [] nm) (mapM f) l.
  Proof.
    intros HN HC. induction l as [|x r IH]; intros G cx l' cx' H P N; apply mapM_inv in H.
    - destruct H as [-> ->]. exists []. split; [assumption|apply ext_refl].
    - destruct H as (y & cx1 & ys & H1 & H2 & ->). inversion G as [|? ? G1 G2]; subst.
      cbn in N. apply Forall_app in N. destruct N as [N1 N2].
      destruct (G1 _ _ _ H1 P N1) as (t1 & R1 & X1).
      destruct (IH G2 _ _ _ H2 (pre_ext _ _ _ X1 P) N2) as (t2 & R2 & X2).
      exists (t1 ++ t2). split; [auto|]. eapply ext_trans; eassumption.
  Qed.

  Lemma optM_good (f : expr -> M expr) o :
    opt_all (good ede names_expr f) o ->
    good (ed_opt mk) (fold_opt [] names_expr) (optM f) o.
  Proof.
    intros G cx o' cx' H P N. apply optM_inv in H. destruct o as [x|].
    - destruct H as (y & H & ->). destruct (G _ _ _ H P N) as (t & R & X).
      exists t. split; [constructor; assumption|assumption].
    - destruct H as [-> ->]. exists []. split; [constructor|apply ext_refl].
  Qed.

  (** Uses a [good] fact on a hypothesis and composes the extension. *)
  Ltac use G H P N t R X :=
    destruct (G _ _ _ H P N) as (t & R & X);
    let P' := fresh "P" in pose proof (pre_ext _ _ _ X P) as P'.

  Lemma walk_arm_good f x :
    fold_arm and True (good ede names_expr f) x -> good eda names_arm (walk_arm f) x.
  Proof.
    destruct x as [a p g b c]. cbn [fold_arm]. intros [Gg Gb] cx x' cx' H P N.
    cbn [walk_arm] in H. minv. unfold names_arm in N. cbn [af_arm fold_arm] in N.
    apply Forall_app in N. destruct N as [_ N]. apply Forall_app in N. destruct N as [N1 N2].
    apply fold_opt_and in Gg. pose proof (optM_good f g Gg) as Go.
    use Go H0 P N1 t1 R1 X1. use Gb H1 P0 N2 t2 R2 X2.
    exists (t1 ++ t2). split; [apply ea_parts; assumption|eapply ext_trans; eassumption].
  Qed.

  Lemma walk_local_good f x :
    fold_local and True (good ede names_expr f) x -> good edl names_local (walk_local f) x.
  Proof.
    destruct x as [a p t i d]. cbn [fold_local]. intros [Gi Gd] cx x' cx' H P N.
    cbn [walk_local] in H. minv. unfold names_local in N. cbn [af_local fold_local] in N.
    apply Forall_app in N. destruct N as [_ N]. apply Forall_app in N. destruct N as [N1 N2].
    apply fold_opt_and in Gi. apply fold_opt_and in Gd.
    pose proof (optM_good f i Gi) as Go1. pose proof (optM_good f d Gd) as Go2.
    use Go1 H0 P N1 t1 R1 X1. use Go2 H1 P0 N2 t2 R2 X2.
    exists (t1 ++ t2). split; [apply el_parts; assumption|eapply ext_trans; eassumption].
  Qed.

  Lemma walk_stmt_good fe fl s :
    fold_stmt True (good ede names_expr fe) (good edl names_local fl) s ->
    good eds names_stmt (walk_stmt fe fl) s.
  Proof.
    destruct s; intros G cx x' cx' H P N; cbn [fold_stmt walk_stmt] in G, H; minv.
    - use G H0 P N t R X. exists t. split; [constructor; assumption|assumption].
    - exists []. split; [apply es_refl|apply ext_refl].
    - use G H0 P N t R X. exists t. split; [constructor; assumption|assumption].
    - exists []. split; [apply es_refl|apply ext_refl].
  Qed.

  Lemma nok_fold_attrs e :
    nok (names_expr e) ->
    nok (match e with
         | EMacro _ (Mac _ (Some x)) => names_expr x
         | _ => fold_expr (@app nitem) [] names_expr names_stmt names_arm e
         end).
  Proof.
    intros N. destruct e; try destruct m as [? [?|]];
      unfold names_expr in N; cbn [af_expr e_attrs fold_expr] in N |- *;
      try (apply Forall_app in N; destruct N as [_ N]; exact N).
  Qed.

  Lemma walk_expr_good V e :
    fold_expr and True (good ede names_expr (on_expr V)) (good eds names_stmt (on_stmt V))
      (good eda names_arm (on_arm V)) e ->
    good ede names_expr (walk_expr V) e.
  Proof.
    intros G cx x' cx' H P N. apply nok_fold_attrs in N.
    assert (MS : forall b, fold_list and True (good eds names_stmt (on_stmt V)) b ->
                 good (ed_stmts mk) (fold_list (@app nitem) [] names_stmt) (mapM (on_stmt V)) b).
    { intros b Gb. eapply mapM_good; [apply ess_nil|apply ess_cons|]. apply fold_list_and, Gb. }
    assert (MA : forall b, fold_list and True (good eda names_arm (on_arm V)) b ->
                 good (ed_arms mk) (fold_list (@app nitem) [] names_arm) (mapM (on_arm V)) b).
    { intros b Gb. eapply mapM_good; [apply eas_nil|apply eas_cons|]. apply fold_list_and, Gb. }
    assert (ME : forall b, fold_list and True (good ede names_expr (on_expr V)) b ->
                 good (ed_exprs mk) (fold_list (@app nitem) [] names_expr) (mapM (on_expr V)) b).
    { intros b Gb. eapply mapM_good; [apply ees_nil|apply ees_cons|]. apply fold_list_and, Gb. }
    assert (MO : forall o, fold_opt True (good ede names_expr (on_expr V)) o ->
                 good (ed_opt mk) (fold_opt [] names_expr) (optM (on_expr V)) o).
    { intros o Go. apply optM_good, fold_opt_and, Go. }
    destruct e; cbn [walk_expr fold_expr] in H, G, N; minv.
    - use (MS _ G) H0 P N t R X. exists t. split; [constructor; assumption|assumption].
    - use (MS _ G) H0 P N t R X. exists t. split; [constructor; assumption|assumption].
    - destruct G as [G1 G2]. apply Forall_app in N. destruct N as [N1 N2].
      use G1 H0 P N1 t1 R1 X1. use (MA _ G2) H1 P0 N2 t2 R2 X2.
      exists (t1 ++ t2). split; [apply ee_match; assumption|eapply ext_trans; eassumption].
    - destruct G as (G1 & G2 & G3). apply Forall_app in N. destruct N as [N1 N].
      apply Forall_app in N. destruct N as [N2 N3].
      use G1 H0 P N1 t1 R1 X1. use (MS _ G2) H1 P0 N2 t2 R2 X2. use (MO _ G3) H2 P1 N3 t3 R3 X3.
      exists (t1 ++ t2 ++ t3). split; [apply ee_if; assumption|].
      eapply ext_trans; [eassumption|]. eapply ext_trans; eassumption.
    - use G H0 P N t R X. exists t. split; [constructor; assumption|assumption].
    - use (MS _ G) H0 P N t R X. exists t. split; [constructor; assumption|assumption].
    - destruct G as [G1 G2]. apply Forall_app in N. destruct N as [N1 N2].
      use G1 H0 P N1 t1 R1 X1. use (MS _ G2) H1 P0 N2 t2 R2 X2.
      exists (t1 ++ t2). split; [apply ee_while; assumption|eapply ext_trans; eassumption].
    - destruct G as [G1 G2]. apply Forall_app in N. destruct N as [N1 N2].
      use G1 H0 P N1 t1 R1 X1. use (MS _ G2) H1 P0 N2 t2 R2 X2.
      exists (t1 ++ t2). split; [apply ee_for; assumption|eapply ext_trans; eassumption].
    - use (MO _ G) H0 P N t R X. exists t. split; [constructor; assumption|assumption].
    - exists []. split; [apply ee_refl|apply ext_refl].
    - use (MO _ G) H0 P N t R X. exists t. split; [constructor; assumption|assumption].
    - use G H0 P N t R X. exists t. split; [constructor; assumption|assumption].
    - use G H0 P N t R X. exists t. split; [constructor; assumption|assumption].
    - exists []. split; [apply ee_refl|apply ext_refl].
    - destruct G as [G1 G2]. apply Forall_app in N. destruct N as [N1 N2].
      use G1 H0 P N1 t1 R1 X1. use (ME _ G2) H1 P0 N2 t2 R2 X2.
      exists (t1 ++ t2). split; [apply ee_method; assumption|eapply ext_trans; eassumption].
    - use G H0 P N t R X. exists t. split; [constructor; assumption|assumption].
    - destruct G as [G1 G2]. apply Forall_app in N. destruct N as [N1 N2].
      use G1 H0 P N1 t1 R1 X1. use (ME _ G2) H1 P0 N2 t2 R2 X2.
      exists (t1 ++ t2). split; [apply ee_call; assumption|eapply ext_trans; eassumption].
    - exists []. split; [apply ee_refl|apply ext_refl].
    - use (ME _ G) H0 P N t R X. exists t. split; [constructor; assumption|assumption].
    - exists []. split; [apply ee_refl|apply ext_refl].
  Qed.

  (** ** expr.rs *)

  Lemma replace_boxed_ok o cx o' cx' :
    replace_boxed_expr o cx = ROk (o', cx') ->
    (o' = Some (operand o) /\ is_marker_expr cx (operand o) = true /\ cx' = cx)
    \/ (o' = Some (wrap (cx_ident cx) (variant_name (length (cx_variants cx))) (operand o))
        /\ is_marker_expr cx (operand o) = false
        /\ cx' = set_variants (cx_variants cx ++ [variant_name (length (cx_variants cx))]) cx).
  Proof.
    unfold replace_boxed_expr. fold unit_expr. change (match o with Some e => e | None => unit_expr end) with (operand o).
    destruct (is_marker_expr cx (operand o)) eqn:E; intros H.
    - inversion H; subst. auto.
    - minv. apply next_expr_ok in H0. destruct H0; subst. auto.
  Qed.

  Definition loop_good_e e := forall label nested, good ede names_expr (loop_expr label nested) e.
  Definition loop_good_s s := forall label nested, good eds names_stmt (loop_stmt label nested) s.
  Definition loop_good_a x := forall label nested, good eda names_arm (loop_arm label nested) x.
  Definition loop_good_l x := forall label nested, good edl names_local (loop_local label nested) x.

  Lemma inst_list {A} (P : A -> option string -> bool -> Prop) l label nested :
    Forall (fun x => forall la n, P x la n) l -> fold_list and True (fun x => P x label nested) l.
  Proof. intros H. apply fold_list_and. eapply Forall_impl; [|exact H]. cbn. auto. Qed.

  Lemma inst_opt {A} (P : A -> option string -> bool -> Prop) o label nested :
    opt_all (fun x => forall la n, P x la n) o -> fold_opt True (fun x => P x label nested) o.
  Proof. destruct o; cbn; auto. Qed.

  Lemma loop_good :
    (forall e, loop_good_e e) /\ (forall s, loop_good_s s)
    /\ (forall x, loop_good_a x) /\ (forall x, loop_good_l x).
  Proof.
    pose (V := fun label nested => Vis (loop_expr label nested) (loop_stmt label nested)
                                       (loop_arm label nested) (loop_local label nested)).
    assert (HW : forall e,
      (forall label nested,
         fold_expr and True (good ede names_expr (loop_expr label nested))
           (good eds names_stmt (loop_stmt label nested))
           (good eda names_arm (loop_arm label nested)) e) ->
      match e with EBreak _ _ _ => False | _ => True end ->
      loop_good_e e).
    { intros e G NB label nested cx x' cx' H P N.
      pose proof (walk_expr_good (V label nested) e (G label nested)) as W.
      pose proof (walk_expr_good (V label true) e (G label true)) as W'.
      assert (R0 : exists t, ede t e e /\ ext cx t cx)
        by (exists []; split; [apply ee_refl|apply ext_refl]).
      destruct e; try contradiction; cbn [loop_expr e_attrs] in H;
        match type of H with (if ?b then _ else _) _ = _ => destruct b; [minv; exact R0|] end;
        try (eapply W; eassumption); try (minv; exact R0).
      - destruct k; try (eapply W; eassumption). minv. exact R0.
      - destruct label; [eapply W'; eassumption|minv; exact R0].
      - destruct label; [eapply W'; eassumption|minv; exact R0].
      - destruct label; [eapply W'; eassumption|minv; exact R0]. }
    apply ast_ind; intros;
      try (apply HW; [intros; cbn [fold_expr]|exact I];
           repeat match goal with |- _ /\ _ => split end; auto;
           try (apply (inst_list (fun x la n => good eds names_stmt (loop_stmt la n) x)); assumption);
           try (apply (inst_list (fun x la n => good eda names_arm (loop_arm la n) x)); assumption);
           try (apply (inst_list (fun x la n => good ede names_expr (loop_expr la n) x)); assumption);
           try (apply (inst_opt (fun x la n => good ede names_expr (loop_expr la n) x)); assumption)).
    - (* break *)
      intros label nested cx x' cx' H0 P N. cbn [loop_expr e_attrs] in H0.
      destruct (any_empty_attr a NEVER).
      { minv. exists []. split; [apply ee_refl|apply ext_refl]. }
      apply nok_fold_attrs in N. cbn [fold_expr] in N.
      match type of H0 with (if ?b then _ else _) _ = _ => destruct b end.
      + destruct e as [y|].
        * minv. destruct (is_marker_expr cx y) eqn:E.
          -- minv. destruct (H label nested _ _ _ H1 P N) as (t & R & X).
             exists t. split; [apply ee_break, eo_some; assumption|assumption].
          -- minv. apply next_expr_ok in H1. destruct H1; subst.
             pose proof (ext_next cx) as X1.
             destruct (H label nested _ _ _ H2 (pre_ext _ _ _ X1 P) N) as (t & R & X).
             eexists. split; [|eapply ext_trans; eassumption].
             eapply ee_trans; [apply ee_wrap_break|]. cbn [operand].
             apply ee_break, eo_some. apply (ee_call mk [] t); [apply ee_refl|].
             rewrite <- (app_nil_r t). apply ees_cons; [assumption|apply ees_nil].
        * minv. apply replace_boxed_ok in H1. destruct H1 as [(E1 & E2 & E3)|(E1 & E2 & E3)]; subst.
          -- discriminate E2.
          -- eexists. split; [apply ee_wrap_break|apply ext_next].
      + minv. assert (Go : opt_all (good ede names_expr (loop_expr label nested)) e)
          by (destruct e; cbn in *; auto).
        destruct (optM_good _ _ Go _ _ _ H1 P N) as (t & R & X).
        exists t. split; [apply ee_break; assumption|assumption].
    - (* SLocal *)
      intros label nested. apply walk_stmt_good. cbn. apply H.
    - intros label nested. apply walk_stmt_good. exact I.
    - intros label nested. apply walk_stmt_good. cbn. apply H.
    - intros label nested. apply walk_stmt_good. exact I.
    - intros label nested. apply walk_local_good. cbn [fold_local].
      split; apply (inst_opt (fun x la n => good ede names_expr (loop_expr la n) x)); assumption.
    - intros label nested. apply walk_arm_good. cbn [fold_arm].
      split; [apply (inst_opt (fun x la n => good ede names_expr (loop_expr la n) x)); assumption|].
      apply H0.
  Qed.

  Lemma visit_last_arm_good x : good eda names_arm visit_last_arm x.
  Proof.
    intros cx x' cx' H P N. unfold visit_last_arm in H. minv.
    destruct (skip_arm cx x).
    - minv. exists []. split; [apply ea_refl|apply ext_refl].
    - destruct x as [a p g b c]. minv. apply next_expr_ok in H0. destruct H0; subst.
      eexists. split; [apply ea_wrap|apply ext_next].
  Qed.

  (** [visit_last_block] keeps the block or wraps it. *)
  Lemma visit_last_block_ok b cx b' cx' :
    visit_last_block b cx = ROk (b', cx') ->
    (b' = b /\ skip_block cx b = true /\ cx' = cx)
    \/ (b' = wrap_branch (cx_ident cx) (variant_name (length (cx_variants cx))) b
        /\ skip_block cx b = false
        /\ cx' = set_variants (cx_variants cx ++ [variant_name (length (cx_variants cx))]) cx).
  Proof.
    unfold visit_last_block. intros H. minv. destruct (skip_block cx b) eqn:E; minv.
    - auto.
    - apply next_expr_ok in H0. destruct H0; subst. auto.
  Qed.

  Lemma visit_last_if_good :
    forall e, good ede names_expr visit_last_expr_if e.
  Proof.
    assert (R0 : forall e cx, exists t, ede t e e /\ ext cx t cx)
      by (intros; exists []; split; [apply ee_refl|apply ext_refl]).
    refine (proj1 (ast_ind (good ede names_expr visit_last_expr_if) (fun _ => True)
                     (fun _ => True) (fun _ => True) _ _ _ _ _ _ _ _ _ _ _ _ _ _ _ _ _ _ _ _ _ _ _ _ _ _));
      intros; try exact I; intros cx x' cx' HH P N; cbn [visit_last_expr_if] in HH;
      try (minv; apply R0; fail).
    minv.
    assert (T1 : exists t1, ede t1 (EIf a c t els) (EIf a c a0 els) /\ ext cx t1 cx0).
    { apply visit_last_block_ok in H2. destruct H2 as [(E1 & E2 & E3)|(E1 & E2 & E3)]; subst.
      - apply R0.
      - eexists. split; [apply ee_then|apply ext_next]. }
    destruct T1 as (t1 & R1 & X1).
    assert (T2 : exists t2, ede t2 (EIf a c a0 els) (EIf a c a0 a1) /\ ext cx0 t2 cx1).
    { destruct els as [els|].
      - destruct els; try discriminate H3.
        + minv. apply visit_last_block_ok in H4. destruct H4 as [(E1 & E2 & E3)|(E1 & E2 & E3)]; subst.
          * apply R0.
          * eexists. split; [apply ee_else|apply ext_next].
        + apply bind_ok in H3. destruct H3 as (e2 & cx3 & H3 & H4). minv.
          destruct (H1 _ _ _ H3) as (t2 & R2 & X2).
          * eapply pre_ext; eassumption.
          * apply nok_fold_attrs in N. cbn [fold_expr fold_opt] in N.
            apply Forall_app in N. destruct N as [_ N]. apply Forall_app in N. apply N.
          * exists t2. split; [|assumption].
            apply (ee_if mk [] [] t2); [apply ee_refl|apply ess_refl|apply eo_some; assumption].
      - minv. exists []. split; [apply ee_refl|apply ext_error]. }
    destruct T2 as (t2 & R2 & X2). exists (t1 ++ t2).
    split; [eapply ee_trans; eassumption|eapply ext_trans; eassumption].
  Qed.

  Lemma map_last_good f b :
    Forall (fun s => match s with SExpr e _ => good ede names_expr f e | _ => True end) b ->
    good (ed_stmts mk) (fold_list (@app nitem) [] names_stmt) (map_last_expr f) b.
  Proof.
    induction b as [|s r IH]; intros G cx b' cx' H P N.
    - cbn in H. minv. exists []. split; [constructor|apply ext_refl].
    - inversion G as [|? ? G1 G2]; subst. cbn [fold_list fold_right] in N.
      apply Forall_app in N. destruct N as [N1 N2].
      destruct r as [|s2 r].
      + cbn [map_last_expr] in H.
        assert (R0 : exists t, ed_stmts mk t [s] [s] /\ ext cx t cx)
          by (exists []; split; [apply ess_refl|apply ext_refl]).
        destruct s as [l|i|e semi|]; try (minv; exact R0).
        destruct semi; [minv; exact R0|]. minv.
        destruct (G1 _ _ _ H0 P N1) as (t & R & X). exists t. split; [|assumption].
        rewrite <- (app_nil_r t). apply ess_cons; [constructor; assumption|constructor].
      + change (map_last_expr f (s :: s2 :: r)) with
          (r' <- map_last_expr f (s2 :: r) ;; ret (s :: r')) in H.
        minv. destruct (IH G2 _ _ _ H0 P N2) as (t & R & X). exists t. split; [|assumption].
        apply (ess_cons mk [] t); [apply es_refl|assumption].
  Qed.

  Lemma child_expr_good : forall e, good ede names_expr child_expr e.
  Proof.
    assert (R0 : forall e cx, exists t, ede t e e /\ ext cx t cx)
      by (intros; exists []; split; [apply ee_refl|apply ext_refl]).
    refine (proj1 (ast_ind (good ede names_expr child_expr)
                     (fun s => match s with SExpr e _ => good ede names_expr child_expr e | _ => True end)
                     (fun _ => True) (fun _ => True)
                     _ _ _ _ _ _ _ _ _ _ _ _ _ _ _ _ _ _ _ _ _ _ _ _ _ _));
      intros; try exact I; try assumption; intros cx x' cx' HH P N;
      pose proof N as N0; apply nok_fold_attrs in N; cbn [fold_expr] in N;
      cbn [child_expr] in HH; minv;
      match type of HH with (if ?b then _ else _) _ = _ => destruct b end;
      try (minv; apply R0; fail).
    - minv. destruct (map_last_good _ _ H _ _ _ H0 P N) as (t & R & X).
      exists t. split; [constructor; assumption|assumption].
    - destruct k; try (minv; apply R0; fail). minv.
      destruct (map_last_good _ _ H _ _ _ H0 P N) as (t & R & X).
      exists t. split; [constructor; assumption|assumption].
    - minv. assert (G : good (ed_arms mk) (fold_list (@app nitem) [] names_arm) (mapM visit_last_arm) arms).
      { eapply mapM_good; [apply eas_nil|apply eas_cons|].
        apply Forall_all. apply visit_last_arm_good. }
      apply Forall_app in N. destruct N as [_ N].
      destruct (G _ _ _ H1 P N) as (t & R & X).
      exists t. split; [apply (ee_match mk [] t); [apply ee_refl|assumption]|assumption].
    - eapply visit_last_if_good; eassumption.
    - minv. unfold visit_last_expr_loop in H0.
      assert (G : good (ed_stmts mk) (fold_list (@app nitem) [] names_stmt)
                    (mapM (loop_stmt l false)) b).
      { eapply mapM_good; [apply ess_nil|apply ess_cons|].
        apply Forall_all. intros s. apply loop_good. }
      destruct (G _ _ _ H0 P N) as (t & R & X).
      exists t. split; [constructor; assumption|assumption].
    - minv. apply Forall_app in N. destruct N as [N _].
      destruct (H _ _ _ H1 P N) as (t & R & X). exists t.
      split; [|assumption]. rewrite <- (app_nil_r t). apply ee_method; [assumption|apply ees_refl].
    - minv. destruct (H _ _ _ H0 P N) as (t & R & X).
      exists t. split; [constructor; assumption|assumption].
  Qed.

  (** [child_expr] keeps the attributes of the expression itself. *)
  Lemma visit_last_if_attrs e cx e' cx' :
    visit_last_expr_if e cx = ROk (e', cx') -> e_attrs e' = e_attrs e.
  Proof. destruct e; cbn [visit_last_expr_if]; intros H; minv; reflexivity. Qed.

  Lemma child_expr_attrs e cx e' cx' :
    child_expr e cx = ROk (e', cx') -> e_attrs e' = e_attrs e.
  Proof.
    intros H. destruct e; cbn [child_expr] in H; minv;
      match type of H with (if ?b then _ else _) _ = _ => destruct b end;
      try (minv; reflexivity).
    - destruct k; minv; reflexivity.
    - apply visit_last_if_attrs in H. exact H.
  Qed.
End Run.
