(** Every run of the visitors and of [attribute] makes only the edits of Edits.v. *)

Require Import Coq.Strings.String Coq.Lists.List Coq.Bool.Bool Coq.Arith.Arith Coq.NArith.NArith Lia.
Require Import Coq.Sorting.Permutation.
Require Import Verif.Syntax Verif.Context Verif.ExprModel Verif.TypeAnalysis Verif.AutoEnum.
Require Import Verif.AstInd Verif.Edits Verif.AttrFold Verif.RunLemmas Verif.EditsRun Verif.Frame.
Import ListNotations.
Open Scope string_scope.
Open Scope list_scope.

(** ** Attributes *)

Lemma find_remove_split {A} (f : A -> bool) l x l' :
  find_remove f l = Some (x, l') -> exists l1 r, l = l1 ++ x :: r /\ l' = l1 ++ r /\ f x = true
    /\ forallb (fun y => negb (f y)) l1 = true.
Proof.
  revert x l'. induction l as [|y l IH]; cbn; intros x l' H; [discriminate|].
  destruct (f y) eqn:E.
  - inversion H; subst. exists [], l'. auto.
  - destruct (find_remove f l) as [[z r]|] eqn:F; [|discriminate]. inversion H; subst.
    destruct (IH _ _ eq_refl) as (l1 & r1 & -> & -> & Hx & Hl). exists (y :: l1), r1.
    cbn. rewrite E, Hl. auto.
Qed.

Lemma find_remove_none {A} (f : A -> bool) l :
  find_remove f l = None -> forallb (fun y => negb (f y)) l = true.
Proof.
  induction l as [|y l IH]; cbn; intros H; [reflexivity|].
  destruct (f y) eqn:E; [discriminate|].
  destruct (find_remove f l) as [[z r]|]; [discriminate|]. cbn. auto.
Qed.

Lemma find_remove_drops a n x a' :
  In n ["auto_enum"; "nested"; "never"; "rec"] ->
  find_remove_attr a n = Some (x, a') -> drops_attr a a'.
Proof.
  intros I H. apply find_remove_split in H. destruct H as (l & r & E1 & E2 & E3 & _).
  exists l, x, r. repeat split; auto. unfold is_helper. apply existsb_exists. eauto.
Qed.

Lemma any_attr_none a n : any_attr a n = false -> find_remove_attr a n = None.
Proof.
  unfold any_attr, find_remove_attr. induction a as [|x r IH]; cbn; intros H; [reflexivity|].
  apply orb_false_iff in H. destruct H as [-> H]. rewrite IH; auto.
Qed.

Lemma any_attr_some a n x a' : find_remove_attr a n = Some (x, a') -> any_attr a n = true.
Proof.
  intros H. destruct (any_attr a n) eqn:E; [reflexivity|].
  apply any_attr_none in E. congruence.
Qed.

(** Several attributes removed. *)
Inductive drops : list attr -> list attr -> Prop :=
| dr_refl a : drops a a
| dr_step a a1 a2 : drops_attr a a1 -> drops a1 a2 -> drops a a2.

Lemma drops_one a a' : drops_attr a a' -> drops a a'.
Proof. intros. eapply dr_step; [eassumption|constructor]. Qed.

Lemma drops_trans a b c : drops a b -> drops b c -> drops a c.
Proof. induction 1; auto. intros. eapply dr_step; eauto. Qed.

Lemma set_attrs_id e : set_attrs e (e_attrs e) = e.
Proof. destruct e; reflexivity. Qed.

Lemma set_attrs_twice e a b : set_attrs (set_attrs e a) b = set_attrs e b.
Proof. destruct e; reflexivity. Qed.

Lemma e_attrs_set e a a' : drops_attr (e_attrs e) a -> e_attrs (set_attrs e a') = a'.
Proof.
  destruct e; cbn; auto. intros (l & x & r & H & _). destruct l; discriminate.
Qed.

Lemma ed_drops mk e a : drops (e_attrs e) a -> ed_expr mk [] e (set_attrs e a).
Proof.
  intros H. remember (e_attrs e) as a0 eqn:E. revert e E.
  induction H as [a|a a1 a2 D _ IH]; intros e ->.
  - rewrite set_attrs_id. apply ee_refl.
  - apply (ee_trans mk [] [] e (set_attrs e a1)); [apply ee_attr; assumption|].
    rewrite <- (set_attrs_twice e a1 a2). apply IH.
    symmetry. eapply e_attrs_set. eassumption.
Qed.

Lemma ea_drops mk a a' p g b c : drops a a' -> ed_arm mk [] (Arm a p g b c) (Arm a' p g b c).
Proof.
  induction 1 as [a|a a1 a2 D _ IH]; [apply ea_refl|].
  apply (ea_trans mk [] [] _ (Arm a1 p g b c)); [apply ea_attr; assumption|assumption].
Qed.

Lemma el_drops mk a a' p t i d : drops a a' -> ed_local mk [] (Local a p t i d) (Local a' p t i d).
Proof.
  induction 1 as [a|a a1 a2 D _ IH]; [apply el_refl|].
  apply (el_trans mk [] [] _ (Local a1 p t i d)); [apply el_attr; assumption|assumption].
Qed.

Section Contexts.
Context {K : Cfg}.

Lemma find_remove_attrs_ok sc a cx a' cx' :
  find_remove_attrs sc a cx = ROk (a', cx') -> drops a a' /\ ext cx [] cx'.
Proof.
  unfold find_remove_attrs. destruct (sc_foreign sc); intros H; minv.
  { split; [constructor|apply ext_refl]. }
  assert (S1 : drops a a0 /\ ext cx [] cx0).
  { destruct (find_remove_attr a NEVER) as [[x a1]|] eqn:E; minv.
    - split; [apply drops_one; eapply find_remove_drops; [|eassumption]; cbn; tauto|].
      destruct (is_path_only x); minv; [apply ext_refl|apply ext_error].
    - split; [constructor|apply ext_refl]. }
  assert (S2 : drops a0 a' /\ ext cx0 [] cx').
  { destruct (find_remove_attr a0 REC) as [[x a1]|] eqn:E; minv.
    - split; [apply drops_one; eapply find_remove_drops; [|eassumption]; cbn; tauto|apply ext_error].
    - split; [constructor|apply ext_refl]. }
  destruct S1, S2. split; [eapply drops_trans; eassumption|].
  apply (ext_trans _ _ _ [] []) with (1 := H2) (2 := H4).
Qed.

(** ** Changes of the modes *)

Lemma ext_mode m cx : ext cx [] (set_mode m cx).
Proof. apply ext_of_bext; [apply bext_same|]; auto. Qed.

Lemma ext_last m cx : ext cx [] (set_last m cx).
Proof. apply ext_of_bext; [apply bext_same|]; auto. Qed.

Lemma ext_traits m cx : ext cx [] (set_traits m cx).
Proof. apply ext_of_bext; [apply bext_same|]; auto. Qed.

Lemma ext_lerr cx : cx_errs cx <> [] -> ext cx [LErr] cx.
Proof.
  intros H. split; [apply bext_refl|contradiction| |contradiction].
  exists 0. cbn. rewrite app_nil_r. split; [reflexivity|contradiction].
Qed.

(** ** Joining a child context *)

Lemma ctx_new_ok i toks root ms diag child :
  ctx_new i toks root ms diag = inr child ->
  exists cur args m,
    parse_args toks = inr (args, m)
    /\ cur = match m with Some s => s | None => DEFAULT_MARKER end
    /\ (forall s, m = Some s -> existsb (String.eqb s) ms = false)
    /\ child = Ctx i [] cur (ms ++ [cur]) root false VDefault LDefault diag args [].
Proof.
  unfold ctx_new. destruct (parse_args toks) as [e|[args m]]; [discriminate|].
  destruct m as [s|].
  - destruct (existsb (String.eqb s) ms) eqn:E; [discriminate|].
    intros H. inversion H; subst. exists s, args, (Some s). repeat split; auto.
    intros s' H'. inversion H'; subst; auto.
  - intros H. inversion H; subst. exists DEFAULT_MARKER, args, None. repeat split; auto.
    intros s' H'. discriminate.
Qed.

Lemma make_child_ok i toks cx r cx' :
  make_child i toks cx = ROk (r, cx') ->
  cx_has_child cx = true /\ cx' = set_errs [] (set_markers [] cx)
  /\ r = ctx_new i toks false (cx_markers cx) (cx_errs cx).
Proof. unfold make_child. intros H. minv. auto. Qed.

Lemma join_child_ok child cx a cx' :
  join_child child cx = ROk (a, cx') ->
  cx_markers cx = []
  /\ cx' = set_errs (cx_errs cx ++ cx_errs child)
             (set_markers (removelast (cx_markers child)) cx).
Proof.
  unfold join_child. intros H. minv. destruct (cx_markers cx); [|discriminate].
  split; reflexivity.
Qed.

Lemma incl_nil_eq {A} (l : list A) : incl l [] -> l = [].
Proof. destruct l; auto. intros H. destruct (H a). left. reflexivity. Qed.

Lemma fine_ext cx t cx' : ext cx t cx' -> fine cx -> fine cx'.
Proof. intros X [F1 F2]. destruct (x_base _ _ _ X). split; congruence. Qed.

Lemma closed_app t1 t2 : closed t1 -> closed t2 -> closed (t1 ++ t2).
Proof.
  intros ((a1 & a0) & a2 & a3) ((b1 & b0) & b2 & b3). unfold closed.
  rewrite forallb_app, !flat_map_app, a1, a2, b1, b2. repeat split.
  - apply Forall_app; auto.
  - apply Permutation_app; assumption.
Qed.

Lemma ext_closed cx t cx' t2 :
  ext cx t cx' -> cx_has_child cx' = true -> (cx_errs cx' = [] -> closed t2) -> ext cx (t ++ t2) cx'.
Proof.
  intros [B C (n & V & U) _] HC H. split; [assumption| | |right; exact HC].
  - intros E F. destruct (H E) as ((c1 & c0) & _). destruct (C E F) as [d1 d2].
    rewrite forallb_app, flat_map_app, c1, d1. split; [reflexivity|apply Forall_app; auto].
  - exists n. split; [assumption|]. intros E. destruct (H E) as (_ & c2 & c3), (U E) as [u1 u2].
    rewrite !flat_map_app, c2, app_nil_r. split; [|assumption].
    rewrite app_assoc. apply Permutation_app; assumption.
Qed.

Lemma join_ext cx t cx2 child t2 child' a cx3 i toks :
  cx_errs cx = [] -> cx_has_child cx = true ->
  ctx_new i toks false (cx_markers cx) (cx_errs cx) = inr child ->
  ext (set_errs [] (set_markers [] cx)) t cx2 ->
  bext child child' -> fine child ->
  (cx_errs child' = [] -> fine child -> closed t2) ->
  join_child child' cx2 = ROk (a, cx3) ->
  ext cx (t ++ t2) cx3.
Proof.
  intros E0 HC HN X Y GI F HJ. apply ctx_new_ok in HN. destruct HN as (cur & args & m & _ & _ & _ & ->).
  apply join_child_ok in HJ. destruct HJ as [M0 ->].
  destruct X as [[a1 a2 a3 a4 a5 a9 a6 [d1 a7]] a8 (n1 & b1 & b2) a10].
  destruct Y as [c1 c2 c3 c4 c5 c9 c6 [d2 c7]].
  cbn in *. rewrite E0 in *. cbn in *. apply ext_closed.
  - split; cbn; [split; cbn; try congruence; auto| | |right; auto].
    + destruct c6 as [c6|[c6 c6']].
      * left. rewrite c6. apply removelast_last.
      * right. rewrite c6. split; [reflexivity|]. intros E. apply app_nil_inv in E. tauto.
    + rewrite E0. eexists. reflexivity.
    + intros E. apply app_nil_inv in E. tauto.
    + exists n1. split; [exact b1|]. intros E. apply app_nil_inv in E. tauto.
  - cbn. auto.
  - cbn. intros E. apply app_nil_inv in E. apply F; tauto.
Qed.

Lemma fail_child_ext cx t cx2 e :
  cx_errs cx = [] ->
  ext (set_errs [] (set_markers [] cx)) t cx2 ->
  ext cx t (set_errs (cx_errs cx2 ++ [e]) cx2).
Proof.
  intros E0 [[a1 a2 a3 a4 a5 a9 a6 [d1 a7]] a8 (n1 & b1 & b2) _]. cbn in *.
  pose proof (snoc_nonempty (cx_errs cx2) e) as NE.
  split; cbn; [split; cbn; auto| | |]; try contradiction.
  - right. split; [destruct a6 as [a6|[a6 _]]; assumption|assumption].
  - rewrite E0. eexists. reflexivity.
  - exists n1. split; auto. contradiction.
Qed.

End Contexts.

Section Visit.
  Context {K : Cfg}.
  Variable mk : string -> bool.
  Variable hash : node -> N.
  Variable ta : bool.
  Hypothesis mk_default : mk DEFAULT_MARKER = true.

  Notation ede := (ed_expr mk).
  Notation eds := (ed_stmt mk).
  Notation eda := (ed_arm mk).
  Notation edl := (ed_local mk).
  Notation good := (good mk).
  Notation nok := (nok mk).

  Lemma nok_attrs e : nok (names_expr e) -> nok (flat_map attr_marker (e_attrs e)).
  Proof.
    intros N. destruct e; unfold names_expr in N; cbn [af_expr e_attrs] in N |- *;
      apply Forall_app in N; destruct N as [N _]; exact N.
  Qed.

  Lemma nok_child a : nok (flat_map attr_marker a) -> any_attr a NAME = true -> c_ch.
  Proof.
    unfold any_attr. intros N H. apply existsb_exists in H. destruct H as (x & Hin & E).
    apply in_split in Hin. destruct Hin as (l1 & r & ->). rewrite flat_map_app in N.
    apply Forall_app in N. destruct N as [_ N]. cbn in N. apply Forall_app in N. destruct N as [N _].
    unfold attr_marker in N. rewrite E in N.
    destruct x as [p|p l|p v]; try (inversion N as [|? ? H]; apply H).
    destruct (parse_args l); inversion N as [|? ? H]; apply H.
  Qed.

  Lemma ctx_new_marker i toks root ms diag child a x a' :
    find_remove_attr a NAME = Some (x, a') -> nok (flat_map attr_marker a) ->
    match x with MList _ l => toks = l | _ => toks = [] end ->
    ctx_new i toks root ms diag = inr child ->
    mk (cx_marker child) = true /\ c_dk (cx_args child).
  Proof.
    intros F N T H. apply ctx_new_ok in H. destruct H as (cur & args & m & Hp & Hc & _ & ->). cbn.
    apply find_remove_split in F. destruct F as (l1 & r & -> & _ & E & _).
    rewrite flat_map_app in N. apply Forall_app in N. destruct N as [_ N].
    cbn in N. apply Forall_app in N. destruct N as [N _].
    assert (NI : nok [(args, m)]).
    { unfold attr_marker in N. rewrite E in N.
      destruct x as [p|p l|p v]; cbn in T; subst toks.
      - cbn in Hp. inversion Hp; subst. exact N.
      - rewrite Hp in N. exact N.
      - cbn in Hp. inversion Hp; subst. exact N. }
    inversion NI as [|? ? HO _]. subst.
    destruct HO as (_ & O1 & O2). cbn in O1, O2. split; [|assumption].
    destruct m; [assumption|apply mk_default].
  Qed.

  (** *** Pieces of [visit_expr] *)

  Lemma visit_return_good sc e : good ede names_expr (visit_return sc) e.
  Proof.
    intros cx e' cx' H P N. unfold visit_return in H.
    assert (R0 : exists t, ede t e e /\ ext cx t cx)
      by (exists []; split; [apply ee_refl|apply ext_refl]).
    destruct (_ && _); [|minv; exact R0].
    destruct e; try (minv; exact R0).
    minv. destruct (match e with Some y => is_marker_expr cx y | None => false end) eqn:E;
      minv; [exact R0|].
    apply replace_boxed_ok in H0. destruct H0 as [(E1 & E2 & E3)|(E1 & E2 & E3)]; subst.
    - destruct e; [|discriminate]. cbn in E2. congruence.
    - eexists. split; [apply ee_wrap_return|apply ext_next].
  Qed.

  Lemma visit_return_attrs sc e cx e' cx' :
    visit_return sc e cx = ROk (e', cx') -> e_attrs e' = e_attrs e.
  Proof.
    unfold visit_return. destruct (_ && _); [|intros; minv; reflexivity].
    destruct e; intros H; minv; try reflexivity. destruct (match e with Some y => is_marker_expr cx y | None => false end); minv; reflexivity.
  Qed.

  Lemma visit_try_good sc e : good ede names_expr (visit_try sc) e.
  Proof.
    intros cx e' cx' H P N. unfold visit_try in H.
    assert (R0 : exists t, ede t e e /\ ext cx t cx)
      by (exists []; split; [apply ee_refl|apply ext_refl]).
    destruct (_ && _); [|minv; exact R0].
    destruct e; try (minv; exact R0).
    minv. destruct (is_marker_expr cx e); minv; [exact R0|].
    apply next_expr_ok in H0. destruct H0; subst.
    eexists. split; [|apply ext_next]. apply ee_question.
  Qed.

  Lemma visit_try_attrs sc e cx e' cx' :
    visit_try sc e cx = ROk (e', cx') -> e_attrs e' = e_attrs e.
  Proof.
    unfold visit_try. destruct (_ && _); [|intros; minv; reflexivity].
    destruct e; intros H; minv; try reflexivity. destruct (is_marker_expr cx e); minv; reflexivity.
  Qed.

  Lemma visit_nested_good sc a e : good ede names_expr (fun e => visit_nested sc e a) e.
  Proof.
    intros cx e' cx' H P N. unfold visit_nested in H. minv.
    destruct (is_path_only a).
    - eapply child_expr_good; eassumption.
    - minv. exists []. split; [apply ee_refl|apply ext_error].
  Qed.

  Lemma visit_nested_attrs sc a e cx e' cx' :
    visit_nested sc e a cx = ROk (e', cx') -> e_attrs e' = e_attrs e.
  Proof.
    unfold visit_nested. intros H. minv. destruct (is_path_only a).
    - eapply child_expr_attrs; eassumption.
    - minv. reflexivity.
  Qed.

  Lemma visit_marker_good sc e : good ede names_expr (visit_marker_macro sc) e.
  Proof.
    intros cx e' cx' H P N. unfold visit_marker_macro in H. minv.
    assert (R0 : exists t, ede t e e /\ ext cx t cx)
      by (exists []; split; [apply ee_refl|apply ext_refl]).
    destruct e; try (minv; exact R0). destruct m as [p x].
    unfold is_marker_macro_exact in H. cbn [mac_path] in H.
    destruct (is_ident p (cx_marker cx)) eqn:E; [|minv; exact R0].
    destruct x as [y|]; minv.
    - unfold has_error in H. destruct (cx_errs cx) eqn:EE.
      + apply next_expr_attrs_ok in H. destruct H; subst.
        eexists. split; [eapply ee_marker; eassumption|apply ext_next].
      + minv. eexists. split; [eapply ee_marker_err; eassumption|].
        apply ext_lerr. congruence.
    - assert (HE : has_error (set_errs (cx_errs cx ++ [ErrMarkerExpr]) cx) = true).
      { unfold has_error. cbn. destruct (cx_errs cx); reflexivity. }
      rewrite HE in H. minv. eexists. split; [eapply ee_marker_bad; eassumption|apply ext_error_lbl].
  Qed.

  (** What is proved of the engine. *)
  Definition dgood {A} (R : list label -> A -> A -> Prop) (nm : A -> list nitem)
      (f : A -> M A) (x : A) : Prop := good R nm f x.

  Record engine_good (R : engine_t) : Prop := EGood {
    eg_vexpr : forall sc b e, good ede names_expr (r_vexpr R sc b) e;
    eg_vstmt : forall sc e, good eds names_stmt (r_vstmt R sc) e;
    eg_varm : forall sc e, good eda names_arm (r_varm R sc) e;
    eg_vlocal : forall sc e, good edl names_local (r_vlocal R sc) e;
    eg_dexpr : forall e, good ede names_expr (r_dexpr R) e;
    eg_dstmt : forall e, good eds names_stmt (r_dstmt R) e;
    eg_dframe_e : forall e, pres same_dummy (r_dexpr R e);
    eg_dframe_s : forall e, pres same_dummy (r_dstmt R e)
  }.

  (** What is proved of the functions that expand the annotated code in a fresh context. *)
  Definition cgood {A} (Rl : list label -> A -> A -> Prop) (nm : A -> list nitem)
      (f : A -> M A) (x : A) : Prop :=
    forall cx x' cx', f x cx = ROk (x', cx') -> mk (cx_marker cx) = true -> nok (nm x) ->
    cx_variants cx = [] ->
    exists t, Rl t x x' /\ bext cx cx' /\ (cx_errs cx' = [] -> fine cx -> closed t).

  Lemma mapM_good_s f b :
    (forall s, good eds names_stmt f s) ->
    good (ed_stmts mk) (fold_list (@app nitem) [] names_stmt) (mapM f) b.
  Proof.
    intros H. eapply mapM_good; [apply ess_nil|apply ess_cons|]. apply Forall_all. exact H.
  Qed.

  Lemma walk_good V e :
    (forall e, good ede names_expr (on_expr V) e) ->
    (forall e, good eds names_stmt (on_stmt V) e) ->
    (forall e, good eda names_arm (on_arm V) e) ->
    good ede names_expr (walk_expr V) e.
  Proof. intros. apply walk_expr_good, fold_expr_and; assumption. Qed.

  Lemma walk_local_all f x :
    (forall e, good ede names_expr f e) -> good edl names_local (walk_local f) x.
  Proof.
    intros H. apply walk_local_good. destruct x as [a p t i d]. cbn.
    destruct i, d; cbn; auto.
  Qed.

  Lemma walk_arm_all f x :
    (forall e, good ede names_expr f e) -> good eda names_arm (walk_arm f) x.
  Proof.
    intros H. apply walk_arm_good. destruct x as [a p [g|] b c]; cbn; auto.
  Qed.

  Lemma walk_stmt_all fe fl s :
    (forall e, good ede names_expr fe e) -> (forall e, good edl names_local fl e) ->
    good eds names_stmt (walk_stmt fe fl) s.
  Proof. intros. apply walk_stmt_good. destruct s; cbn; auto. Qed.

  Ltac use G H P N t R X :=
    destruct (G _ _ _ H P N) as (t & R & X);
    let P' := fresh "P" in pose proof (pre_ext mk _ _ _ X P) as P'.

  Lemma free_of_same cx t cx' :
    ext cx t cx' -> cx_variants cx' = cx_variants cx -> cx_errs cx' = [] ->
    fine cx -> closed t.
  Proof.
    intros X E EE GN. destruct (x_use _ _ _ X) as (n & V & F).
    destruct (F EE) as [F1 F2]. rewrite E in V. rewrite <- (app_nil_r (cx_variants cx)) in V at 1.
    apply app_inv_head in V. destruct n; [|discriminate].
    split; [apply (x_clean _ _ _ X EE GN)|]. split; [apply incl_nil_eq; exact F2|exact F1].
  Qed.

  (** [Context::build] on an expression. *)
  Lemma build_ok {A} (f : genum -> A -> A) (x : A) cx x' cx' :
    build f x cx = ROk (x', cx') ->
    (x' = x /\ cx_errs cx' <> [] /\ ext cx [] cx')
    \/ (x' = x /\ cx_variants cx = [] /\ cx' = cx)
    \/ (x' = f (enum_of (cx_ident cx) (cx_variants cx) (cx_args cx ++ cx_traits cx)) x
        /\ 2 <= length (cx_variants cx) /\ cx_errs cx = [] /\ cx' = cx).
  Proof.
    unfold build. unfold has_error. destruct (cx_errs cx) eqn:E.
    - destruct (cx_variants cx) as [|v1 [|v2 r]] eqn:V; cbn [length].
      + destruct (cx_has_child cx); intros H; [inversion H; subst; auto|].
        minv. left. split; [reflexivity|]. split; [|apply ext_error].
        cbn. intros F. apply app_nil_inv in F. destruct F; discriminate.
      + intros H. minv. left. split; [reflexivity|]. split; [|apply ext_error].
        cbn. intros F. apply app_nil_inv in F. destruct F; discriminate.
      + intros H. inversion H; subst. right; right. unfold builder_build, enum_of. rewrite V.
        repeat split; auto. lia.
    - intros H. inversion H; subst. left. split; [reflexivity|]. split; [congruence|apply ext_refl].
  Qed.

  Lemma filter_nil {A} (f : A -> bool) l : (forall x, In x l -> f x = false) -> filter f l = [].
  Proof.
    induction l; cbn; intros H; [reflexivity|]. rewrite H by auto. apply IHl. auto.
  Qed.

  Lemma declares_own i vs d v : In v vs -> declares (enum_of i vs d) (i, v) = true.
  Proof.
    intros H. unfold declares, enum_of. cbn. rewrite String.eqb_refl. cbn.
    apply existsb_exists. exists (v, v). cbn. rewrite String.eqb_refl. split; [|reflexivity].
    clear i d. induction vs; cbn in *; [contradiction|]. destruct H; [left; subst; reflexivity|auto].
  Qed.

  Lemma ctors_enum_of i vs d : ctors (enum_of i vs d) = map (pair i) vs.
  Proof.
    unfold ctors, enum_of. cbn. induction vs; cbn; [reflexivity|]. rewrite IHvs. reflexivity.
  Qed.

  (** The label of a declaration in a context that started empty. *)
  Lemma enum_label cx t cx' tr :
    ext cx t cx' -> cx_variants cx = [] -> cx_errs cx' = [] -> fine cx ->
    closed [LEnum (enum_of (cx_ident cx') (cx_variants cx') (cx_args cx' ++ tr)) t].
  Proof.
    intros X V0 EE GN. destruct (x_use _ _ _ X) as (n & V & F). destruct (F EE) as [F1 F2].
    rewrite V0 in *. cbn in V, F1, F2. rewrite (x_ident _ _ _ X), V.
    destruct (x_clean _ _ _ X EE GN) as [C1 C2]. destruct GN as [GN1 GN2].
    unfold closed. cbn [flat_map forallb clean free used enums]. rewrite !app_nil_r. split; [|split].
    - cbn [g_ident enum_of]. rewrite GN1, C1. split; [reflexivity|]. constructor; [|assumption].
      exists (cx_args cx'), tr. split; [reflexivity|]. rewrite (b_args _ _ (x_base _ _ _ X)). assumption.
    - apply filter_nil. intros [i v] Hin. apply F2 in Hin.
      apply in_map_iff in Hin. destruct Hin as (v' & Ev & Hv).
      inversion Ev; subst. rewrite declares_own; auto.
    - cbn [flat_map]. rewrite ctors_enum_of. exact F1.
  Qed.

  Lemma ext_variants cx t cx' :
    ext cx t cx' -> cx_variants cx = [] ->
    cx_variants cx' = variants (length (cx_variants cx')).
  Proof.
    intros X V0. destruct (x_use _ _ _ X) as (n & V & _). rewrite V0 in V. cbn in V.
    rewrite V, new_variants_length. reflexivity.
  Qed.

  Lemma build_expr_good cx0 t e0 e cx e' cx' :
    ede t e0 e -> ext cx0 t cx -> cx_variants cx0 = [] ->
    build build_expr e cx = ROk (e', cx') ->
    exists t', ede t' e0 e' /\ bext cx0 cx' /\ (cx_errs cx' = [] -> fine cx0 -> closed t').
  Proof.
    intros HE X V0 H. apply build_ok in H.
    destruct H as [(E1 & E2 & E3)|[(E1 & E2 & E3)|(E1 & E2 & E3 & E4)]]; subst.
    - exists t. split; [assumption|].
      split; [eapply bext_trans; [apply X|apply E3]|contradiction].
    - exists t. split; [assumption|]. split; [apply X|].
      intros EE GN. eapply free_of_same; [eassumption| |assumption|assumption]. congruence.
    - pose proof (enum_label cx0 t cx (cx_traits cx) X V0 E3) as F.
      rewrite (ext_variants _ _ _ X V0) in F |- *.
      eexists. split; [|split; [apply X|intros _; exact F]].
      unfold build_expr, expr_block. apply ee_enum; assumption.
  Qed.

  Section Expand.
    Variable R : engine_t.
    Hypothesis G : engine_good R.

    Lemma expand_body_good e : good ede names_expr (expand_body ta R) e.
    Proof.
      intros cx e' cx' H P N. unfold expand_body in H. minv.
      use (child_expr_good mk e) H0 P N t1 R1 X1.
      assert (N1 : nok (names_expr a)).
      { eapply nok_incl; [|exact N]. eapply (proj1 (names_edit mk)). eassumption. }
      assert (S2 : exists t2, ede t2 a e' /\ ext cx0 t2 cx').
      { destruct (ta_dummy ta cx0).
        - eapply (eg_dexpr R G); eassumption.
        - eapply (eg_vexpr R G); eassumption. }
      destruct S2 as (t2 & R2 & X2). exists (t1 ++ t2).
      split; [eapply ee_trans; eassumption|eapply ext_trans; eassumption].
    Qed.

    Lemma expand_expr_good e : good ede names_expr (expand_expr ta R) e.
    Proof.
      intros cx e' cx' H P N. unfold expand_expr in H. minv.
      assert (D : expand_body ta R e cx = ROk (e', cx') -> exists t, ede t e e' /\ ext cx t cx')
        by (intros; eapply expand_body_good; eassumption).
      destruct e; auto. destruct (visit_last cx); auto. minv.
      apply nok_fold_attrs in N. cbn [fold_expr] in N.
      match goal with HB : expand_body _ _ _ (set_mode ?m _) = _ |- _ =>
        rename HB into H1; pose proof (ext_mode m cx) as X0 end.
      use (expand_body_good e) H1 P N t R1 X1.
      exists t. split; [apply ee_closure; assumption|].
      apply (ext_trans _ _ _ [] t X0 X1).
    Qed.

    Lemma expand_parent_expr_good b e :
      cgood ede names_expr (fun e => expand_parent_expr ta R e b) e.
    Proof.
      intros cx e' cx' H P N V0. unfold expand_parent_expr in H.
      apply bind_ok in H. destruct H as (u & cxa & H0 & H).
      assert (X0 : ext cx [] cxa /\ cx_variants cxa = []).
      { destruct b; minv; split; auto using ext_last, ext_refl. }
      destruct X0 as [X0 Va]. clear H0. pose proof (pre_ext mk _ _ _ X0 P) as Pa.
      minv. destruct (is_dummy cxa).
      - minv. use (eg_dexpr R G e) H Pa N t R1 X1. exists t.
        split; [assumption|]. split; [apply (ext_trans _ _ _ [] t X0 X1)|].
        intros EE GN. eapply free_of_same; [eassumption| |assumption|apply (fine_ext _ _ _ X0); assumption].
        apply (eg_dframe_e R G) in H. apply H.
      - minv. use (expand_expr_good e) H0 Pa N t R1 X1.
        eapply build_expr_good; try eassumption. apply (ext_trans _ _ _ [] t X0 X1).
    Qed.

  End Expand.
End Visit.
