(** Every run of [engine] and of [attribute] makes only the edits of Edits.v. *)

Require Import Coq.Strings.String Coq.Lists.List Coq.Bool.Bool Coq.Arith.Arith Coq.NArith.NArith Lia.
Require Import Coq.Sorting.Permutation.
Require Import Verif.Syntax Verif.Context Verif.ExprModel Verif.TypeAnalysis Verif.AutoEnum.
Require Import Verif.AstInd Verif.TyInd Verif.Edits Verif.AttrFold Verif.RunLemmas Verif.EditsRun.
Require Import Verif.Frame Verif.VisitRun.
Import ListNotations.
Open Scope string_scope.
Open Scope list_scope.

(** ** Type analysis *)

Lemma flat_map_nonempty {A B} (f : A -> list B) (g : A -> bool) l :
  Forall (fun x => f x <> [] -> g x = true) l -> flat_map f l <> [] -> existsb g l = true.
Proof.
  induction l as [|a l IH]; cbn; intros HF HN; [contradiction|].
  inversion HF; subst. destruct (f a) eqn:E.
  - rewrite IH; auto. apply orb_true_r.
  - rewrite H1; [reflexivity|congruence].
Qed.

Lemma app_nonempty {A} (l1 l2 : list A) : l1 ++ l2 <> [] -> l1 <> [] \/ l2 <> [].
Proof. destruct l1; [right; assumption|left; discriminate]. Qed.

Lemma collect_has_impl args :
  (forall t, collect_ty args t <> [] -> has_impl t = true)
  /\ (forall b, collect_bound args b <> [] -> has_impl_bound b = true)
  /\ (forall p, collect_path args p <> [] -> has_impl_path p = true)
  /\ (forall s, collect_seg args s <> [] -> has_impl_seg s = true)
  /\ (forall a, collect_segargs args a <> [] -> has_impl_args a = true)
  /\ (forall g, collect_garg args g <> [] -> has_impl_garg g = true).
Proof.
  apply ty_ind_all; intros; cbn [collect_ty collect_bound collect_path collect_seg collect_segargs
    collect_garg has_impl has_impl_bound has_impl_path has_impl_seg has_impl_args has_impl_garg] in *;
    auto; try contradiction; try (eapply flat_map_nonempty; eassumption).
  - apply app_nonempty in H1. destruct H1 as [H1|H1].
    + destruct q; [|contradiction]. cbn in H. rewrite H; auto.
    + rewrite H0; auto. apply orb_true_r.
  - apply app_nonempty in H1. destruct H1 as [H1|H1].
    + rewrite (flat_map_nonempty _ _ _ H H1). reflexivity.
    + destruct out; [|contradiction]. cbn in H0. rewrite H0; auto. apply orb_true_r.
Qed.

Lemma drops_no_name a a' n :
  drops_attr a a' -> any_attr a n = false -> any_attr a' n = false.
Proof.
  intros (l & x & r & -> & -> & _). unfold any_attr. rewrite !existsb_app. cbn.
  intros H. apply orb_false_iff in H. destruct H as [-> H]. apply orb_false_iff in H.
  destruct H as [_ ->]. reflexivity.
Qed.

Lemma helper_name : In "auto_enum" ["auto_enum"; "nested"; "never"; "rec"].
Proof. cbn; tauto. Qed.
Lemma helper_nested : In "nested" ["auto_enum"; "nested"; "never"; "rec"].
Proof. cbn; tauto. Qed.

Lemma note_child_ok {K : Cfg} a cx u cx' :
  note_child a cx = ROk (u, cx') -> (any_attr a NAME = true -> c_ch) ->
  ext cx [] cx' /\ cx_errs cx' = cx_errs cx /\ cx_mode cx' = cx_mode cx
  /\ cx_variants cx' = cx_variants cx /\ cx_markers cx' = cx_markers cx
  /\ (any_attr a NAME = true -> cx_has_child cx' = true).
Proof.
  unfold note_child. destruct (any_attr a NAME); intros H CH; minv.
  - split; [apply ext_child; auto|]. repeat split; auto.
  - split; [apply ext_refl|]. repeat split; auto. discriminate.
Qed.

Lemma visit_return_errs sc e cx e' cx' :
  visit_return sc e cx = ROk (e', cx') -> cx_errs cx' = cx_errs cx.
Proof.
  unfold visit_return. destruct (_ && _); [|intros; minv; reflexivity].
  destruct e; intros H; minv; try reflexivity.
  destruct (match e with Some y => is_marker_expr cx y | None => false end); minv; [reflexivity|].
  apply replace_boxed_ok in H0. destruct H0 as [(E1 & E2 & E3)|(E1 & E2 & E3)]; subst; reflexivity.
Qed.

Lemma visit_try_errs sc e cx e' cx' :
  visit_try sc e cx = ROk (e', cx') -> cx_errs cx' = cx_errs cx.
Proof.
  unfold visit_try. destruct (_ && _); [|intros; minv; reflexivity].
  destruct e; intros H; minv; try reflexivity.
  destruct (is_marker_expr cx e); minv; [reflexivity|].
  apply next_expr_ok in H0. destruct H0; subst; reflexivity.
Qed.

Section Engine.
  Context {K : Cfg}.
  Variable mk : string -> bool.
  Variable hash : node -> N.
  Variable ta : bool.
  Hypothesis mk_default : mk DEFAULT_MARKER = true.

  Notation ede := (ed_expr mk).
  Notation eds := (ed_stmt mk).
  Notation eda := (ed_arm mk).
  Notation edl := (ed_local mk).
  Notation good := (good mk).
  Notation nok := (nok mk).
  Notation cgood := (cgood mk).

  Ltac use G H P N t R X :=
    destruct (G _ _ _ H P N) as (t & R & X);
    let P' := fresh "P" in pose proof (pre_ext mk _ _ _ X P) as P'.

  Lemma local_ty_ok a p t i d cx t' cx' :
    local_ty ta t cx = ROk (t', cx') ->
    edl [] (Local a p t i d) (Local a p t' i d) /\ ext cx [] cx' /\ cx_variants cx' = cx_variants cx.
  Proof.
    unfold local_ty. destruct ta; [|intros H; minv; auto using el_refl, ext_refl].
    destruct t as [t|]; [|intros H; minv; auto using el_refl, ext_refl].
    intros H. minv. destruct (collect_impl_trait (cx_args cx) (cx_traits cx) t) as [tr fd] eqn:E.
    minv. split; [|split; [apply ext_traits|reflexivity]].
    unfold collect_impl_trait in E. inversion E; subst.
    destruct (collect_ty (cx_args cx) t) eqn:C; [apply el_refl|].
    apply el_type. apply (proj1 (collect_has_impl (cx_args cx))). congruence.
  Qed.

  Lemma nok_local a p t i d :
    nok (names_local (Local a p t i d)) ->
    nok (flat_map attr_marker a) /\ nok (fold_opt [] names_expr i) /\ nok (fold_opt [] names_expr d).
  Proof.
    unfold names_local. cbn [af_local fold_local]. intros N.
    apply Forall_app in N. destruct N as [N0 N]. apply Forall_app in N. destruct N. auto.
  Qed.

  Lemma nok_arm a p g b c :
    nok (names_arm (Arm a p g b c)) ->
    nok (flat_map attr_marker a) /\ nok (fold_opt [] names_expr g) /\ nok (names_expr b).
  Proof.
    unfold names_arm. cbn [af_arm fold_arm]. intros N.
    apply Forall_app in N. destruct N as [N0 N]. apply Forall_app in N. destruct N. auto.
  Qed.

  Lemma nok_sattrs s : nok (names_stmt s) -> nok (flat_map attr_marker (s_attrs s)).
  Proof.
    destruct s as [[]| | |]; intros N; cbn [s_attrs].
    - apply (nok_local _ _ _ _ _ N).
    - constructor.
    - apply nok_attrs. exact N.
    - exact N.
  Qed.

  Section Level.
    Variable R : engine_t.
    Hypothesis G : engine_good mk R.

    Lemma expand_parent_local_good l : cgood edl names_local (expand_parent_local ta R) l.
    Proof.
      intros cx l' cx' H P N V0. destruct l as [a p t i d]. cbn [expand_parent_local] in H.
      apply bind_ok in H. destruct H as (t' & cx1 & HT & H).
      destruct (local_ty_ok a p t i d _ _ _ HT) as (R0 & X0 & V1).
      pose proof (pre_ext mk _ _ _ X0 P) as P1. rewrite V0 in V1. minv.
      destruct (is_dummy cx1).
      - minv. pose proof (nok_local _ _ _ _ _ N) as (Na & Ni & Nd).
        assert (N1 : nok (names_local (Local a p t' i d))).
        { unfold names_local. cbn [af_local fold_local]. apply Forall_app. split; [exact Na|].
          apply Forall_app. split; assumption. }
        destruct (walk_local_all mk (r_dexpr R) (Local a p t' i d) (eg_dexpr mk R G) _ _ _ H P1 N1)
          as (t1 & R1 & X1).
        exists t1. split; [|split].
        + apply (el_trans mk [] t1 _ _ _ R0 R1).
        + apply (ext_trans _ _ _ [] t1 X0 X1).
        + intros EE GN. eapply free_of_same; [eassumption| |assumption|apply (fine_ext _ _ _ X0); assumption].
          assert (F : same_dummy cx1 cx').
          { eapply (walk_local_pres same_dummy); try apply same_dummy_refl; try apply same_dummy_trans;
              [|exact H]. apply (eg_dframe_e mk R G). }
          apply F.
      - destruct i as [e|].
        + minv. pose proof (nok_local _ _ _ _ _ N) as (Na & Ni & Nd). cbn in Ni.
          match goal with HE : expand_expr _ _ _ _ = _ |- _ =>
            use (expand_expr_good mk ta R G e) HE P1 Ni t1 R1 X1 end.
          match goal with HB : build _ _ _ = _ |- _ =>
            destruct (build_expr_good mk cx1 t1 e _ _ _ _ R1 X1 V1 HB) as (t2 & R2 & X2 & F2) end.
          exists t2. split; [|split].
          * apply (el_trans mk [] t2 _ _ _ R0). rewrite <- (app_nil_r t2).
            apply el_parts; [apply eo_some; assumption|apply eo_refl].
          * eapply bext_trans; [apply X0|exact X2].
          * intros EE GN. apply F2; [assumption|]. apply (fine_ext _ _ _ X0); assumption.
        + minv. exists []. split; [exact R0|]. split.
          * apply (ext_trans _ _ _ [] [] X0 (ext_error _ _)).
          * intros EE. repeat split; constructor.
    Qed.

    (** A statement other than an item. *)
    Definition no_item (s : stmt) : bool := match s with SItem _ => false | _ => true end.

    Lemma expand_parent_stmt_good s :
      no_item s = true -> cgood eds names_stmt (expand_parent_stmt ta R) s.
    Proof.
      intros NI cx s' cx' H P N V0. destruct s; try discriminate NI; cbn [expand_parent_stmt] in H; minv.
      - match goal with HE : expand_parent_local _ _ _ _ = _ |- _ =>
          destruct (expand_parent_local_good _ _ _ _ HE P N V0) as (t & R1 & X1 & F) end.
        exists t. split; [constructor; assumption|auto].
      - match goal with HE : expand_parent_expr _ _ _ _ _ = _ |- _ =>
          destruct (expand_parent_expr_good mk ta R G _ _ _ _ _ HE P N V0) as (t & R1 & X1 & F) end.
        exists t. split; [constructor; assumption|auto].
      - exists []. split; [constructor|]. split; [apply bext_refl|]. intros _. repeat split; constructor.
    Qed.

    Lemma fn_mode_ok out b cx u cx' :
      fn_mode out b cx = ROk (u, cx') -> ext cx [] cx' /\ cx_variants cx' = cx_variants cx.
    Proof.
      unfold fn_mode. intros H. minv. destruct (match cx_last cx with LDefault => true | LNever => false end);
        [|minv; auto using ext_refl].
      destruct out as [[]|]; minv; auto using ext_refl, ext_mode;
        destruct (is_result_impl _); minv; auto using ext_refl;
        destruct (2 <=? _)%nat; minv; auto using ext_refl, ext_mode.
    Qed.

    Lemma fn_collect_ok out cx u cx' :
      fn_collect ta out cx = ROk (u, cx') -> ext cx [] cx' /\ cx_variants cx' = cx_variants cx.
    Proof.
      unfold fn_collect. destruct ta; [|intros H; minv; auto using ext_refl].
      destruct out as [t|]; [|intros H; minv; auto using ext_refl].
      intros H. minv. destruct (collect_impl_trait _ _ _). minv. auto using ext_traits.
    Qed.

    Lemma build_fn_good cx0 t b0 b cx b' cx' :
      ed_stmts mk t b0 b -> ext cx0 t cx -> cx_variants cx0 = [] ->
      build build_fn b cx = ROk (b', cx') ->
      exists t', ed_body mk t' b0 b' /\ bext cx0 cx' /\ (cx_errs cx' = [] -> fine cx0 -> closed t').
    Proof.
      intros HE X V0 H. apply build_ok in H.
      destruct H as [(E1 & E2 & E3)|[(E1 & E2 & E3)|(E1 & E2 & E3 & E4)]]; subst.
      - exists t. split; [apply eb_stmts; assumption|].
        split; [eapply bext_trans; [apply X|apply E3]|contradiction].
      - exists t. split; [apply eb_stmts; assumption|]. split; [apply X|].
        intros EE GN. eapply free_of_same; [eassumption| |assumption|assumption]. congruence.
      - pose proof (enum_label cx0 t cx (cx_traits cx) X V0 E3) as F.
        rewrite (ext_variants _ _ _ X V0) in F |- *.
        eexists. split; [|split; [apply X|intros _; exact F]].
        apply eb_enum; assumption.
    Qed.

    Lemma expand_parent_fn_good out b cx b' cx' :
      expand_parent_item_fn ta R out b cx = ROk (b', cx') -> mk (cx_marker cx) = true ->
      nok (fold_list (@app nitem) [] names_stmt b) -> cx_variants cx = [] ->
      exists t, ed_body mk t b b' /\ bext cx cx' /\ (cx_errs cx' = [] -> fine cx -> closed t).
    Proof.
      intros H P N V0. unfold expand_parent_item_fn in H.
      apply bind_ok in H. destruct H as (u1 & cx1 & H1 & H).
      apply bind_ok in H. destruct H as (u2 & cx2 & H2 & H).
      destruct (fn_mode_ok _ _ _ _ _ H1) as [X1 V1]. destruct (fn_collect_ok _ _ _ _ H2) as [X2 V2].
      pose proof (ext_trans _ _ _ [] [] X1 X2) as X. cbn in X.
      pose proof (pre_ext mk _ _ _ X P) as P2. rewrite V1, V0 in V2. minv.
      assert (DG : forall b cxa b' cxb,
                 mapM (r_dstmt R) b cxa = ROk (b', cxb) -> mk (cx_marker cxa) = true ->
                 nok (fold_list (@app nitem) [] names_stmt b) ->
                 exists t, ed_stmts mk t b b' /\ ext cxa t cxb /\ same_dummy cxa cxb).
      { intros b1 cxa b1' cxb HM Pa Nb.
        destruct (mapM_good_s mk (r_dstmt R) b1 (eg_dstmt mk R G) _ _ _ HM Pa Nb) as (t & R1 & Xb).
        exists t. split; [assumption|]. split; [assumption|].
        eapply (pres_mapM_all same_dummy); try apply same_dummy_refl; try apply same_dummy_trans;
          [|exact HM]. apply (eg_dframe_s mk R G). }
      destruct (is_dummy cx2).
      - minv. destruct (DG _ _ _ _ H P2 N) as (t & R1 & Xb & F).
        exists t. split; [apply eb_stmts; assumption|]. split; [apply (ext_trans _ _ _ [] t X Xb)|].
        intros EE GN. eapply free_of_same; [eassumption| |assumption|apply (fine_ext _ _ _ X); assumption]. apply F.
      - apply bind_ok in H. destruct H as (b1 & cx3 & H3 & H).
        assert (S1 : exists t, ed_stmts mk t b b1 /\ ext cx2 t cx3).
        { destruct b as [|s r].
          - minv. exists []. split; [constructor|apply ext_error].
          - refine (map_last_good mk child_expr (s :: r) _ _ _ _ H3 P2 N).
            apply Forall_all. intros []; auto. apply child_expr_good. }
        destruct S1 as (t1 & R1 & X3). pose proof (pre_ext mk _ _ _ X3 P2) as P3.
        assert (N1 : nok (fold_list (@app nitem) [] names_stmt b1)).
        { eapply nok_incl; [|exact N]. eapply (names_edit mk). eassumption. }
        pose proof (ext_trans _ _ _ [] t1 X X3) as X4. cbn [app] in X4.
        minv. destruct (ta_dummy ta cx3) eqn:D.
        + destruct (DG _ _ _ _ H P3 N1) as (t & R2 & Xb & F).
          exists (t1 ++ t). split; [apply eb_stmts; eapply ess_trans; eassumption|].
          split; [eapply ext_trans; eassumption|].
          intros EE GN. eapply free_of_same; [eapply ext_trans; eassumption| |assumption|assumption].
          destruct F as [_ ->]. unfold ta_dummy in D. apply andb_prop in D. destruct D as [_ D].
          destruct (cx_mode cx3); try discriminate D. apply andb_prop in D. destruct D as [D _].
          apply andb_prop in D. destruct D as [_ D]. unfold variant_is_empty in D.
          destruct (cx_variants cx3); [congruence|discriminate].
        + minv. match goal with HM : mapM _ _ _ = _ |- _ =>
            destruct (mapM_good_s mk (r_vstmt R scope0) b1 (eg_vstmt mk R G scope0) _ _ _ HM P3 N1)
              as (t2 & R2 & X5) end.
          eapply build_fn_good; [|eapply ext_trans; [exact X4|exact X5]|assumption|eassumption].
          eapply ess_trans; eassumption.
    Qed.

    (** *** Nested [#[auto_enum]] *)

    Lemma vs_visit_expr_good V b e cx e' cx' :
      (forall e, good ede names_expr (on_expr V) e) ->
      (forall e, good eds names_stmt (on_stmt V) e) ->
      (forall e, good eda names_arm (on_arm V) e) ->
      vs_visit_expr hash ta R V e b cx = ROk (e', cx') ->
      mk (cx_marker cx) = true -> nok (names_expr e) ->
      (any_attr (e_attrs e) NAME = true -> cx_errs cx = []) ->
      exists t, ede t e e' /\ ext cx t cx'.
    Proof.
      intros Ge Gs Ga H P N E0. unfold vs_visit_expr in H.
      destruct (find_remove_attr (e_attrs e) NAME) as [[x a']|] eqn:FR.
      2:{ eapply walk_good; eassumption. }
      pose proof (find_remove_drops _ _ _ _ helper_name FR) as DR.
      specialize (E0 (any_attr_some _ _ _ _ FR)).
      assert (R0 : ede [] e (set_attrs e a')) by (apply ee_attr; assumption).
      assert (N1 : nok (names_expr (set_attrs e a'))).
      { eapply nok_incl; [|exact N]. eapply (proj1 (names_edit mk)). eassumption. }
      apply bind_ok in H. destruct H as (r & cx1 & H1 & H).
      apply bind_ok in H. destruct H as (e1 & cx2 & H2 & H).
      assert (S1 : (exists er, r = inl er /\ cx1 = cx)
                   \/ (exists h toks, r = ctx_new (enum_name h) toks false (cx_markers cx) (cx_errs cx)
                         /\ cx1 = set_errs [] (set_markers [] cx)
                         /\ match x with MList _ l => toks = l | _ => toks = [] end
                         /\ cx_has_child cx = true)).
      { destruct x as [p|p toks|p v]; minv.
        - left. eauto.
        - right. apply make_child_ok in H1. destruct H1 as (HC & -> & ->). eauto 8.
        - left. eauto. }
      assert (P1 : mk (cx_marker cx1) = true).
      { destruct S1 as [(er & _ & ->)|(i & toks & _ & -> & _)]; exact P. }
      destruct (walk_good mk V (set_attrs e a') Ge Gs Ga _ _ _ H2 P1 N1) as (t1 & R1 & X1).
      assert (R01 : ede t1 e e1) by (apply (ee_trans mk [] t1 _ _ _ R0 R1)).
      destruct S1 as [(er & -> & ->)|(i & toks & HN & -> & HT & HC)].
      - minv. exists (t1 ++ []). split; [rewrite app_nil_r; assumption|].
        eapply ext_trans; [eassumption|apply ext_error].
      - destruct r as [er|child].
        + minv. exists t1. split; [assumption|]. apply fail_child_ext; assumption.
        + unfold in_child in H.
          destruct (expand_parent_expr ta R e1 b child) as [[e2 child']| |] eqn:HX; try discriminate H.
          minv. symmetry in HN.
          destruct (ctx_new_marker mk mk_default _ _ _ _ _ _ _ _ _ FR (nok_attrs mk _ N) HT HN)
            as [PC DC].
          assert (FC : fine child).
          { split; [|exact DC]. pose proof HN as HN'. apply ctx_new_ok in HN'.
            destruct HN' as (cur & args & m & _ & _ & _ & ->). apply gen_enum_name. }
          assert (N2 : nok (names_expr e1)).
          { eapply nok_incl; [|exact N1]. eapply (proj1 (names_edit mk)). eassumption. }
          assert (VC : cx_variants child = []).
          { apply ctx_new_ok in HN. destruct HN as (cur & args & m & _ & _ & _ & ->). reflexivity. }
          destruct (expand_parent_expr_good mk ta R G b e1 _ _ _ HX PC N2 VC) as (t2 & R2 & X2 & F2).
          exists (t1 ++ t2). split; [eapply ee_trans; eassumption|].
          refine (join_ext _ _ _ _ _ _ _ _ _ _ E0 HC HN X1 X2 FC F2 _); eassumption.
    Qed.

    Lemma vs_visit_stmt_good V s cx s' cx' :
      (forall e, good ede names_expr (on_expr V) e) ->
      (forall e, good eds names_stmt (on_stmt V) e) ->
      (forall e, good eda names_arm (on_arm V) e) ->
      (forall e, good edl names_local (on_local V) e) ->
      vs_visit_stmt hash ta R V s cx = ROk (s', cx') ->
      mk (cx_marker cx) = true -> nok (names_stmt s) ->
      (any_attr (s_attrs s) NAME = true -> cx_errs cx = []) ->
      exists t, eds t s s' /\ ext cx t cx'.
    Proof.
      intros Ge Gs Ga Gl H P N E0.
      pose proof (fun s => walk_stmt_all mk (on_expr V) (on_local V) s Ge Gl) as W.
      destruct s as [[a p ty i d]|it|e semi|a m semi]; cbn [vs_visit_stmt] in H.
      2:{ minv. exists []. split; [constructor|apply ext_refl]. }
      2:{ minv. match goal with HE : vs_visit_expr _ _ _ _ _ _ _ = _ |- _ =>
            destruct (vs_visit_expr_good V _ _ _ _ _ Ge Gs Ga HE P N E0) as (t & R1 & X1) end.
          exists t. split; [constructor; assumption|assumption]. }
      2:{ eapply W; eassumption. }
      destruct (find_remove_attr a NAME) as [[x a']|] eqn:FR.
      2:{ eapply W; eassumption. }
      pose proof (find_remove_drops _ _ _ _ helper_name FR) as DR.
      specialize (E0 (any_attr_some _ _ _ _ FR)).
      assert (R0 : eds [] (SLocal (Local a p ty i d)) (SLocal (Local a' p ty i d))).
      { constructor. apply el_attr. assumption. }
      assert (N1 : nok (names_stmt (SLocal (Local a' p ty i d)))).
      { eapply nok_incl; [|exact N].
        destruct (names_edit mk) as (_ & _ & _ & NS & _). eapply NS. eassumption. }
      apply bind_ok in H. destruct H as (r & cx1 & H1 & H).
      apply bind_ok in H. destruct H as (s1 & cx2 & H2 & H).
      assert (S1 : (exists er, r = inl er /\ cx1 = cx)
                   \/ (exists h toks, r = ctx_new (enum_name h) toks false (cx_markers cx) (cx_errs cx)
                         /\ cx1 = set_errs [] (set_markers [] cx)
                         /\ match x with MList _ l => toks = l | _ => toks = [] end
                         /\ cx_has_child cx = true)).
      { destruct x as [q|q toks|q v]; minv.
        - right. apply make_child_ok in H1. destruct H1 as (HC & -> & ->). eauto 8.
        - right. apply make_child_ok in H1. destruct H1 as (HC & -> & ->). eauto 8.
        - left. eauto. }
      assert (P1 : mk (cx_marker cx1) = true).
      { destruct S1 as [(er & _ & ->)|(i' & toks & _ & -> & _)]; exact P. }
      destruct (W _ _ _ _ H2 P1 N1) as (t1 & R1 & X1).
      assert (ES : forall t1 t2 s1 s2 s3, eds t1 s1 s2 -> eds t2 s2 s3 -> eds (t1 ++ t2) s1 s3).
      { intros u1 u2 q1 q2 q3 A B. destruct A; inversion B; subst.
        - constructor. - constructor.
        - constructor. eapply el_trans; eassumption.
        - constructor. eapply ee_trans; eassumption. }
      assert (R01 : eds t1 (SLocal (Local a p ty i d)) s1) by (apply (ES [] t1 _ _ _ R0 R1)).
      destruct S1 as [(er & -> & ->)|(i' & toks & HN & -> & HT & HC)].
      - minv. exists (t1 ++ []). split; [rewrite app_nil_r; assumption|].
        eapply ext_trans; [eassumption|apply ext_error].
      - destruct r as [er|child].
        + minv. exists t1. split; [assumption|]. apply fail_child_ext; assumption.
        + unfold in_child in H.
          destruct (expand_parent_stmt ta R s1 child) as [[s2 child']| |] eqn:HX; try discriminate H.
          minv. symmetry in HN.
          destruct (ctx_new_marker mk mk_default _ _ _ _ _ _ _ _ _ FR
                      (proj1 (nok_local _ _ _ _ _ N)) HT HN) as [PC DC].
          assert (FC : fine child).
          { split; [|exact DC]. pose proof HN as HN'. apply ctx_new_ok in HN'.
            destruct HN' as (cur & args & m & _ & _ & _ & ->). apply gen_enum_name. }
          assert (N2 : nok (names_stmt s1)).
          { eapply nok_incl; [|exact N1].
            destruct (names_edit mk) as (_ & _ & _ & NS & _). eapply NS. eassumption. }
          assert (VC : cx_variants child = []).
          { apply ctx_new_ok in HN. destruct HN as (cur & args & m & _ & _ & _ & ->). reflexivity. }
          assert (NI : no_item s1 = true) by (inversion R1; reflexivity).
          destruct (expand_parent_stmt_good s1 NI _ _ _ HX PC N2 VC) as (t2 & R2 & X2 & F2).
          exists (t1 ++ t2). split; [eapply ES; eassumption|].
          refine (join_ext _ _ _ _ _ _ _ _ _ _ E0 HC HN X1 X2 FC F2 _); eassumption.
    Qed.

    (** *** One level *)

    Lemma unless_error_ok {A} (x : A) m cx y cx' :
      unless_error x m cx = ROk (y, cx') -> (y = x /\ cx' = cx) \/ (cx_errs cx = [] /\ m cx = ROk (y, cx')).
    Proof.
      unfold unless_error. intros H. minv. unfold has_error in H.
      destruct (cx_errs cx); minv; auto.
    Qed.

    Lemma vis_good sc :
      (forall e, good ede names_expr (on_expr (v_vis R sc)) e)
      /\ (forall e, good eds names_stmt (on_stmt (v_vis R sc)) e)
      /\ (forall e, good eda names_arm (on_arm (v_vis R sc)) e)
      /\ (forall e, good edl names_local (on_local (v_vis R sc)) e).
    Proof.
      cbn. repeat split; intros.
      - apply (eg_vexpr mk R G). - apply (eg_vstmt mk R G).
      - apply (eg_varm mk R G). - apply (eg_vlocal mk R G).
    Qed.

    Lemma dvis_good :
      (forall e, good ede names_expr (on_expr (d_vis R)) e)
      /\ (forall e, good eds names_stmt (on_stmt (d_vis R)) e)
      /\ (forall e, good eda names_arm (on_arm (d_vis R)) e)
      /\ (forall e, good edl names_local (on_local (d_vis R)) e).
    Proof.
      cbn. repeat split; intros.
      - apply (eg_dexpr mk R G). - apply (eg_dstmt mk R G).
      - apply walk_arm_all. apply (eg_dexpr mk R G). - apply walk_local_all. apply (eg_dexpr mk R G).
    Qed.

    Lemma visit_expr_good sc b e cx e' cx' :
      visit_expr hash ta R sc b e cx = ROk (e', cx') -> mk (cx_marker cx) = true -> nok (names_expr e) ->
      cx_errs cx = [] -> exists t, ede t e e' /\ ext cx t cx'.
    Proof.
      intros H P N E0. unfold visit_expr in H.
      apply bind_ok in H. destruct H as (u0 & cx0 & H0 & H).
      apply massert_ok in H0. destruct H0 as (_ & _ & ->).
      apply bind_ok in H. destruct H as (u & cx1 & H1 & H). cbn zeta in H.
      apply note_child_ok in H1; [|apply nok_child with (mk := mk), nok_attrs; assumption].
      destruct H1 as (X1 & E1 & M1 & _ & _ & _).
      pose proof (pre_ext mk _ _ _ X1 P) as P1.
      apply bind_ok in H. destruct H as (mode & cx1' & H1 & H).
      apply gets_ok in H1. destruct H1 as [-> ->].
      set (sc' := check_expr (scope_below sc (e_attrs e)) e) in *.
      apply bind_ok in H. destruct H as (e2 & cx2 & H2 & H).
      apply bind_ok in H. destruct H as (e3 & cx3 & H3 & H).
      apply bind_ok in H. destruct H as (e4 & cx4 & H4 & H).
      apply bind_ok in H. destruct H as (cur & cx4' & H5 & H).
      apply gets_ok in H5. destruct H5 as [-> ->].
      assert (S2 : (exists t, ede t e e2 /\ ext cx1 t cx2) /\ e_attrs e2 = e_attrs e
                   /\ cx_errs cx2 = cx_errs cx1).
      { destruct (cx_mode cx1).
        - minv. split; [|auto]. exists []. split; [apply ee_refl|apply ext_refl].
        - split; [eapply visit_return_good; eassumption|].
          split; [eapply visit_return_attrs; eassumption|eapply visit_return_errs; eassumption].
        - split; [eapply visit_try_good; eassumption|].
          split; [eapply visit_try_attrs; eassumption|eapply visit_try_errs; eassumption]. }
      destruct S2 as ((t2 & R2 & X2) & A2 & E2).
      pose proof (pre_ext mk _ _ _ X2 P1) as P2.
      assert (N2 : nok (names_expr e2)).
      { eapply nok_incl; [|exact N]. eapply (proj1 (names_edit mk)). eassumption. }
      assert (FO : any_attr (e_attrs e) NAME = true -> sc_foreign sc' = true).
      { intros HA. unfold sc'. unfold scope_below. rewrite HA. destruct e; try reflexivity. destruct k; reflexivity. }
      assert (S3 : (exists t, ede t e2 e3 /\ ext cx2 t cx3)
                   /\ (any_attr (e_attrs e3) NAME = true -> cx_errs cx3 = [])).
      { destruct (sc_foreign sc') eqn:F.
        - minv. split; [exists []; split; [apply ee_refl|apply ext_refl]|]. congruence.
        - assert (NA : any_attr (e_attrs e2) NAME = false).
          { rewrite A2. destruct (any_attr (e_attrs e) NAME); [|reflexivity]. discriminate (FO eq_refl). }
          destruct (find_remove_attr (e_attrs e2) NESTED) as [[x a']|] eqn:FR.
          + pose proof (find_remove_drops _ _ _ _ helper_nested FR) as DR.
            assert (N2' : nok (names_expr (set_attrs e2 a'))).
            { eapply nok_incl; [|exact N2]. eapply (proj1 (names_edit mk)). apply ee_attr. assumption. }
            destruct (visit_nested_good mk sc' x (set_attrs e2 a') _ _ _ H3 P2 N2') as (t3 & R3 & X3).
            split.
            * exists t3. split; [|assumption].
              apply (ee_trans mk [] t3 _ (set_attrs e2 a')); [apply ee_attr; assumption|assumption].
            * intros HA. exfalso. apply visit_nested_attrs in H3. rewrite H3 in HA.
              rewrite (e_attrs_set _ _ _ DR) in HA. rewrite (drops_no_name _ _ _ DR NA) in HA. discriminate.
          + minv. split; [exists []; split; [apply ee_refl|apply ext_refl]|]. congruence. }
      destruct S3 as ((t3 & R3 & X3) & E3). pose proof (pre_ext mk _ _ _ X3 P2) as P3.
      assert (N3 : nok (names_expr e3)).
      { eapply nok_incl; [|exact N2]. eapply (proj1 (names_edit mk)). eassumption. }
      destruct (vis_good sc') as (Ge & Gs & Ga & Gl).
      destruct (vs_visit_expr_good _ _ _ _ _ _ Ge Gs Ga H4 P3 N3 E3) as (t4 & R4 & X4).
      pose proof (pre_ext mk _ _ _ X4 P3) as P4.
      assert (N4 : nok (names_expr e4)).
      { eapply nok_incl; [|exact N3]. eapply (proj1 (names_edit mk)). eassumption. }
      assert (S5 : exists t, ede t e4 e' /\ ext cx4 t cx').
      { destruct (negb (sc_foreign sc') || negb (cx_marker cx4 =? DEFAULT_MARKER)).
        - apply bind_ok in H. destruct H as (e5 & cx5 & H5 & H).
          destruct (visit_marker_good mk sc' e4 _ _ _ H5 P4 N4) as (t5 & R5 & X5).
          unfold find_remove_attrs_expr in H. apply bind_ok in H. destruct H as (a6 & cx6 & H6 & H). minv.
          apply find_remove_attrs_ok in H6. destruct H6 as [D6 X6].
          exists (t5 ++ []). split; [|eapply ext_trans; eassumption].
          eapply ee_trans; [eassumption|]. apply ed_drops. assumption.
        - minv. exists []. split; [apply ee_refl|apply ext_refl]. }
      destruct S5 as (t5 & R5 & X5).
      exists (t2 ++ t3 ++ t4 ++ t5). split.
      - eapply ee_trans; [eassumption|]. eapply ee_trans; [eassumption|]. eapply ee_trans; eassumption.
      - pose proof (ext_trans _ _ _ [] t2 X1 X2) as X12. cbn [app] in X12.
        eapply ext_trans; [exact X12|]. eapply ext_trans; [eassumption|]. eapply ext_trans; eassumption.
    Qed.

    Lemma ea_body t a p g b b' c : ede t b b' -> eda t (Arm a p g b c) (Arm a p g b' c).
    Proof. intros H. apply (ea_parts mk [] t); [apply eo_refl|assumption]. Qed.

    Lemma visit_arm_good sc x cx x' cx' :
      visit_arm R sc x cx = ROk (x', cx') -> mk (cx_marker cx) = true -> nok (names_arm x) ->
      exists t, eda t x x' /\ ext cx t cx'.
    Proof.
      intros H P N. destruct x as [a p g b c]. unfold visit_arm in H.
      apply bind_ok in H. destruct H as (x1 & cx1 & H1 & H).
      apply bind_ok in H. destruct H as (x2 & cx2 & H2 & H).
      destruct (nok_arm _ _ _ _ _ N) as (Na & Ng & Nb).
      assert (S1 : exists t, eda t (Arm a p g b c) x1 /\ ext cx t cx1).
      { destruct (sc_foreign sc); [minv; exists []; split; [apply ea_refl|apply ext_refl]|].
        destruct (find_remove_attr a NESTED) as [[y a']|] eqn:FR;
          [|minv; exists []; split; [apply ea_refl|apply ext_refl]].
        minv. match goal with HV : visit_nested _ _ _ _ = _ |- _ =>
          destruct (visit_nested_good mk sc y b _ _ _ HV P Nb) as (t1 & R1 & X1) end.
        exists t1. split; [|assumption].
        apply (ea_trans mk [] t1 _ (Arm a' p g b c)).
        - apply ea_attr. eapply find_remove_drops; [apply helper_nested|eassumption].
        - apply ea_body. assumption. }
      destruct S1 as (t1 & R1 & X1). pose proof (pre_ext mk _ _ _ X1 P) as P1.
      assert (N1 : nok (names_arm x1)).
      { eapply nok_incl; [|exact N]. destruct (names_edit mk) as (_ & _ & _ & _ & _ & NA & _).
        eapply NA. eassumption. }
      destruct (walk_arm_all mk (v_expr R sc) x1 (eg_vexpr mk R G sc false) _ _ _ H2 P1 N1)
        as (t2 & R2 & X2).
      destruct x2 as [a2 p2 g2 b2 c2]. minv.
      match goal with HF : find_remove_attrs _ _ _ = _ |- _ =>
        apply find_remove_attrs_ok in HF; destruct HF as [D3 X3] end.
      exists (t1 ++ t2 ++ []). split.
      - eapply ea_trans; [eassumption|]. eapply ea_trans; [eassumption|]. apply ea_drops. assumption.
      - eapply ext_trans; [eassumption|]. eapply ext_trans; eassumption.
    Qed.

    Lemma visit_local_good sc x cx x' cx' :
      visit_local R sc x cx = ROk (x', cx') -> mk (cx_marker cx) = true -> nok (names_local x) ->
      exists t, edl t x x' /\ ext cx t cx'.
    Proof.
      intros H P N. destruct x as [a p ty i d]. unfold visit_local in H.
      apply bind_ok in H. destruct H as (x1 & cx1 & H1 & H).
      apply bind_ok in H. destruct H as (x2 & cx2 & H2 & H).
      destruct (nok_local _ _ _ _ _ N) as (Na & Ni & Nd).
      assert (S1 : exists t, edl t (Local a p ty i d) x1 /\ ext cx t cx1).
      { destruct (sc_foreign sc); [minv; exists []; split; [apply el_refl|apply ext_refl]|].
        destruct (find_remove_attr a NESTED) as [[y a']|] eqn:FR;
          [|minv; exists []; split; [apply el_refl|apply ext_refl]].
        minv. match goal with HV : optM _ _ _ = _ |- _ =>
          destruct (optM_good mk (fun e => visit_nested sc e y) i
                      ltac:(destruct i; cbn; [apply visit_nested_good|exact I]) _ _ _ HV P Ni)
            as (t1 & R1 & X1) end.
        exists t1. split; [|assumption].
        apply (el_trans mk [] t1 _ (Local a' p ty i d)).
        - apply el_attr. eapply find_remove_drops; [apply helper_nested|eassumption].
        - rewrite <- (app_nil_r t1). apply el_parts; [assumption|apply eo_refl]. }
      destruct S1 as (t1 & R1 & X1). pose proof (pre_ext mk _ _ _ X1 P) as P1.
      assert (N1 : nok (names_local x1)).
      { eapply nok_incl; [|exact N]. destruct (names_edit mk) as (_ & _ & _ & _ & _ & _ & _ & NL).
        eapply NL. eassumption. }
      destruct (walk_local_all mk (v_expr R sc) x1 (eg_vexpr mk R G sc false) _ _ _ H2 P1 N1)
        as (t2 & R2 & X2).
      destruct x2 as [a2 p2 ty2 i2 d2]. minv.
      match goal with HF : find_remove_attrs _ _ _ = _ |- _ =>
        apply find_remove_attrs_ok in HF; destruct HF as [D3 X3] end.
      exists (t1 ++ t2 ++ []). split.
      - eapply el_trans; [eassumption|]. eapply el_trans; [eassumption|]. apply el_drops. assumption.
      - eapply ext_trans; [eassumption|]. eapply ext_trans; eassumption.
    Qed.

    Lemma visit_stmt_good sc s cx s' cx' :
      visit_stmt hash ta R sc s cx = ROk (s', cx') -> mk (cx_marker cx) = true -> nok (names_stmt s) ->
      cx_errs cx = [] -> exists t, eds t s s' /\ ext cx t cx'.
    Proof.
      intros H P N E0.
      assert (D : forall s cx, (note_child (s_attrs s) ;;;
                   vs_visit_stmt hash ta R (v_vis R (scope_below sc (s_attrs s))) s) cx = ROk (s', cx') ->
                 mk (cx_marker cx) = true -> nok (names_stmt s) ->
                 cx_errs cx = [] -> exists t, eds t s s' /\ ext cx t cx').
      { clear s cx H P N E0. intros s cx H P N E0. apply bind_ok in H. destruct H as (u & cx1 & H1 & H).
        apply note_child_ok in H1; [|apply nok_child with (mk := mk), nok_sattrs; assumption].
        destruct H1 as (X1 & E1 & _).
        pose proof (pre_ext mk _ _ _ X1 P) as P1.
        destruct (vis_good (scope_below sc (s_attrs s))) as (Ge & Gs & Ga & Gl).
        destruct (vs_visit_stmt_good _ _ _ _ _ Ge Gs Ga Gl H P1 N) as (t & R1 & X2); [congruence|].
        exists t. split; [assumption|]. apply (ext_trans _ _ _ [] t X1 X2). }
      destruct s; cbn [visit_stmt] in H; try (apply D; assumption).
      minv. match goal with HE : r_vexpr _ _ _ _ _ = _ |- _ =>
        destruct (eg_vexpr mk R G _ _ _ _ _ _ HE P N) as (t & R1 & X1) end.
      exists t. split; [constructor; assumption|assumption].
    Qed.

    Lemma dummy_expr_good e cx e' cx' :
      dummy_expr hash ta R e cx = ROk (e', cx') -> mk (cx_marker cx) = true -> nok (names_expr e) ->
      cx_errs cx = [] -> exists t, ede t e e' /\ ext cx t cx'.
    Proof.
      intros H P N E0. unfold dummy_expr in H. apply bind_ok in H. destruct H as (u & cx1 & H1 & H).
      apply note_child_ok in H1; [|apply nok_child with (mk := mk), nok_attrs; assumption].
      destruct H1 as (X1 & E1 & _).
      pose proof (pre_ext mk _ _ _ X1 P) as P1.
      destruct dvis_good as (Ge & Gs & Ga & Gl).
      destruct (vs_visit_expr_good _ _ _ _ _ _ Ge Gs Ga H P1 N) as (t & R1 & X2); [congruence|].
      exists t. split; [assumption|]. apply (ext_trans _ _ _ [] t X1 X2).
    Qed.

    Lemma dummy_stmt_good s cx s' cx' :
      dummy_stmt hash ta R s cx = ROk (s', cx') -> mk (cx_marker cx) = true -> nok (names_stmt s) ->
      cx_errs cx = [] -> exists t, eds t s s' /\ ext cx t cx'.
    Proof.
      intros H P N E0. unfold dummy_stmt in H. apply bind_ok in H. destruct H as (u & cx1 & H1 & H).
      apply note_child_ok in H1; [|apply nok_child with (mk := mk), nok_sattrs; assumption].
      destruct H1 as (X1 & E1 & _).
      pose proof (pre_ext mk _ _ _ X1 P) as P1.
      destruct dvis_good as (Ge & Gs & Ga & Gl).
      destruct (vs_visit_stmt_good _ _ _ _ _ Ge Gs Ga Gl H P1 N) as (t & R1 & X2); [congruence|].
      exists t. split; [assumption|]. apply (ext_trans _ _ _ [] t X1 X2).
    Qed.
  End Level.

  Theorem engine_is_good n : engine_good mk (engine hash ta n).
  Proof.
    induction n as [|n IH].
    - split; cbn; repeat intro; minv.
    - pose proof (dummy_frame hash ta (S n)) as [Fe Fs].
      assert (HK : forall A (RL : list label -> A -> A -> Prop) nm (m : A -> M A) x,
                 (forall x, RL [] x x) ->
                 (forall cx x' cx', m x cx = ROk (x', cx') -> mk (cx_marker cx) = true -> nok (nm x) ->
                    cx_errs cx = [] -> exists t, RL t x x' /\ ext cx t cx') ->
                 good RL nm (fun x => unless_error x (m x)) x).
      { intros A RL nm m x HR HM cx x' cx' H P N. apply unless_error_ok in H.
        destruct H as [[-> ->]|[E H]].
        - exists []. split; [auto|apply ext_refl].
        - eapply HM; eassumption. }
      split; try assumption; intros; cbn [engine step r_vexpr r_vstmt r_varm r_vlocal r_dexpr r_dstmt].
      + apply (HK expr ede names_expr (visit_expr hash ta (engine hash ta n) sc b)); [apply ee_refl|].
        apply visit_expr_good. assumption.
      + apply (HK stmt eds names_stmt (visit_stmt hash ta (engine hash ta n) sc)); [apply es_refl|].
        apply visit_stmt_good. assumption.
      + apply (HK arm eda names_arm (visit_arm (engine hash ta n) sc)); [apply ea_refl|].
        intros. eapply visit_arm_good; eassumption.
      + apply (HK local edl names_local (visit_local (engine hash ta n) sc)); [apply el_refl|].
        intros. eapply visit_local_good; eassumption.
      + apply (HK expr ede names_expr (dummy_expr hash ta (engine hash ta n))); [apply ee_refl|].
        apply dummy_expr_good. assumption.
      + apply (HK stmt eds names_stmt (dummy_stmt hash ta (engine hash ta n))); [apply es_refl|].
        apply dummy_stmt_good. assumption.
  Qed.
End Engine.
