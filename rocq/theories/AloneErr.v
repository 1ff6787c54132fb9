(** The errors under an attribute without arguments come from one attribute, which alone gives the same. *)

Require Import Coq.Strings.String Coq.Lists.List Coq.Bool.Bool Coq.Arith.Arith Coq.NArith.NArith Lia.
Require Import Verif.Syntax Verif.Context Verif.ExprModel Verif.TypeAnalysis Verif.AutoEnum.
Require Import Verif.AstInd Verif.RunLemmas Verif.EditsRun Verif.Frame Verif.VisitRun Verif.EngineRun Verif.HaltRun
  Verif.ArgsSpec Verif.ArgsRun Verif.TraitRun.
Require Import Verif.Tails Verif.Changes Verif.ChangesRun Verif.Outside Verif.OutsideRun Verif.Alike Verif.Alone
  Verif.AloneRun.
Import ListNotations.
Open Scope string_scope.
Open Scope list_scope.

Section Run.
  Variables (hash : node -> N) (ta : bool).

  (** The part [s] is refused with the errors [l]. *)
  Definition refused (s : site) (l : list err) : Prop :=
    chooses_marker s \/ (site_args s = None /\ l = [ErrExpectedList]) \/ site_alone hash ta s (Errors l).

  (** New errors of the run come from one of the parts [S]. *)
  Definition em {A} (S : list site) (m : M A) : Prop :=
    forall cx a cx', m cx = ROk (a, cx') ->
      (cx_errs cx <> [] -> cx_errs cx' = cx_errs cx)
      /\ (cx_errs cx = [] -> Forall (eq "marker") (cx_markers cx) ->
          (cx_errs cx' = [] /\ cx_markers cx' = cx_markers cx)
          \/ (cx_errs cx' <> [] /\ exists s, In s S /\ refused s (cx_errs cx'))).

  Lemma em_ret {A} (a : A) : em [] (ret a).
  Proof. intros cx b cx' H. minv. split; [reflexivity|auto]. Qed.

  Lemma em_incl {A} S S' (m : M A) : incl S S' -> em S m -> em S' m.
  Proof.
    intros I H cx a cx' X. destruct (H _ _ _ X) as [H1 H2]. split; [exact H1|]. intros E D.
    destruct (H2 E D) as [|(N & s & J & R)]; [left; assumption|right]. split; [exact N|]. exists s. auto.
  Qed.

  Lemma em_bind {A B} S1 S2 (m : M A) (k : A -> M B) : em S1 m -> (forall a, em S2 (k a)) -> em (S1 ++ S2) (bind m k).
  Proof.
    intros Hm Hk cx b cx' H. apply bind_ok in H. destruct H as (a & c & H1 & H).
    destruct (Hm _ _ _ H1) as [M1 M2]. destruct (Hk _ _ _ _ H) as [K1 K2]. split.
    - intros E. specialize (M1 E). rewrite <- M1 in E |- *. auto.
    - intros E D. destruct (M2 E D) as [[E1 D1]|(N & s & J & R)].
      + rewrite <- D1 in D. destruct (K2 E1 D) as [[E2 D2]|(N & s & J & R)].
        * left. split; [exact E2|congruence].
        * right. split; [exact N|]. exists s. split; [apply in_or_app; right; exact J|exact R].
      + right. rewrite (K1 N). split; [exact N|]. exists s. split; [apply in_or_app; left; exact J|exact R].
  Qed.

  Lemma em_map {A} S (m : M A) (f : A -> A) : em S m -> em S (y <- m ;; ret (f y)).
  Proof. intros H. rewrite <- (app_nil_r S). apply em_bind; [exact H|intros; apply em_ret]. Qed.

  Lemma em_mapM {A B} (P : A -> bool) (S : A -> list site) (f : A -> M B) l :
    (forall x, P x = true -> em (S x) (f x)) -> fold_list andb true P l = true ->
    em (fold_list (@app site) [] S l) (mapM f l).
  Proof.
    intros H. induction l as [|x l IH]; cbn [mapM]; intros W; [apply em_ret|].
    cbn in W. apply andb_true_iff in W. destruct W as [W1 W2].
    cbn [fold_list fold_right]. apply em_bind; [auto|]. intros y.
    rewrite <- (app_nil_r (fold_right _ _ _)). apply em_bind; [apply IH; exact W2|]. intros; apply em_ret.
  Qed.

  Lemma em_optM {A B} (P : A -> bool) (S : A -> list site) (f : A -> M B) o :
    (forall x, P x = true -> em (S x) (f x)) -> fold_opt true P o = true ->
    em (fold_opt [] S o) (optM f o).
  Proof.
    intros H W. destruct o as [x|]; cbn [optM fold_opt] in *; [|apply em_ret].
    rewrite <- (app_nil_r (S x)). apply em_bind; [auto|intros; apply em_ret].
  Qed.

  Section Walks.
    Variables (fe : expr -> M expr) (fs : stmt -> M stmt).
    Hypothesis He : forall e, flat e = true -> em (sites false e) (fe e).
    Hypothesis Hs : forall s, flat_stmt s = true -> em (sites_stmt s) (fs s).

    Lemma em_arm x : flat_arm x = true -> em (sites_arm x) (walk_arm fe x).
    Proof.
      destruct x as [a p g b c]. intros W. cbn in W. apply andb_true_iff in W. destruct W as [W1 W2].
      cbn [walk_arm]. change (sites_arm (Arm a p g b c)) with (fold_opt [] (sites false) g ++ sites false b).
      apply em_bind; [apply (em_optM flat); assumption|]. intros g'.
      rewrite <- (app_nil_r (sites false b)). apply em_bind; [auto|intros; apply em_ret].
    Qed.

    Lemma em_local l : fold_local andb true flat l = true ->
      em (fold_local (@app site) [] (sites false) l) (walk_local fe l).
    Proof.
      destruct l as [a p t i d]. intros W. cbn in W. apply andb_true_iff in W. destruct W as [W1 W2].
      cbn [walk_local fold_local].
      apply em_bind; [apply (em_optM flat); assumption|]. intros g'.
      rewrite <- (app_nil_r (fold_opt _ _ d)). apply em_bind; [apply (em_optM flat); assumption|intros; apply em_ret].
    Qed.

    Lemma em_walk fl e : fold_expr andb true flat flat_stmt flat_arm e = true ->
      em (fold_expr (@app site) [] (sites false) sites_stmt sites_arm e) (walk_expr (Vis fe fs (walk_arm fe) fl) e).
    Proof.
      intros W.
      assert (LS : forall b, fold_list andb true flat_stmt b = true -> em (fold_list (@app site) [] sites_stmt b) (mapM fs b))
        by (intros; apply (em_mapM flat_stmt); assumption).
      assert (LE : forall b, fold_list andb true flat b = true -> em (fold_list (@app site) [] (sites false) b) (mapM fe b))
        by (intros; apply (em_mapM flat); assumption).
      assert (LA : forall b, fold_list andb true flat_arm b = true -> em (fold_list (@app site) [] sites_arm b) (mapM (walk_arm fe) b))
        by (intros; apply (em_mapM flat_arm); [apply em_arm|assumption]).
      assert (OE : forall b, fold_opt true flat b = true -> em (fold_opt [] (sites false) b) (optM fe b))
        by (intros; apply (em_optM flat); assumption).
      assert (B : forall A B S1 (m : M A) (k : A -> B), em S1 m -> em S1 (x <- m ;; ret (k x))).
      { intros A B S1 m k H. rewrite <- (app_nil_r S1). apply em_bind; [exact H|intros; apply em_ret]. }
      destruct e; cbn [walk_expr on_expr on_stmt on_arm on_local fold_expr] in *;
        rewrite ?andb_true_iff in W; repeat match goal with W : _ /\ _ |- _ => destruct W end;
        try apply em_ret;
        repeat first [ apply B | apply LS; assumption | apply LE; assumption | apply LA; assumption
                     | apply OE; assumption | apply He; assumption | apply em_bind; [|intros] ].
    Qed.
  End Walks.

  Lemma em_error_ret {A} S e (w : M A) x c c' cx s :
    w cx = ROk (x, c) -> cx_errs c = [] -> (error e ;;; ret x) c = ROk (x, c') ->
    In s S -> refused s [e] -> cx_errs c' <> [] /\ exists s, In s S /\ refused s (cx_errs c').
  Proof.
    intros _ E H I R. minv. cbn. rewrite E. cbn. split; [discriminate|]. exists s. auto.
  Qed.

  (** The expansion of a part, compared with its attribute alone. *)
  Lemma alone_expr n nd x toks ps ms child e1 semi e' child' at_ :
    x = hash nd ->
    parse_args toks = inr (ps, None) -> Forall (eq "marker") ms -> ctx_new (enum_name x) toks false ms [] = inr child ->
    expand_parent_expr ta (engine hash ta n) e1 semi child = ROk (e', child') -> cx_errs child' <> [] ->
    site_args (nd, at_, if semi then InStmt (SExpr e1 true) else InExpr e1) = Some toks ->
    site_alone hash ta (nd, at_, if semi then InStmt (SExpr e1 true) else InExpr e1) (Errors (cx_errs child')).
  Proof.
    intros -> P D C H N A. destruct (contexts_alike _ _ _ _ _ P D C) as (cx0 & R0 & EV & L).
    pose proof (expand_expr_alike hash ta n _ _ e1 semi EV _ _ L) as S. rewrite H in S.
    destruct (expand_parent_expr ta (engine hash ta n) e1 semi cx0) as [[x0 c0]| |] eqn:X; try contradiction.
    destruct S as [<- L2]. exists toks, n. split; [exact A|]. unfold attribute.
    assert (N0 : cx_errs child' = cx_errs c0) by (destruct L2 as (? & ? & -> & _); reflexivity).
    rewrite N0 in *.
    destruct semi; cbn [with_name]; rewrite R0, engine_with_name; cbn [expand_input expand_parent_stmt];
      unfold bind; rewrite X; unfold ret; destruct (cx_errs c0); try contradiction; reflexivity.
  Qed.

  Lemma alone_stmt_err n nd x toks ps ms child s1 e' child' at_ :
    x = hash nd ->
    parse_args toks = inr (ps, None) -> Forall (eq "marker") ms -> ctx_new (enum_name x) toks false ms [] = inr child ->
    expand_parent_stmt ta (engine hash ta n) s1 child = ROk (e', child') -> cx_errs child' <> [] ->
    site_args (nd, at_, InStmt s1) = Some toks ->
    site_alone hash ta (nd, at_, InStmt s1) (Errors (cx_errs child')).
  Proof.
    intros -> P D C H N A. destruct (contexts_alike _ _ _ _ _ P D C) as (cx0 & R0 & EV & L).
    pose proof (expand_stmt_alike hash ta n _ _ s1 EV _ _ L) as S. rewrite H in S.
    destruct (expand_parent_stmt ta (engine hash ta n) s1 cx0) as [[x0 c0]| |] eqn:X; try contradiction.
    destruct S as [<- L2]. exists toks, n. split; [exact A|]. unfold attribute.
    assert (N0 : cx_errs child' = cx_errs c0) by (destruct L2 as (? & ? & -> & _); reflexivity).
    rewrite N0 in *.
    cbn [with_name]; rewrite R0, engine_with_name; cbn [expand_input];
      unfold bind; rewrite X; unfold ret; destruct (cx_errs c0); try contradiction; reflexivity.
  Qed.

  Lemma alone_args nd at_ part toks x e :
    x = hash nd -> site_args (nd, at_, part) = Some toks -> parse_args toks = inl e ->
    site_alone hash ta (nd, at_, part) (Errors [e]).
  Proof.
    intros -> A P. exists toks, 0. split; [exact A|]. unfold attribute, ctx_root, ctx_new. rewrite P. reflexivity.
  Qed.

  (** A nested expansion that leaves errors, after a walk that changes nothing. *)
  Lemma nested_errs {A} i toks (w : M A) (g : A -> M A) cx y cx' x0 :
    nested_run i toks w g cx = ROk (y, cx') -> cx_errs cx = [] ->
    (forall c x c', w c = ROk (x, c') -> x = x0 /\ cx_errs c' = cx_errs c) ->
    match ctx_new i toks false (cx_markers cx) [] with
    | inl er => cx_errs cx' = [er]
    | inr child => exists child', g x0 child = ROk (y, child') /\ cx_errs cx' = cx_errs child'
    end.
  Proof.
    unfold nested_run. intros H E0 W. apply bind_ok in H. destruct H as (r & c0 & H1 & H).
    rewrite make_child_eq, E0 in H1. destruct (cx_has_child cx); [|discriminate]. inversion H1; subst; clear H1.
    apply bind_ok in H. destruct H as (x & c & H1 & H). destruct (W _ _ _ H1) as [-> N]. cbn in N.
    destruct (ctx_new i toks false (cx_markers cx) []) as [er|child].
    - minv. cbn. rewrite N. reflexivity.
    - unfold in_child in H. destruct (g x0 child) as [[y0 child']| |] eqn:X; try discriminate.
      unfold join_child in H. minv. exists child'. split; [reflexivity|]. cbn. rewrite N. reflexivity.
  Qed.

  Lemma refused_nested {A} nd at_ part toks ms er :
    ctx_new (enum_name (hash nd)) toks false ms [] = inl er -> site_args (nd, at_, part) = Some toks ->
    refused (nd, at_, part) [er] \/ A.
  Proof.
    intros C SA. left. unfold ctx_new in C. destruct (parse_args toks) as [e|[ps [m|]]] eqn:P.
    - inversion C; subst. right. right. eapply alone_args; eauto.
    - left. exists toks, ps, m. auto.
    - discriminate.
  Qed.

  Lemma flat_eq e : flat e = if attr_named "auto_enum" (e_attrs e)
    then fold_expr andb true plain_expr plain_stmt plain_arm e else fold_expr andb true flat flat_stmt flat_arm e.
  Proof. destruct e; reflexivity. Qed.
  Lemma sites_eq semi e : sites semi e = match find_remove_attr (e_attrs e) "auto_enum" with
    | Some (at_, a') => [(NExpr (set_attrs e a'), at_,
        if semi then InStmt (SExpr (set_attrs e a') true) else InExpr (set_attrs e a'))]
    | None => fold_expr (@app site) [] (sites false) sites_stmt sites_arm e end.
  Proof. destruct e; reflexivity. Qed.
  Lemma fold_set_attrs {A} (plus : A -> A -> A) z fe fs fa e a :
    fold_expr plus z fe fs fa (set_attrs e a) = fold_expr plus z fe fs fa e.
  Proof. destruct e; reflexivity. Qed.
  Lemma removes_named name a x a' : removes name a x a' -> attr_named name a = true.
  Proof.
    intros (l & r & -> & _ & H & _). unfold attr_named. apply existsb_exists. exists x. split; [|exact H].
    apply in_or_app. right. left. reflexivity.
  Qed.

  Section Level.
    Variable n : nat.
    Let R := engine hash ta n.
    Hypothesis He : forall e, flat e = true -> em (sites false e) (r_dexpr R e).
    Hypothesis Hs : forall s, flat_stmt s = true -> em (sites_stmt s) (r_dstmt R s).

    (** What the run of one level does to the errors. *)
    Definition em1 {A} (S : list site) (m : M A) : Prop :=
      forall cx a cx', m cx = ROk (a, cx') -> cx_errs cx = [] -> Forall (eq "marker") (cx_markers cx) ->
        cx_errs cx' <> [] -> exists s, In s S /\ refused s (cx_errs cx').

    Lemma em1_of {A} S (m : M A) : em S m -> em1 S m.
    Proof.
      intros H cx a cx' X E D N. destruct (H _ _ _ X) as [_ K]. destruct (K E D) as [[K1 _]|[_ K1]]; [contradiction|exact K1].
    Qed.

    Lemma em1_expr e semi : flat e = true -> em1 (sites semi e) (vs_visit_expr hash ta R (d_vis R) e semi).
    Proof.
      intros F. rewrite flat_eq in F. unfold vs_visit_expr. rewrite sites_eq.
      change "auto_enum" with NAME at 1.
      destruct (find_remove_attr (e_attrs e) NAME) as [[at_ a']|] eqn:X.
      2:{ apply named_none in X. change NAME with "auto_enum" in X. rewrite X in F.
          apply em1_of. apply em_walk; assumption. }
      apply removes_ok in X. change NAME with "auto_enum" in X. rewrite (removes_named _ _ _ _ X) in F.
      rewrite <- (fold_set_attrs _ _ _ _ _ e a') in F.
      assert (W : forall c x c', walk_expr (d_vis R) (set_attrs e a') c = ROk (x, c') ->
                  x = set_attrs e a' /\ cx_errs c' = cx_errs c).
      { intros c x c' H. eapply idle_walk; [| |exact F|exact H]; apply (dummy_idle hash ta n). }
      intros cx y cx' H E D N. eexists. split; [left; reflexivity|].
      destruct at_ as [p|p toks|p v]; cbn zeta in H.
      - apply (bind_ok (walk_expr (d_vis R) (set_attrs e a')) (fun x => error ErrExpectedList ;;; ret x)) in H.
        destruct H as (x & c & H1 & H). apply W in H1. destruct H1 as [-> H1]. minv. cbn. rewrite H1, E.
        right. left. split; [destruct semi; reflexivity|reflexivity].
      - apply (nested_errs _ _ (walk_expr (d_vis R) (set_attrs e a')) (fun x => expand_parent_expr ta R x semi) _ _ _
                 (set_attrs e a')) in H; [|exact E|exact W].
        destruct (ctx_new _ toks false (cx_markers cx) []) as [er|child] eqn:C.
        + rewrite H. destruct (refused_nested (A := False) (NExpr (set_attrs e a')) (MList p toks)
            (if semi then InStmt (SExpr (set_attrs e a') true) else InExpr (set_attrs e a')) toks _ er C eq_refl) as [Y|[]].
          exact Y.
        + destruct H as (child' & H & NE). rewrite NE in *.
          destruct (parse_args toks) as [er|[ps [m|]]] eqn:PA.
          * unfold ctx_new in C. rewrite PA in C. discriminate.
          * left. exists toks, ps, m. auto.
          * right. right. eapply alone_expr; try eassumption; reflexivity.
      - apply (bind_ok (walk_expr (d_vis R) (set_attrs e a')) (fun x => error ErrExpectedList ;;; ret x)) in H.
        destruct H as (x & c & H1 & H). apply W in H1. destruct H1 as [-> H1]. minv. cbn. rewrite H1, E.
        right. left. split; [destruct semi; reflexivity|reflexivity].
    Qed.

    Lemma em1_stmt s : flat_stmt s = true -> em1 (sites_stmt s) (vs_visit_stmt hash ta R (d_vis R) s).
    Proof.
      intros F. destruct s as [[a p t i d]|it|e semi|a m semi]; cbn [vs_visit_stmt].
      - change (flat_let (Local a p t i d) = true) in F. cbn [sites_stmt sites_let].
        change (find_remove_attr a "auto_enum") with (find_remove_attr a NAME).
        cbn [flat_let] in F.
        destruct (find_remove_attr a NAME) as [[at_ a']|] eqn:X.
        2:{ apply named_none in X. change NAME with "auto_enum" in X. rewrite X in F.
            apply em1_of. cbn [walk_stmt d_vis on_local].
            match goal with |- em ?S _ => rewrite <- (app_nil_r S) end.
            apply em_bind; [|intros; apply em_ret]. apply em_local; assumption. }
        apply removes_ok in X. change NAME with "auto_enum" in X. rewrite (removes_named _ _ _ _ X) in F.
        assert (W : forall c x c', walk_stmt (on_expr (d_vis R)) (on_local (d_vis R)) (SLocal (Local a' p t i d)) c = ROk (x, c') ->
                    x = SLocal (Local a' p t i d) /\ cx_errs c' = cx_errs c).
        { intros c x c' H. cbn [walk_stmt d_vis on_local] in H. apply bind_ok in H. destruct H as (l & c1 & H & H2).
          apply ret_ok in H2. destruct H2 as [-> ->].
          apply idle_local in H; [|apply (dummy_idle hash ta n)|exact F]. destruct H as [-> ?]. auto. }
        intros cx y cx' H E D N. eexists. split; [left; reflexivity|].
        assert (K : forall toks, let_args at_ = Some toks ->
                  nested_run (enum_name (hash (NStmt (SLocal (Local a' p t i d))))) toks
                    (walk_stmt (on_expr (d_vis R)) (on_local (d_vis R)) (SLocal (Local a' p t i d)))
                    (expand_parent_stmt ta R) cx = ROk (y, cx') ->
                  refused (NStmt (SLocal (Local a' p t i d)), at_, InStmt (SLocal (Local a' p t i d))) (cx_errs cx')).
        { intros toks LA HK. apply (nested_errs _ _ _ _ _ _ _ (SLocal (Local a' p t i d))) in HK; [|exact E|exact W].
          destruct (ctx_new _ toks false (cx_markers cx) []) as [er|child] eqn:C.
          - rewrite HK. destruct (refused_nested (A := False) (NStmt (SLocal (Local a' p t i d))) at_
              (InStmt (SLocal (Local a' p t i d))) toks _ er C LA) as [Y|[]]. exact Y.
          - destruct HK as (child' & HK & NE). rewrite NE in *.
            destruct (parse_args toks) as [er|[ps [m|]]] eqn:PA.
            + unfold ctx_new in C. rewrite PA in C. discriminate.
            + left. exists toks, ps, m. auto.
            + right. right. eapply alone_stmt_err; try eassumption; reflexivity. }
        destruct at_ as [q|q toks|q v].
        + apply (K [] eq_refl). exact H.
        + apply (K toks eq_refl). exact H.
        + apply (bind_ok (walk_stmt (on_expr (d_vis R)) (on_local (d_vis R)) (SLocal (Local a' p t i d)))
                   (fun x => error ErrExpectedList ;;; ret x)) in H.
          destruct H as (x & c & H1 & H). apply W in H1. destruct H1 as [-> H1]. minv. cbn. rewrite H1, E.
          right. left. split; reflexivity.
      - apply em1_of. apply em_ret.
      - intros cx y cx' H E D N. apply bind_ok in H. destruct H as (e' & c & H1 & H). minv.
        cbn [sites_stmt]. eapply em1_expr; eassumption.
      - apply em1_of. apply em_ret.
    Qed.
  End Level.

  Lemma dummy_errs n :
    (forall e, flat e = true -> em (sites false e) (r_dexpr (engine hash ta n) e))
    /\ (forall s, flat_stmt s = true -> em (sites_stmt s) (r_dstmt (engine hash ta n) s)).
  Proof.
    induction n as [|n [IHe IHs]]; [split; intros x F cx a cx' H; discriminate|].
    assert (U : forall A (x : A) (m : M A) cx x' cx', unless_error x m cx = ROk (x', cx') ->
              (cx_errs cx <> [] -> cx_errs cx' = cx_errs cx) /\ (cx_errs cx = [] -> m cx = ROk (x', cx'))).
    { intros A x m cx x' cx' H. unfold unless_error, bind, gets, has_error in H. destruct (cx_errs cx) eqn:E.
      - split; [intros Y; exfalso; apply Y; reflexivity|intros _; exact H].
      - split; [|discriminate]. intros _. unfold ret in H. inversion H; subst. exact E. }
    assert (NC : forall a c u c', note_child a c = ROk (u, c') -> cx_errs c' = cx_errs c /\ cx_markers c' = cx_markers c).
    { intros a c u c' H. unfold note_child in H. destruct any_attr; minv; auto. }
    destruct (dummy_alone hash ta (S n)) as [De Ds].
    split; intros x F cx y cx' H; pose proof H as H0; cbn [engine step r_dexpr r_dstmt] in H0;
      apply U in H0; destruct H0 as [H1 H2]; (split; [exact H1|]); intros E D; specialize (H2 E);
      (destruct (cx_errs cx') eqn:Z; [left|right]).
    - split; [reflexivity|]. eapply De; eassumption.
    - split; [discriminate|]. unfold dummy_expr in H2. apply bind_ok in H2. destruct H2 as (u & c & H3 & H2).
      apply NC in H3. destruct H3 as [A B]. rewrite <- Z.
      eapply (em1_expr n IHe IHs _ _ F _ _ _ H2); congruence.
    - split; [reflexivity|]. eapply Ds; eassumption.
    - split; [discriminate|]. unfold dummy_stmt in H2. apply bind_ok in H2. destruct H2 as (u & c & H3 & H2).
      apply NC in H3. destruct H3 as [A B]. rewrite <- Z.
      eapply (em1_stmt n IHe IHs _ F _ _ _ H2); congruence.
  Qed.

  Theorem dummy_refused n args i l :
    parse_args args = inr ([], None) -> taken ta [] (annotated_type i) = [] -> flat_input i = true ->
    attribute hash ta n args i = ROk (Errors l) -> exists s, In s (sites_input i) /\ refused s l.
  Proof.
    intros P T F. unfold attribute. destruct (ctx_root _ args) as [|cx0] eqn:C.
    { unfold ctx_root, ctx_new in C. rewrite P in C. discriminate. }
    destruct (root_fields hash args None i P _ C) as (A & TR & E0 & V).
    assert (MS : cx_markers cx0 = ["marker"]).
    { unfold ctx_root, ctx_new in C. rewrite P in C. inversion C. reflexivity. }
    destruct (expand_input ta (engine hash ta n) i cx0) as [[i1 cx1]| |] eqn:X; try discriminate.
    destruct (cx_errs cx1) eqn:E; [discriminate|]. intros H. inversion H; subst. clear H. rewrite <- E.
    assert (N : cx_errs cx1 <> []) by congruence.
    destruct (dummy_shape hash ta n cx0 i A TR T) as (c1 & S & EC & _ & M). rewrite S in X.
    rewrite MS in M. assert (D : Forall (eq "marker") (cx_markers c1)) by (rewrite M; repeat constructor).
    rewrite E0 in EC. destruct (dummy_errs n) as [De Ds].
    destruct i as [[l1|[a sg o b| |]|e1 semi|a m semi]|e1|]; cbn [dummy_input flat_input sites_input] in *;
      try discriminate;
      try (apply bind_ok in X; destruct X as (y & c & X & X2); apply ret_ok in X2; destruct X2 as [-> ->]).
    - eapply (em1_of _ _ (em_local _ De l1 F)); eassumption.
    - eapply (em1_of _ _ (em_mapM flat_stmt sites_stmt _ b Ds F)); eassumption.
    - eapply (em1_of _ _ (De e1 F)); eassumption.
    - minv. contradiction.
    - eapply (em1_of _ _ (De e1 F)); eassumption.
  Qed.
End Run.
