(** Proof: every error that a run reports is accounted for. *)

Require Import Coq.Strings.String Coq.Lists.List Coq.Bool.Bool Coq.Arith.Arith Coq.NArith.NArith.
Require Import Verif.Syntax Verif.Context Verif.ExprModel Verif.TypeAnalysis Verif.AutoEnum.
Require Import Verif.AstInd Verif.Edits Verif.AttrFold Verif.RunLemmas Verif.EditsRun.
Require Import Verif.Frame Verif.VisitRun Verif.EngineRun Verif.AttributeRun Verif.Causes Verif.CauseEdits.
Import ListNotations.
Open Scope string_scope.
Open Scope list_scope.

Definition same_errs (cx cx' : ctx) : Prop := cx_errs cx' = cx_errs cx.

Section Cause.
  Context {K : Cfg}.
  Variables (J : err -> Prop) (mk : string -> bool) (hash : node -> N) (ta : bool).
  Hypothesis mk_default : mk DEFAULT_MARKER = true.
  Hypothesis J_few : forall e, few e = true -> J e.

  Notation ede := (ed_expr mk).
  Notation eds := (ed_stmt mk).
  Notation eda := (ed_arm mk).
  Notation edl := (ed_local mk).
  Notation good := (good mk).
  Notation nok := (nok mk).
  Notation cgood := (cgood mk).
  Notation part_ok := (part_ok J mk).
  Notation parts_ok := (parts_ok J mk).
  Notation namesL := (fold_list (@app nitem) []).
  Notation partsL := (fold_list (@app part) []).

  (** What is known when a visitor starts: [ns] are the arguments of the attributes and [ps] the parts
      of the code it visits. *)
  Record sane (cx : ctx) (ns : list nitem) (ps : list part) : Prop := Sane {
    sa_mk : mk (cx_marker cx) = true;
    sa_nok : nok ns;
    sa_parts : parts_ok ps;
    sa_free : forall m, asked ns m -> In m (cx_markers cx) -> J (ErrMarkerInUse m);
    sa_errs : Forall J (cx_errs cx)
  }.

  Lemma sane_sub cx ns ps ns' ps' :
    sane cx ns ps -> incl ns' ns -> (parts_ok ps -> parts_ok ps') -> sane cx ns' ps'.
  Proof.
    intros [a b c d e] I Q. split; auto.
    - eapply nok_incl; eassumption.
    - intros m (qs & A). apply d. exists qs. auto.
  Qed.

  Lemma sane_app cx n1 n2 p1 p2 :
    sane cx (n1 ++ n2) (p1 ++ p2) <-> sane cx n1 p1 /\ sane cx n2 p2.
  Proof.
    split.
    - intros S. split; (eapply sane_sub; [exact S| |]).
      + apply incl_appl, incl_refl. + intros H. apply ok_app in H. tauto.
      + apply incl_appr, incl_refl. + intros H. apply ok_app in H. tauto.
    - intros [[a b c d e] [a' b' c' d' e']]. split; auto.
      + apply Forall_app. auto.
      + apply ok_app. auto.
      + intros m (qs & A). apply in_app_iff in A. destruct A; [apply d|apply d']; exists qs; auto.
  Qed.

  Lemma sane_bext cx cx' ns ps : bext cx cx' -> Forall J (cx_errs cx') -> sane cx ns ps -> sane cx' ns ps.
  Proof.
    intros B F [a b c d e]. split; auto.
    - rewrite (b_marker _ _ B). exact a.
    - intros m A I. apply d; [exact A|]. destruct (b_markers _ _ B) as [E|[E _]]; rewrite E in I; [exact I|contradiction].
  Qed.

  Definition okR {A} (R : list label -> A -> A -> Prop) (nm : A -> list nitem) (pr : A -> list part) : Prop :=
    forall t x x', R t x x' -> incl (nm x') (nm x) /\ (parts_ok (pr x) -> parts_ok (pr x')).

  Lemma okR_e : okR ede names_expr parts_of.
  Proof. intros t x x' H. split; [eapply (names_edit mk)|eapply (edits_ok J mk)]; exact H. Qed.
  Lemma okR_s : okR eds names_stmt parts_of_stmt.
  Proof. intros t x x' H. split; [eapply (names_edit mk)|eapply (edits_ok J mk)]; exact H. Qed.
  Lemma okR_a : okR eda names_arm parts_of_arm.
  Proof. intros t x x' H. split; [eapply (names_edit mk)|eapply (edits_ok J mk)]; exact H. Qed.
  Lemma okR_l : okR edl names_local parts_of_let.
  Proof. intros t x x' H. split; [eapply (names_edit mk)|eapply (edits_ok J mk)]; exact H. Qed.
  Lemma okR_ss : okR (ed_stmts mk) (namesL names_stmt) (partsL parts_of_stmt).
  Proof. intros t x x' H. split; [eapply (names_edit mk)|eapply (edits_ok J mk)]; exact H. Qed.
  Lemma okR_o : okR (ed_opt mk) (fold_opt [] names_expr) (fold_opt [] parts_of).
  Proof. intros t x x' H. split; [eapply (names_edit mk)|eapply (edits_ok J mk)]; exact H. Qed.

  Lemma sane_step {A} R (nm : A -> list nitem) pr cx cx' t x x' :
    okR R nm pr -> R t x x' -> bext cx cx' -> Forall J (cx_errs cx') ->
    sane cx (nm x) (pr x) -> sane cx' (nm x') (pr x').
  Proof.
    intros O HR B F S. destruct (O _ _ _ HR) as [I Q]. eapply sane_sub; [|exact I|exact Q].
    eapply sane_bext; eassumption.
  Qed.

  (** The run adds only errors that are accounted for. *)
  Definition tame {A} (nm : A -> list nitem) (pr : A -> list part) (f : A -> M A) (x : A) : Prop :=
    forall cx x' cx', f x cx = ROk (x', cx') -> sane cx (nm x) (pr x) -> Forall J (cx_errs cx').

  (** ... and leaves the context fit for the code that follows. *)
  Definition rok {A} (nm : A -> list nitem) (pr : A -> list part) (f : A -> M A) (x : A) : Prop :=
    forall cx x' cx', f x cx = ROk (x', cx') -> sane cx (nm x) (pr x) ->
    sane cx' (nm x') (pr x') /\ bext cx cx'.

  Lemma rok_of {A} R (nm : A -> list nitem) pr f x :
    okR R nm pr -> good R nm f x -> tame nm pr f x -> rok nm pr f x.
  Proof.
    intros O G T cx x' cx' H S. destruct (G _ _ _ H (sa_mk _ _ _ S) (sa_nok _ _ _ S)) as (t & HR & X).
    split; [|apply X]. eapply sane_step; [exact O|exact HR|apply X|eapply T; eassumption|exact S].
  Qed.

  Lemma rok_errs {A} (nm : A -> list nitem) pr f x : rok nm pr f x -> tame nm pr f x.
  Proof. intros R cx x' cx' H S. destruct (R _ _ _ H S) as [S' _]. apply S'. Qed.

  (** ** Walks *)

  Lemma mapM_rok {A} (nm : A -> list nitem) pr f l :
    (forall x, rok nm pr f x) -> rok (namesL nm) (partsL pr) (mapM f) l.
  Proof.
    intros HF. induction l as [|x r IH]; intros cx l' cx' H S; apply mapM_inv in H.
    - destruct H as [-> ->]. split; [exact S|apply bext_refl].
    - destruct H as (y & cx1 & ys & H1 & H2 & ->). cbn [fold_list fold_right] in S.
      apply sane_app in S. destruct S as [S1 S2].
      destruct (HF _ _ _ _ H1 S1) as [T1 B1].
      assert (S2' : sane cx1 (namesL nm r) (partsL pr r)) by (eapply sane_bext; [exact B1|apply T1|exact S2]).
      destruct (IH _ _ _ H2 S2') as [T2 B2]. split; [|eapply bext_trans; eassumption].
      cbn [fold_list fold_right]. apply sane_app. split; [|exact T2].
      eapply sane_bext; [exact B2|apply T2|exact T1].
  Qed.

  Lemma optM_rok f o : (forall x, rok names_expr parts_of f x) -> rok (fold_opt [] names_expr) (fold_opt [] parts_of) (optM f) o.
  Proof.
    intros HF cx o' cx' H S. apply optM_inv in H. destruct o as [x|].
    - destruct H as (y & H & ->). exact (HF _ _ _ _ H S).
    - destruct H as [-> ->]. split; [exact S|apply bext_refl].
  Qed.

  Lemma sane_kids cx e : sane cx (names_expr e) (parts_of e) ->
    match e with
    | EMacro _ _ => True
    | _ => sane cx (fold_expr (@app nitem) [] names_expr names_stmt names_arm e)
             (fold_expr (@app part) [] parts_of parts_of_stmt parts_of_arm e)
    end.
  Proof.
    intros S. assert (Q : forall ns ps, names_expr e = flat_map attr_marker (e_attrs e) ++ ns ->
      parts_of e = PtExpr e :: ps -> sane cx ns ps).
    { intros ns ps E1 E2. eapply sane_sub; [exact S| |].
      - rewrite E1. apply incl_appr, incl_refl.
      - rewrite E2. intros H. apply ok_cons in H. tauto. }
    destruct e; try exact I; apply Q; reflexivity.
  Qed.

  Lemma sane_arm cx a p g b c : sane cx (names_arm (Arm a p g b c)) (parts_of_arm (Arm a p g b c)) ->
    sane cx (fold_opt [] names_expr g) (fold_opt [] parts_of g) /\ sane cx (names_expr b) (parts_of b).
  Proof.
    intros S. apply sane_app. eapply sane_sub; [exact S| |].
    - unfold names_arm. cbn [af_arm fold_arm]. apply incl_appr, incl_refl.
    - intros H. cbn [parts_of_arm fold_arm] in H. apply ok_cons in H. tauto.
  Qed.

  Lemma sane_let cx a p t i d : sane cx (names_local (Local a p t i d)) (parts_of_let (Local a p t i d)) ->
    sane cx (fold_opt [] names_expr i) (fold_opt [] parts_of i) /\ sane cx (fold_opt [] names_expr d) (fold_opt [] parts_of d).
  Proof.
    intros S. apply sane_app. eapply sane_sub; [exact S| |].
    - unfold names_local. cbn [af_local fold_local]. apply incl_appr, incl_refl.
    - intros H. cbn [parts_of_let fold_local] in H. apply ok_cons in H. tauto.
  Qed.

  (** Runs on code that follows. *)
  Ltac go HF H S S' B :=
    destruct (HF _ _ _ H S) as [S' B].
  Ltac after B S' :=
    repeat match goal with
    | H : sane ?c _ _ |- _ =>
        match type of B with bext c _ => apply (sane_bext _ _ _ _ B (sa_errs _ _ _ S')) in H end
    end.

  Ltac goes HF H S :=
    let S' := fresh "T" in let B := fresh "B" in go HF H S S' B; after B S'.

  Lemma walk_arm_tame f x : (forall e, rok names_expr parts_of f e) -> tame names_arm parts_of_arm (walk_arm f) x.
  Proof.
    intros HF cx x' cx' H S. destruct x as [a p g b c]. apply sane_arm in S. destruct S as [S1 S2].
    cbn [walk_arm] in H. minv.
    go (optM_rok f g HF) H0 S1 T1 B1. after B1 T1.
    go (HF b) H1 S2 T2 B2. apply T2.
  Qed.

  Lemma walk_local_tame f x : (forall e, rok names_expr parts_of f e) -> tame names_local parts_of_let (walk_local f) x.
  Proof.
    intros HF cx x' cx' H S. destruct x as [a p t i d]. apply sane_let in S. destruct S as [S1 S2].
    cbn [walk_local] in H. minv.
    go (optM_rok f i HF) H0 S1 T1 B1. after B1 T1.
    go (optM_rok f d HF) H1 S2 T2 B2. apply T2.
  Qed.

  Lemma walk_stmt_tame fe fl s :
    (forall e, rok names_expr parts_of fe e) -> (forall l, rok names_local parts_of_let fl l) ->
    tame names_stmt parts_of_stmt (walk_stmt fe fl) s.
  Proof.
    intros He Hl cx x' cx' H S. destruct s; cbn [walk_stmt] in H; minv; try apply S.
    - go (Hl l) H0 S T B. apply T.
    - go (He e) H0 S T B. apply T.
  Qed.

  Lemma walk_expr_tame V e :
    (forall e, rok names_expr parts_of (on_expr V) e) -> (forall s, rok names_stmt parts_of_stmt (on_stmt V) s) ->
    (forall x, rok names_arm parts_of_arm (on_arm V) x) -> tame names_expr parts_of (walk_expr V) e.
  Proof.
    intros He Hs Ha cx x' cx' H S. pose proof (sa_errs _ _ _ S) as J0. apply sane_kids in S.
    destruct e; cbn [fold_expr] in S; cbn [walk_expr] in H; minv; try exact J0;
      try match type of S with sane _ (_ ++ _ ++ _) _ => apply sane_app in S; destruct S as [S S3]; apply sane_app in S3; destruct S3 as [S3 S4]
          | sane _ (_ ++ _) _ => apply sane_app in S; destruct S as [S S3] end;
      repeat match goal with
      | H0 : on_expr V ?x ?c = ROk _, S : sane ?c (names_expr ?x) _ |- _ => goes (He x) H0 S; clear H0
      | H0 : mapM (on_expr V) ?x ?c = ROk _, S : sane ?c _ _ |- _ => goes (mapM_rok names_expr parts_of _ x He) H0 S; clear H0
      | H0 : mapM (on_stmt V) ?x ?c = ROk _, S : sane ?c _ _ |- _ => goes (mapM_rok names_stmt parts_of_stmt _ x Hs) H0 S; clear H0
      | H0 : mapM (on_arm V) ?x ?c = ROk _, S : sane ?c _ _ |- _ => goes (mapM_rok names_arm parts_of_arm _ x Ha) H0 S; clear H0
      | H0 : optM (on_expr V) ?x ?c = ROk _, S : sane ?c _ _ |- _ => goes (optM_rok _ x He) H0 S; clear H0
      end; try (match goal with T : sane ?c _ _ |- Forall J (cx_errs ?c) => apply T end).
  Qed.

  (** ** The branches of an expression *)

  Lemma loop_errs s label cx s' cx' : loop_stmt label false s cx = ROk (s', cx') -> cx_errs cx' = cx_errs cx.
  Proof.
    assert (L : pres same_errs (loop_stmt label false s)).
    { apply (loop_pres same_errs); unfold same_errs; intros; try reflexivity. congruence. }
    intros H. apply L in H. exact H.
  Qed.

  Lemma block_errs b cx b' cx' : visit_last_block b cx = ROk (b', cx') -> cx_errs cx' = cx_errs cx.
  Proof. intros H. apply visit_last_block_ok in H. destruct H as [(_ & _ & ->)|(_ & _ & ->)]; reflexivity. Qed.

  Lemma if_errs : forall e cx e' cx', visit_last_expr_if e cx = ROk (e', cx') ->
    Forall J (cx_errs cx) -> (ends_well e = false -> J ErrNoElse) -> Forall J (cx_errs cx').
  Proof.
    refine (proj1 (ast_ind (fun e => forall cx e' cx', visit_last_expr_if e cx = ROk (e', cx') ->
                       Forall J (cx_errs cx) -> (ends_well e = false -> J ErrNoElse) -> Forall J (cx_errs cx'))
                     (fun _ => True) (fun _ => True) (fun _ => True) _ _ _ _ _ _ _ _ _ _ _ _ _ _ _ _ _ _ _ _ _ _ _ _ _ _));
      intros; try exact I;
      match goal with H : visit_last_expr_if _ _ = _ |- _ => cbn [visit_last_expr_if] in H; rename H into HH end;
      try (minv; assumption).
    rewrite ends_if in *. apply bind_ok in HH. destruct HH as (t' & cx1 & HA & HH). apply block_errs in HA.
    apply bind_ok in HH. destruct HH as (o' & cx2 & HB & HH). minv.
    rewrite <- HA in *.
    destruct els as [els|].
    - destruct els; try discriminate HB.
      + minv. match goal with HC : visit_last_block _ _ = _ |- _ => apply block_errs in HC; rewrite HC end. assumption.
      + apply bind_ok in HB. destruct HB as (y & cy & HB & HC). minv. cbn in H1. eapply H1; [exact HB|assumption|assumption].
    - minv. cbn [cx_errs set_errs]. apply Forall_app. split; [assumption|]. constructor; [|constructor]. auto.
  Qed.

  Lemma map_last_errs f b :
    Forall (fun s => match s with
      | SExpr e _ => forall cx e' cx', f e cx = ROk (e', cx') -> Forall J (cx_errs cx) ->
          (visit_last cx = true -> ends_well e = false -> J ErrNoElse) -> Forall J (cx_errs cx')
      | _ => True end) b ->
    forall cx b' cx', map_last_expr f b cx = ROk (b', cx') -> Forall J (cx_errs cx) ->
      (visit_last cx = true -> on_last last_ok true b = false -> J ErrNoElse) -> Forall J (cx_errs cx').
  Proof.
    induction b as [|s r IH]; intros HF cx b' cx' H J0 W.
    - cbn in H. minv. exact J0.
    - inversion HF as [|? ? F1 F2]; subst. destruct r as [|s2 r].
      + cbn [map_last_expr] in H. destruct s as [l|i|e semi|]; try (minv; exact J0).
        destruct semi; minv; [exact J0|]. eapply F1; [eassumption|assumption|]. exact W.
      + change (map_last_expr f (s :: s2 :: r)) with
          (r' <- map_last_expr f (s2 :: r) ;; ret (s :: r')) in H.
        minv. eapply IH; [exact F2|eassumption|assumption|exact W].
  Qed.

  Lemma child_errs : forall e cx e' cx', child_expr e cx = ROk (e', cx') -> Forall J (cx_errs cx) ->
    (visit_last cx = true -> ends_well e = false -> J ErrNoElse) -> Forall J (cx_errs cx').
  Proof.
    refine (proj1 (ast_ind (fun e => forall cx e' cx', child_expr e cx = ROk (e', cx') -> Forall J (cx_errs cx) ->
                       (visit_last cx = true -> ends_well e = false -> J ErrNoElse) -> Forall J (cx_errs cx'))
                     (fun s => match s with SExpr e _ => forall cx e' cx', child_expr e cx = ROk (e', cx') -> Forall J (cx_errs cx) ->
                       (visit_last cx = true -> ends_well e = false -> J ErrNoElse) -> Forall J (cx_errs cx') | _ => True end)
                     (fun _ => True) (fun _ => True)
                     _ _ _ _ _ _ _ _ _ _ _ _ _ _ _ _ _ _ _ _ _ _ _ _ _ _));
      intros; try exact I; try (exact (H _ _ _ H0 H1 H2));
      match goal with H : child_expr _ _ = _ |- _ => cbn [child_expr] in H; rename H into HH end; minv;
      match type of HH with (if ?b then _ else _) _ = _ => destruct b eqn:ST end;
      try (minv; assumption);
      match goal with W : visit_last ?c = true -> _ |- _ =>
        assert (VL : visit_last c = true) by (apply orb_false_iff in ST; destruct ST as [ST _]; apply negb_false_iff in ST; exact ST) end.
    - minv. eapply map_last_errs; [exact H|eassumption|assumption|]. intros V. rewrite <- (ends_block a l b). auto.
    - destruct k; try (minv; assumption). minv. eapply map_last_errs; [exact H|eassumption|assumption|].
      intros V. rewrite <- (ends_unsafe a b). auto.
    - minv. assert (L : pres same_errs (mapM visit_last_arm arms)).
      { apply pres_mapM_all; unfold same_errs; [reflexivity|congruence|]. intros x c0 x' c1 HX. unfold visit_last_arm in HX. minv.
        destruct (skip_arm c0 x); minv; [reflexivity|]. destruct x. minv.
        match goal with HN : next_expr _ _ = _ |- _ => apply next_expr_ok in HN; destruct HN; subst; reflexivity end. }
      match goal with HM : mapM _ _ _ = _ |- _ => apply L in HM; rewrite HM end. assumption.
    - eapply if_errs; [exact HH|assumption|auto].
    - minv. match goal with HM : visit_last_expr_loop _ _ _ = _ |- _ => unfold visit_last_expr_loop in HM; rename HM into HL end.
      assert (L : pres same_errs (mapM (loop_stmt l false) b)).
      { apply pres_mapM_all; unfold same_errs; [reflexivity|congruence|]. intros x c0 x' c1 HX. eapply loop_errs. exact HX. }
      apply L in HL. rewrite HL. assumption.
    - minv. eapply H; [eassumption|assumption|auto].
    - minv. eapply H; [eassumption|assumption|auto].
  Qed.

  (** ** Pieces of the visitor *)

  Lemma path_only_not x q : is_path_only x = false -> x <> MPath q.
  Proof. intros H ->. discriminate H. Qed.

  Lemma nested_errs sc x e cx e' cx' :
    visit_nested sc e x cx = ROk (e', cx') -> Forall J (cx_errs cx) ->
    (is_path_only x = false -> J (ErrNotPathOnly "nested")) -> (ends_well e = false -> J ErrNoElse) -> Forall J (cx_errs cx').
  Proof.
    intros H J0 W1 W2. unfold visit_nested in H. minv. destruct (is_path_only x) eqn:E.
    - eapply child_errs; [exact H|assumption|auto].
    - minv. cbn [cx_errs set_errs]. apply Forall_app. split; [assumption|]. constructor; [|constructor]. auto.
  Qed.

  Lemma attrs_errs sc p a cx a' cx' :
    find_remove_attrs sc a cx = ROk (a', cx') -> Forall J (cx_errs cx) -> part_attrs p = a -> part_ok p -> Forall J (cx_errs cx').
  Proof.
    intros H J0 EA PO. unfold find_remove_attrs in H. destruct (sc_foreign sc); minv; [exact J0|].
    assert (S1 : Forall J (cx_errs cx0) /\ incl a0 a).
    { destruct (find_remove_attr a NEVER) as [[x a1]|] eqn:E; minv; [|split; [exact J0|apply incl_refl]].
      apply find_remove_split in E. destruct E as (l & r & E1 & E2 & E3 & _). subst a1.
      split; [|rewrite E1; intros y; rewrite !in_app_iff; cbn; tauto].
      destruct (is_path_only x) eqn:PX; minv; [exact J0|].
      cbn [cx_errs set_errs]. apply Forall_app. split; [exact J0|]. constructor; [|constructor].
      apply (po_bare J mk p PO x); [rewrite EA, E1; apply in_or_app; right; left; reflexivity|exact E3|left; reflexivity|].
      intros q. apply path_only_not. exact PX. }
    destruct S1 as [J1 I1].
    destruct (find_remove_attr a0 REC) as [[x a1]|] eqn:E; minv; [|exact J1].
    apply find_remove_split in E. destruct E as (l & r & E1 & E2 & E3 & _).
    cbn [cx_errs set_errs]. apply Forall_app. split; [exact J1|]. constructor; [|constructor].
    apply (po_rec J mk p PO). exists x. split; [|exact E3]. rewrite EA. apply I1. rewrite E1. apply in_or_app. right. left. reflexivity.
  Qed.

  Lemma marker_errs sc e cx e' cx' :
    visit_marker_macro sc e cx = ROk (e', cx') -> Forall J (cx_errs cx) -> mk (cx_marker cx) = true -> part_ok (PtExpr e) ->
    Forall J (cx_errs cx').
  Proof.
    intros H J0 MK PO. unfold visit_marker_macro in H. minv. destruct e; try (minv; exact J0).
    destruct m as [p x]. unfold is_marker_macro_exact in H. cbn [mac_path] in H.
    destruct (is_ident p (cx_marker cx)) eqn:E; [|minv; exact J0]. destruct x as [y|]; minv.
    - destruct (has_error cx); minv; [exact J0|]. apply next_expr_attrs_ok in H. destruct H as [_ ->]. exact J0.
    - destruct (has_error _).
      + minv. cbn [cx_errs set_errs]. apply Forall_app. split; [exact J0|]. constructor; [|constructor].
        apply (po_mac J mk _ PO _ _ _ eq_refl E MK).
      + apply next_expr_attrs_ok in H. destruct H as [_ ->]. cbn [cx_errs set_errs set_variants].
        apply Forall_app. split; [exact J0|]. constructor; [|constructor]. apply (po_mac J mk _ PO _ _ _ eq_refl E MK).
  Qed.

  Lemma build_errs {A} (f : genum -> A -> A) x cx x' cx' :
    build f x cx = ROk (x', cx') -> Forall J (cx_errs cx) -> Forall J (cx_errs cx').
  Proof.
    unfold build. intros H J0.
    destruct (has_error cx); [inversion H; subst; exact J0|].
    destruct (length (cx_variants cx)) as [|[|n]]; [destruct (cx_has_child cx)| |]; minv;
      try (inversion H; subst; exact J0);
      cbn [cx_errs set_errs]; apply Forall_app; (split; [exact J0|]); constructor; [apply J_few; reflexivity|constructor|apply J_few; reflexivity|constructor].
  Qed.

  (** ** One level of the recursion *)

  Record engine_tame (R : engine_t) : Prop := ETame {
    et_vexpr : forall sc b e, tame names_expr parts_of (r_vexpr R sc b) e;
    et_vstmt : forall sc e, tame names_stmt parts_of_stmt (r_vstmt R sc) e;
    et_varm : forall sc e, tame names_arm parts_of_arm (r_varm R sc) e;
    et_vlocal : forall sc e, tame names_local parts_of_let (r_vlocal R sc) e;
    et_dexpr : forall e, tame names_expr parts_of (r_dexpr R) e;
    et_dstmt : forall e, tame names_stmt parts_of_stmt (r_dstmt R) e
  }.

  Section Level.
    Variable R : engine_t.
    Hypothesis G : engine_good mk R.
    Hypothesis T : engine_tame R.

    Lemma vexpr_rok sc b e : rok names_expr parts_of (r_vexpr R sc b) e.
    Proof. eapply rok_of; [apply okR_e|apply (eg_vexpr mk R G)|apply (et_vexpr R T)]. Qed.
    Lemma vstmt_rok sc e : rok names_stmt parts_of_stmt (r_vstmt R sc) e.
    Proof. eapply rok_of; [apply okR_s|apply (eg_vstmt mk R G)|apply (et_vstmt R T)]. Qed.
    Lemma varm_rok sc e : rok names_arm parts_of_arm (r_varm R sc) e.
    Proof. eapply rok_of; [apply okR_a|apply (eg_varm mk R G)|apply (et_varm R T)]. Qed.
    Lemma vlocal_rok sc e : rok names_local parts_of_let (r_vlocal R sc) e.
    Proof. eapply rok_of; [apply okR_l|apply (eg_vlocal mk R G)|apply (et_vlocal R T)]. Qed.
    Lemma dexpr_rok e : rok names_expr parts_of (r_dexpr R) e.
    Proof. eapply rok_of; [apply okR_e|apply (eg_dexpr mk R G)|apply (et_dexpr R T)]. Qed.
    Lemma dstmt_rok e : rok names_stmt parts_of_stmt (r_dstmt R) e.
    Proof. eapply rok_of; [apply okR_s|apply (eg_dstmt mk R G)|apply (et_dstmt R T)]. Qed.

    (** The contexts that differ in the modes only. *)
    Lemma sane_ext cx cx' t ns ps : ext cx t cx' -> cx_errs cx' = cx_errs cx -> sane cx ns ps -> sane cx' ns ps.
    Proof. intros X E S. eapply sane_bext; [apply X|rewrite E; apply S|exact S]. Qed.

    Lemma body_errs e cx e' cx' :
      expand_body ta R e cx = ROk (e', cx') -> sane cx (names_expr e) (parts_of e) ->
      (visit_last cx = true -> ends_well e = false -> J ErrNoElse) -> Forall J (cx_errs cx').
    Proof.
      intros H S W. unfold expand_body in H. minv.
      destruct (child_expr_good mk e _ _ _ H0 (sa_mk _ _ _ S) (sa_nok _ _ _ S)) as (t1 & R1 & X1).
      pose proof (child_errs _ _ _ _ H0 (sa_errs _ _ _ S) W) as J1.
      assert (S1 : sane cx0 (names_expr a) (parts_of a)) by (eapply sane_step; [apply okR_e|exact R1|apply X1|exact J1|exact S]).
      destruct (ta_dummy ta cx0).
      - go (dexpr_rok a) H S1 S2 B2. apply S2.
      - go (vexpr_rok scope0 false a) H S1 S2 B2. apply S2.
    Qed.

    Lemma expand_errs e cx e' cx' :
      expand_expr ta R e cx = ROk (e', cx') -> sane cx (names_expr e) (parts_of e) ->
      (visit_last cx = true -> ends_well e = false -> J ErrNoElse) -> Forall J (cx_errs cx').
    Proof.
      intros H S W. unfold expand_expr in H. minv.
      destruct e; try (eapply body_errs; eassumption). destruct (visit_last cx) eqn:V; [|eapply body_errs; [eassumption..|rewrite V; auto]].
      minv. apply sane_kids in S. cbn [fold_expr] in S.
      match goal with HB : expand_body _ _ _ (set_mode ?m _) = _ |- _ =>
        eapply body_errs; [exact HB|eapply sane_ext; [apply (ext_mode m cx)|reflexivity|exact S]|] end.
      intros _. apply W. reflexivity.
    Qed.

    Lemma parent_expr_errs b e cx e' cx' :
      expand_parent_expr ta R e b cx = ROk (e', cx') -> sane cx (names_expr e) (parts_of e) ->
      (b = false -> ends_well e = false -> J ErrNoElse) -> Forall J (cx_errs cx').
    Proof.
      intros H S W. unfold expand_parent_expr in H.
      apply bind_ok in H. destruct H as (u & cxa & H0 & H).
      assert (X0 : ext cx [] cxa /\ cx_errs cxa = cx_errs cx /\ (b = true -> visit_last cxa = false)).
      { destruct b; minv; (split; [auto using ext_last, ext_refl|split; [reflexivity|]]); [reflexivity|discriminate]. }
      destruct X0 as (X0 & E0 & V0). pose proof (sane_ext _ _ _ _ _ X0 E0 S) as Sa.
      minv. destruct (is_dummy cxa).
      - minv. go (dexpr_rok e) H Sa S2 B2. apply S2.
      - minv. eapply build_errs; [exact H|]. eapply expand_errs; [eassumption|exact Sa|].
        intros V. apply W. destruct b; [|reflexivity]. rewrite V0 in V by reflexivity. discriminate.
    Qed.

    Lemma parent_local_errs a p t i d cx l' cx' :
      expand_parent_local ta R (Local a p t i d) cx = ROk (l', cx') ->
      sane cx (names_local (Local a p t i d)) (parts_of_let (Local a p t i d)) ->
      (i = None -> J ErrUninitLet) -> (opt_ok i = false -> J ErrNoElse) -> Forall J (cx_errs cx').
    Proof.
      intros H S W1 W2. cbn [expand_parent_local] in H.
      apply bind_ok in H. destruct H as (t' & cx1 & HT & H).
      assert (E1 : cx_errs cx1 = cx_errs cx).
      { unfold local_ty in HT. destruct ta; [|minv; reflexivity]. destruct t; [|minv; reflexivity].
        minv. destruct (collect_impl_trait _ _ _). minv. reflexivity. }
      destruct (local_ty_ok mk ta a p t i d _ _ _ HT) as (R1 & X1 & _).
      pose proof (sane_ext _ _ _ _ _ X1 E1 S) as S1. clear S. minv. destruct (is_dummy cx1).
      - minv. eapply (walk_local_tame (r_dexpr R) (Local a p t' i d)); [apply dexpr_rok|exact H|].
        eapply sane_step; [apply okR_l|exact R1|apply bext_refl|apply S1|exact S1].
      - destruct i as [e|].
        + minv. apply sane_let in S1. destruct S1 as [S1 _].
          eapply build_errs; [eassumption|]. eapply expand_errs; [eassumption|exact S1|]. intros _. apply W2.
        + minv. cbn [cx_errs set_errs]. apply Forall_app. split; [apply S1|]. constructor; [|constructor]. auto.
    Qed.

    Lemma parent_fn_errs out b cx b' cx' :
      expand_parent_item_fn ta R out b cx = ROk (b', cx') -> sane cx (namesL names_stmt b) (partsL parts_of_stmt b) ->
      (b = [] -> J ErrEmptyFn) -> (on_last last_ok true b = false -> J ErrNoElse) -> Forall J (cx_errs cx').
    Proof.
      intros H S W1 W2. unfold expand_parent_item_fn in H.
      apply bind_ok in H. destruct H as (u1 & cx1 & H1 & H).
      apply bind_ok in H. destruct H as (u2 & cx2 & H2 & H).
      destruct (fn_mode_ok _ _ _ _ _ H1) as [X1 _]. destruct (fn_collect_ok _ _ _ _ _ H2) as [X2 _].
      assert (E1 : cx_errs cx1 = cx_errs cx).
      { unfold fn_mode in H1. minv. destruct (match cx_last cx with LDefault => true | LNever => false end); [|minv; reflexivity].
        destruct out as [[]|]; minv; try reflexivity; destruct (is_result_impl _); minv; try reflexivity;
          destruct (2 <=? _)%nat; minv; reflexivity. }
      assert (E2 : cx_errs cx2 = cx_errs cx1).
      { unfold fn_collect in H2. destruct ta; [|minv; reflexivity]. destruct out; [|minv; reflexivity].
        minv. destruct (collect_impl_trait _ _ _). minv. reflexivity. }
      pose proof (sane_ext _ _ _ _ _ X1 E1 S) as S1. pose proof (sane_ext _ _ _ _ _ X2 E2 S1) as S2. clear S S1.
      minv. destruct (is_dummy cx2).
      - minv. go (mapM_rok names_stmt parts_of_stmt _ b dstmt_rok) H S2 S3 B3. apply S3.
      - apply bind_ok in H. destruct H as (b1 & cx3 & H3 & H).
        assert (Q : sane cx3 (namesL names_stmt b1) (partsL parts_of_stmt b1)).
        { destruct b as [|s r].
          - minv. eapply sane_bext; [apply (ext_error cx2 ErrEmptyFn)| |exact S2].
            cbn [cx_errs set_errs]. apply Forall_app. split; [apply S2|]. constructor; [|constructor]. auto.
          - destruct (fun HF => map_last_good mk child_expr (s :: r) HF _ _ _ H3 (sa_mk _ _ _ S2) (sa_nok _ _ _ S2)) as (t & R1 & X3).
            { apply Forall_all. intros []; auto. apply child_expr_good. }
            eapply sane_step; [apply okR_ss|exact R1|apply X3| |exact S2].
            eapply map_last_errs; [|exact H3|apply S2|auto].
            apply Forall_all. intros []; auto. apply child_errs. }
        clear S2. minv. destruct (ta_dummy ta cx3).
        + go (mapM_rok names_stmt parts_of_stmt _ b1 dstmt_rok) H Q S3 B3. apply S3.
        + minv. eapply build_errs; [eassumption|].
          match goal with HM : mapM _ _ _ = _ |- _ => go (mapM_rok names_stmt parts_of_stmt _ b1 (vstmt_rok scope0)) HM Q S3 B3 end. apply S3.
    Qed.

    (** *** Nested attributes *)

    Definition vis_rok (V : vis) : Prop :=
      (forall e, rok names_expr parts_of (on_expr V) e) /\ (forall s, rok names_stmt parts_of_stmt (on_stmt V) s)
      /\ (forall x, rok names_arm parts_of_arm (on_arm V) x) /\ (forall l, rok names_local parts_of_let (on_local V) l).

    Lemma asked_attr a x toks ps m :
      In x a -> named "auto_enum" x -> match x with MList _ l => toks = l | MPath _ => toks = [] | _ => False end ->
      parse_args toks = inr (ps, Some m) -> asked (flat_map attr_marker a) m.
    Proof.
      intros I N HT E. exists ps. apply in_flat_map. exists x. split; [exact I|].
      unfold attr_marker. rewrite N. destruct x; subst; try contradiction.
      - discriminate E.
      - rewrite E. left. reflexivity.
    Qed.

    (** A failed nested attribute. *)
    Lemma new_errs p x toks i cx er :
      part_ok p -> auto_attr p x -> nested_args p x toks ->
      (forall m, asked (flat_map attr_marker (part_attrs p)) m -> In m (cx_markers cx) -> J (ErrMarkerInUse m)) ->
      ctx_new i toks false (cx_markers cx) (cx_errs cx) = inl er -> J er.
    Proof.
      intros PO AA NA FR H. unfold ctx_new in H. destruct (parse_args toks) as [e|[ps mo]] eqn:E.
      - injection H as <-. eapply (po_args J mk p PO); eassumption.
      - destruct mo as [m|]; [|discriminate H]. destruct (existsb (String.eqb m) (cx_markers cx)) eqn:EX; [|discriminate H].
        injection H as <-. apply FR.
        + destruct AA as (I & N & _). eapply asked_attr; [exact I|exact N| |exact E].
          destruct p, x; cbn in NA; auto; contradiction.
        + apply existsb_exists in EX. destruct EX as (m' & I & EQ). apply String.eqb_eq in EQ. subst. exact I.
    Qed.

    (** A successful one: the markers of the child. *)
    Lemma new_free p l x r toks i cx child ns :
      part_ok p -> part_attrs p = l ++ x :: r -> auto_attr p x -> nested_args p x toks ->
      incl ns (names_part (with_attrs p (l ++ r))) ->
      (forall m, asked ns m -> In m (cx_markers cx) -> J (ErrMarkerInUse m)) ->
      ctx_new i toks false (cx_markers cx) (cx_errs cx) = inr child ->
      forall m, asked ns m -> In m (cx_markers child) -> J (ErrMarkerInUse m).
    Proof.
      intros PO EA AA NA IN FR H m AS IM. apply ctx_new_ok in H. destruct H as (cur & args & mo & HP & HC & _ & ->).
      cbn [cx_markers] in IM. apply in_app_iff in IM. destruct IM as [IM|[<-|[]]]; [auto|].
      rewrite HC. change (J (ErrMarkerInUse (marker_of mo))).
      eapply (po_use J mk p PO); [exact EA|exact AA|exact NA|exact HP|].
      destruct AS as (qs & AS). exists qs. apply IN. rewrite HC in AS. exact AS.
    Qed.

    Lemma join_errs cx2 child child' a cx3 :
      join_child child' cx2 = ROk (a, cx3) -> bext child child' -> Forall J (cx_errs cx2) -> Forall J (cx_errs child') -> Forall J (cx_errs cx3).
    Proof.
      intros H B J1 J2. apply join_child_ok in H. destruct H as [_ ->]. cbn [cx_errs set_errs]. apply Forall_app. auto.
    Qed.

    Lemma sane_take cx ns ps : sane cx ns ps -> sane (set_errs [] (set_markers [] cx)) ns ps.
    Proof. intros [a b c d e]. split; auto. constructor. Qed.

    Lemma head_part e : parts_ok (parts_of e) -> part_ok (PtExpr e).
    Proof. intros H. destruct e; cbn [parts_of] in H; apply ok_cons in H; tauto. Qed.

    Lemma names_attrs e : incl (flat_map attr_marker (e_attrs e)) (names_expr e).
    Proof. destruct e; apply incl_appl, incl_refl. Qed.

    Lemma ends_set e a : ends_well (set_attrs e a) = ends_well e.
    Proof. destruct e; reflexivity. Qed.

    Lemma vs_expr_errs V b e cx e' cx' :
      vis_rok V ->
      (forall e, good ede names_expr (on_expr V) e) -> (forall e, good eds names_stmt (on_stmt V) e) ->
      (forall e, good eda names_arm (on_arm V) e) ->
      vs_visit_expr hash ta R V e b cx = ROk (e', cx') -> sane cx (names_expr e) (parts_of e) ->
      Forall J (cx_errs cx').
    Proof.
      intros (Ve & Vs & Va & Vl) Ge Gs Ga H S. unfold vs_visit_expr in H.
      destruct (find_remove_attr (e_attrs e) NAME) as [[x a']|] eqn:FR.
      2:{ eapply (walk_expr_tame V e); eassumption. }
      pose proof (find_remove_drops _ _ _ _ helper_name FR) as DR.
      pose proof (find_remove_split _ _ _ _ FR) as (l & r0 & EA & Ea' & NX & _).
      pose proof (head_part e (sa_parts _ _ _ S)) as PO.
      assert (AA : auto_attr (PtExpr e) x).
      { split; [|split; [exact NX|discriminate]]. cbn [part_attrs]. rewrite EA. apply in_or_app. right. left. reflexivity. }
      assert (R0 : ede [] e (set_attrs e a')) by (apply ee_attr; assumption).
      assert (S1 : sane cx (names_expr (set_attrs e a')) (parts_of (set_attrs e a'))).
      { eapply sane_step; [apply okR_e|exact R0|apply bext_refl|apply S|exact S]. }
      apply bind_ok in H. destruct H as (r & cx1 & H1 & H).
      apply bind_ok in H. destruct H as (e1 & cx2 & H2 & H).
      assert (S2 : sane cx1 (names_expr (set_attrs e a')) (parts_of (set_attrs e a'))).
      { destruct x; minv; auto. apply make_child_ok in H1. destruct H1 as (_ & -> & _). apply sane_take. exact S1. }
      pose proof (walk_expr_tame V _ Ve Vs Va _ _ _ H2 S2) as J2.
      destruct (walk_good mk V (set_attrs e a') Ge Gs Ga _ _ _ H2 (sa_mk _ _ _ S2) (sa_nok _ _ _ S2)) as (t1 & R1 & X1).
      destruct r as [er|child].
      - minv. cbn [cx_errs set_errs]. apply Forall_app. split; [exact J2|]. constructor; [|constructor].
        destruct x as [q|q toks|q v]; minv.
        + injection E as ->. apply (po_list J mk _ PO _ AA). intros toks []. 
        + apply make_child_ok in H1. destruct H1 as (_ & _ & HN). symmetry in HN.
          eapply new_errs; [exact PO|exact AA|reflexivity| |exact HN].
          intros m (qs & AS). apply (sa_free _ _ _ S). exists qs. apply names_attrs. exact AS.
        + injection E as ->. apply (po_list J mk _ PO _ AA). intros toks [].
      - unfold in_child in H. destruct x as [q|q toks|q v]; minv; try discriminate.
        destruct (expand_parent_expr ta R e1 b child) as [[e2 child']| |] eqn:HX; try discriminate H. minv.
        apply make_child_ok in H1. destruct H1 as (_ & -> & HN). symmetry in HN.
        destruct (ctx_new_marker mk mk_default _ _ _ _ _ _ _ _ _ FR (nok_attrs mk _ (sa_nok _ _ _ S)) eq_refl HN) as [PC DC].
        assert (VC : cx_variants child = []).
        { pose proof HN as HN'. apply ctx_new_ok in HN'. destruct HN' as (cur & args & m & _ & _ & _ & ->). reflexivity. }
        destruct (okR_e _ _ _ R1) as [I1 P1].
        assert (SC : sane child (names_expr e1) (parts_of e1)).
        { split.
          - exact PC.
          - eapply nok_incl; [exact I1|apply S1].
          - apply P1, S1.
          - assert (I2 : incl (names_expr e1) (names_part (with_attrs (PtExpr e) (l ++ r0)))) by (cbn [with_attrs names_part]; rewrite <- Ea'; exact I1).
            eapply new_free; [exact PO|exact EA|exact AA|reflexivity|exact I2| |exact HN].
            intros m (qs & AS). apply (sa_free _ _ _ S1). exists qs. apply I1. exact AS.
          - apply ctx_new_ok in HN. destruct HN as (cur & args & m & _ & _ & _ & ->). apply S. }
        destruct (expand_parent_expr_good mk ta R G b e1 _ _ _ HX PC (sa_nok _ _ _ SC) VC) as (t2 & R2 & X2 & _).
        eapply join_errs; [eassumption|exact X2|exact J2|].
        eapply parent_expr_errs; [exact HX|exact SC|]. intros _ EW.
        apply (po_else J mk _ PO); [right; eauto|]. cbn [part_ends_well].
        destruct (ends_well e) eqn:EE; [|reflexivity]. rewrite <- (ends_set e a') in EE.
        destruct (edits_ok J mk) as (OE & _). destruct (OE _ _ _ R1) as (_ & K1 & _). rewrite (K1 EE) in EW. discriminate.
    Qed.

    Definition init_of (l : local) : option expr := match l with Local _ _ _ i _ => i end.

    Lemma local_init t l l' : edl t l l' ->
      (init_of l' = None -> init_of l = None) /\ (opt_ok (init_of l) = true -> opt_ok (init_of l') = true).
    Proof.
      destruct (edits_ok J mk) as (_ & _ & OO & _).
      induction 1; cbn [init_of]; auto; [tauto|]. destruct (OO _ _ _ H) as (_ & _ & A & B). auto.
    Qed.

    Lemma let_part l : parts_ok (parts_of_let l) -> part_ok (PtLet l).
    Proof. intros H. destruct l; cbn [parts_of_let] in H; apply ok_cons in H; tauto. Qed.

    Lemma arm_part x : parts_ok (parts_of_arm x) -> part_ok (PtArm x).
    Proof. intros H. destruct x; cbn [parts_of_arm] in H; apply ok_cons in H; tauto. Qed.

    Lemma vs_stmt_errs V s cx s' cx' :
      vis_rok V ->
      (forall e, good ede names_expr (on_expr V) e) -> (forall e, good eds names_stmt (on_stmt V) e) ->
      (forall e, good eda names_arm (on_arm V) e) -> (forall e, good edl names_local (on_local V) e) ->
      vs_visit_stmt hash ta R V s cx = ROk (s', cx') -> sane cx (names_stmt s) (parts_of_stmt s) ->
      Forall J (cx_errs cx').
    Proof.
      intros VR Ge Gs Ga Gl H S. pose proof VR as (Ve & Vs & Va & Vl).
      destruct s as [[a p ty i d]|it|e semi|a m semi]; cbn [vs_visit_stmt] in H.
      2:{ minv. apply S. }
      2:{ minv. match goal with HE : vs_visit_expr _ _ _ _ _ _ _ = _ |- _ => eapply (vs_expr_errs V); [..|exact HE|exact S]; assumption end. }
      2:{ eapply (walk_stmt_tame (on_expr V) (on_local V)); eassumption. }
      destruct (find_remove_attr a NAME) as [[x a']|] eqn:FR.
      2:{ eapply (walk_stmt_tame (on_expr V) (on_local V)); eassumption. }
      pose proof (find_remove_drops _ _ _ _ helper_name FR) as DR.
      pose proof (find_remove_split _ _ _ _ FR) as (l & r0 & EA & Ea' & NX & _).
      assert (PO : part_ok (PtLet (Local a p ty i d))) by (apply let_part; apply (sa_parts _ _ _ S)).
      assert (AA : auto_attr (PtLet (Local a p ty i d)) x).
      { split; [|split; [exact NX|discriminate]]. cbn [part_attrs]. rewrite EA. apply in_or_app. right. left. reflexivity. }
      assert (R0 : eds [] (SLocal (Local a p ty i d)) (SLocal (Local a' p ty i d))) by (constructor; apply el_attr; assumption).
      set (s0 := SLocal (Local a' p ty i d)) in *.
      assert (S1 : sane cx (names_stmt s0) (parts_of_stmt s0)).
      { eapply sane_step; [apply okR_s|exact R0|apply bext_refl|apply S|exact S]. }
      apply bind_ok in H. destruct H as (r & cx1 & H1 & H).
      apply bind_ok in H. destruct H as (s1 & cx2 & H2 & H).
      assert (Q : (r = inl ErrExpectedList /\ cx1 = cx /\ (forall toks, ~ nested_args (PtLet (Local a p ty i d)) x toks))
                   \/ (exists h toks, r = ctx_new (enum_name h) toks false (cx_markers cx) (cx_errs cx)
                         /\ cx1 = set_errs [] (set_markers [] cx) /\ nested_args (PtLet (Local a p ty i d)) x toks
                         /\ match x with MList _ l => toks = l | _ => toks = [] end)).
      { destruct x as [q|q toks|q v]; minv.
        - right. apply make_child_ok in H1. destruct H1 as (_ & -> & ->). do 2 eexists. repeat split; reflexivity.
        - right. apply make_child_ok in H1. destruct H1 as (_ & -> & ->). do 2 eexists. repeat split; reflexivity.
        - left. repeat split. intros toks []. }
      assert (S2 : sane cx1 (names_stmt s0) (parts_of_stmt s0)).
      { destruct Q as [(_ & -> & _)|(h & toks & _ & -> & _)]; [exact S1|apply sane_take; exact S1]. }
      pose proof (walk_stmt_tame (on_expr V) (on_local V) _ Ve Vl _ _ _ H2 S2) as J2.
      destruct (walk_stmt_all mk (on_expr V) (on_local V) s0 Ge Gl _ _ _ H2 (sa_mk _ _ _ S2) (sa_nok _ _ _ S2)) as (t1 & R1 & X1).
      destruct Q as [(-> & -> & NL)|(h & toks & HN & -> & NA & HT)].
      - minv. cbn [cx_errs set_errs]. apply Forall_app. split; [exact J2|]. constructor; [|constructor].
        apply (po_list J mk _ PO _ AA NL).
      - symmetry in HN. destruct r as [er|child].
        + minv. cbn [cx_errs set_errs]. apply Forall_app. split; [exact J2|]. constructor; [|constructor].
          eapply new_errs; [exact PO|exact AA|exact NA| |exact HN].
          intros m (qs & AS). apply (sa_free _ _ _ S). exists qs. apply in_or_app. left. exact AS.
        + unfold in_child in H.
          destruct (expand_parent_stmt ta R s1 child) as [[s2 child']| |] eqn:HX; try discriminate H. minv.
          destruct (ctx_new_marker mk mk_default _ _ _ _ _ _ _ _ _ FR (proj1 (nok_local mk _ _ _ _ _ (sa_nok _ _ _ S))) HT HN) as [PC DC].
          assert (VC : cx_variants child = []).
          { pose proof HN as HN'. apply ctx_new_ok in HN'. destruct HN' as (cur & args & m & _ & _ & _ & ->). reflexivity. }
          destruct (okR_s _ _ _ R1) as [I1 P1].
          assert (SC : sane child (names_stmt s1) (parts_of_stmt s1)).
          { split.
            - exact PC.
            - eapply nok_incl; [exact I1|apply S1].
            - apply P1, S1.
            - assert (I2 : incl (names_stmt s1) (names_part (with_attrs (PtLet (Local a p ty i d)) (l ++ r0)))) by (cbn [with_attrs names_part]; rewrite <- Ea'; exact I1).
              eapply new_free; [exact PO|exact EA|exact AA|exact NA|exact I2| |exact HN].
              intros m (qs & AS). apply (sa_free _ _ _ S1). exists qs. apply I1. exact AS.
            - apply ctx_new_ok in HN. destruct HN as (cur & args & m & _ & _ & _ & ->). apply S. }
          assert (NI : no_item s1 = true) by (inversion R1; reflexivity).
          destruct (expand_parent_stmt_good mk ta R G s1 NI _ _ _ HX PC (sa_nok _ _ _ SC) VC) as (t2 & R2 & X2 & _).
          eapply join_errs; [eassumption|exact X2|exact J2|].
          inversion R1 as [| |t l0 l1 RL|]; subst.
          match type of HX with expand_parent_stmt _ _ (SLocal ?z) _ = _ => destruct z as [b1 p1 ty1 i1 d1] end.
          cbn [expand_parent_stmt] in HX. minv.
          destruct (local_init _ _ _ RL) as [L1 L2]. cbn [init_of] in L1, L2.
          match goal with HE : expand_parent_local _ _ _ _ = _ |- _ => eapply parent_local_errs; [exact HE|exact SC| |] end.
          * intros E. apply L1 in E. subst i. eapply (po_let J mk _ PO); [reflexivity|exact AA].
          * intros E. apply (po_else J mk _ PO); [right; eauto|].
            assert (E' : opt_ok i = false) by (destruct (opt_ok i); [rewrite L2 in E; auto|reflexivity]).
            destruct i; exact E'.
    Qed.

    Lemma v_vis_rok sc : vis_rok (v_vis R sc).
    Proof. split; [|split; [|split]]; intros; [apply vexpr_rok|apply vstmt_rok|apply varm_rok|apply vlocal_rok]. Qed.

    Lemma d_vis_rok : vis_rok (d_vis R).
    Proof.
      pose proof (dvis_good mk R G) as (_ & _ & Ga & Gl). cbn [d_vis on_arm on_local] in Ga, Gl.
      split; [|split; [|split]]; intros; cbn [d_vis on_expr on_stmt on_arm on_local].
      - apply dexpr_rok.
      - apply dstmt_rok.
      - eapply rok_of; [apply okR_a|apply Ga|apply walk_arm_tame; apply dexpr_rok].
      - eapply rok_of; [apply okR_l|apply Gl|apply walk_local_tame; apply dexpr_rok].
    Qed.

    Lemma in_ann a x a' n : find_remove_attr a n = Some (x, a') -> In x a /\ named n x.
    Proof.
      intros H. apply find_remove_split in H. destruct H as (l & r & -> & _ & E & _).
      split; [apply in_or_app; right; left; reflexivity|exact E].
    Qed.

    Lemma visit_expr_errs sc b e cx e' cx' :
      visit_expr hash ta R sc b e cx = ROk (e', cx') -> cx_errs cx = [] -> sane cx (names_expr e) (parts_of e) -> Forall J (cx_errs cx').
    Proof.
      intros H E0 S. unfold visit_expr in H.
      apply bind_ok in H. destruct H as (u0 & cx0 & H0 & H).
      apply massert_ok in H0. destruct H0 as (_ & _ & ->).
      apply bind_ok in H. destruct H as (u & cx1 & H1 & H). cbn zeta in H.
      apply note_child_ok in H1; [|apply nok_child with (mk := mk), nok_attrs; apply S].
      destruct H1 as (X1 & E1 & M1 & _ & _ & _).
      pose proof (sane_ext _ _ _ _ _ X1 E1 S) as S1. clear S. rewrite E0 in E1.
      apply bind_ok in H. destruct H as (mode & cx1' & H1 & H).
      apply gets_ok in H1. destruct H1 as [-> ->].
      set (sc' := check_expr (scope_below sc (e_attrs e)) e) in *.
      apply bind_ok in H. destruct H as (e2 & cx2 & H2 & H).
      apply bind_ok in H. destruct H as (e3 & cx3 & H3 & H).
      apply bind_ok in H. destruct H as (e4 & cx4 & H4 & H).
      apply bind_ok in H. destruct H as (cur & cx4' & H5 & H).
      apply gets_ok in H5. destruct H5 as [-> ->].
      assert (Q2 : (exists t, ede t e e2 /\ ext cx1 t cx2) /\ e_attrs e2 = e_attrs e /\ cx_errs cx2 = cx_errs cx1).
      { destruct (cx_mode cx1).
        - minv. split; [|auto]. exists []. split; [apply ee_refl|apply ext_refl].
        - split; [eapply visit_return_good; [eassumption|apply S1..]|].
          split; [eapply visit_return_attrs; eassumption|eapply visit_return_errs; eassumption].
        - split; [eapply visit_try_good; [eassumption|apply S1..]|].
          split; [eapply visit_try_attrs; eassumption|eapply visit_try_errs; eassumption]. }
      destruct Q2 as ((t2 & R2 & X2) & A2 & E2).
      assert (S2 : sane cx2 (names_expr e2) (parts_of e2)).
      { eapply sane_step; [apply okR_e|exact R2|apply X2|rewrite E2; apply S1|exact S1]. }
      assert (FO : any_attr (e_attrs e) NAME = true -> sc_foreign sc' = true).
      { intros HA. unfold sc'. unfold scope_below. rewrite HA. destruct e; try reflexivity. destruct k; reflexivity. }
      assert (S3 : sane cx3 (names_expr e3) (parts_of e3) /\ (any_attr (e_attrs e3) NAME = true -> cx_errs cx3 = [])).
      { destruct (sc_foreign sc') eqn:F.
        - minv. split; [exact S2|]. congruence.
        - assert (NA : any_attr (e_attrs e2) NAME = false).
          { rewrite A2. destruct (any_attr (e_attrs e) NAME); [|reflexivity]. discriminate (FO eq_refl). }
          destruct (find_remove_attr (e_attrs e2) NESTED) as [[x a']|] eqn:FR.
          + pose proof (find_remove_drops _ _ _ _ helper_nested FR) as DR.
            destruct (in_ann _ _ _ _ FR) as [IX NX]. pose proof (head_part e2 (sa_parts _ _ _ S2)) as PO.
            assert (S2' : sane cx2 (names_expr (set_attrs e2 a')) (parts_of (set_attrs e2 a'))).
            { eapply sane_step; [apply okR_e|apply ee_attr; exact DR|apply bext_refl|apply S2|exact S2]. }
            destruct (visit_nested_good mk sc' x (set_attrs e2 a') _ _ _ H3 (sa_mk _ _ _ S2') (sa_nok _ _ _ S2')) as (t3 & R3 & X3).
            split.
            * eapply sane_step; [apply okR_e|exact R3|apply X3| |exact S2'].
              eapply nested_errs; [exact H3|apply S2| |].
              -- intros PX. apply (po_bare J mk _ PO x); [exact IX|exact NX|right; reflexivity|]. intros q. apply path_only_not. exact PX.
              -- rewrite ends_set. intros EW. apply (po_else J mk _ PO); [left; exists x; auto|exact EW].
            * intros HA. exfalso. apply visit_nested_attrs in H3. rewrite H3 in HA.
              rewrite (e_attrs_set _ _ _ DR) in HA. rewrite (drops_no_name _ _ _ DR NA) in HA. discriminate.
          + minv. split; [exact S2|]. congruence. }
      destruct S3 as [S3 E3]. destruct (vis_good mk R G sc') as (Ge & Gs & Ga & Gl).
      destruct (vs_visit_expr_good mk hash ta mk_default R G _ _ _ _ _ _ Ge Gs Ga H4 (sa_mk _ _ _ S3) (sa_nok _ _ _ S3) E3) as (t4 & R4 & X4).
      pose proof (vs_expr_errs _ _ _ _ _ _ (v_vis_rok sc') Ge Gs Ga H4 S3) as J4.
      assert (S4 : sane cx4 (names_expr e4) (parts_of e4)) by (eapply sane_step; [apply okR_e|exact R4|apply X4|exact J4|exact S3]).
      destruct (negb (sc_foreign sc') || negb (cx_marker cx4 =? DEFAULT_MARKER)); [|minv; exact J4].
      apply bind_ok in H. destruct H as (e5 & cx5 & H5 & H).
      destruct (visit_marker_good mk sc' e4 _ _ _ H5 (sa_mk _ _ _ S4) (sa_nok _ _ _ S4)) as (t5 & R5 & X5).
      pose proof (marker_errs _ _ _ _ _ H5 J4 (sa_mk _ _ _ S4) (head_part _ (sa_parts _ _ _ S4))) as J5.
      assert (S5 : sane cx5 (names_expr e5) (parts_of e5)) by (eapply sane_step; [apply okR_e|exact R5|apply X5|exact J5|exact S4]).
      unfold find_remove_attrs_expr in H. apply bind_ok in H. destruct H as (a6 & cx6 & H6 & H). minv.
      eapply attrs_errs; [exact H6|exact J5| |apply (head_part e5), S5]. reflexivity.
    Qed.

    Lemma visit_arm_errs sc x cx x' cx' :
      visit_arm R sc x cx = ROk (x', cx') -> sane cx (names_arm x) (parts_of_arm x) -> Forall J (cx_errs cx').
    Proof.
      intros H S. destruct x as [a p g b c]. unfold visit_arm in H.
      apply bind_ok in H. destruct H as (x1 & cx1 & H1 & H).
      apply bind_ok in H. destruct H as (x2 & cx2 & H2 & H).
      pose proof (arm_part _ (sa_parts _ _ _ S)) as PO. pose proof (sane_arm _ _ _ _ _ _ S) as [_ Sb].
      assert (S1 : sane cx1 (names_arm x1) (parts_of_arm x1)).
      { destruct (sc_foreign sc); [minv; exact S|].
        destruct (find_remove_attr a NESTED) as [[y a']|] eqn:FR; [|minv; exact S].
        destruct (in_ann _ _ _ _ FR) as [IX NX].
        minv. match goal with HV : visit_nested _ _ _ _ = _ |- _ =>
          destruct (visit_nested_good mk sc y b _ _ _ HV (sa_mk _ _ _ Sb) (sa_nok _ _ _ Sb)) as (t1 & R1 & X1); rename HV into HN end.
        apply (sane_step eda names_arm parts_of_arm cx _ t1 (Arm a p g b c)); [apply okR_a| |apply X1| |exact S].
        - apply (ea_trans mk [] t1 _ (Arm a' p g b c)).
          + apply ea_attr. eapply find_remove_drops; [apply helper_nested|eassumption].
          + apply ea_body. assumption.
        - eapply nested_errs; [exact HN|apply S| |].
          + intros PX. apply (po_bare J mk _ PO y); [exact IX|exact NX|right; reflexivity|]. intros q. apply path_only_not. exact PX.
          + intros EW. apply (po_else J mk _ PO); [left; exists y; auto|exact EW]. }
      destruct (walk_arm_all mk (v_expr R sc) x1 (eg_vexpr mk R G sc false) _ _ _ H2 (sa_mk _ _ _ S1) (sa_nok _ _ _ S1)) as (t2 & R2 & X2).
      pose proof (walk_arm_tame (v_expr R sc) x1 (vexpr_rok sc false) _ _ _ H2 S1) as J2.
      assert (S2 : sane cx2 (names_arm x2) (parts_of_arm x2)) by (eapply sane_step; [apply okR_a|exact R2|apply X2|exact J2|exact S1]).
      destruct x2 as [a2 p2 g2 b2 c2]. minv.
      match goal with HF : find_remove_attrs _ _ _ = _ |- _ =>
        eapply attrs_errs; [exact HF|exact J2| |apply (arm_part _ (sa_parts _ _ _ S2))] end. reflexivity.
    Qed.

    Lemma visit_local_errs sc x cx x' cx' :
      visit_local R sc x cx = ROk (x', cx') -> sane cx (names_local x) (parts_of_let x) -> Forall J (cx_errs cx').
    Proof.
      intros H S. destruct x as [a p ty i d]. unfold visit_local in H.
      apply bind_ok in H. destruct H as (x1 & cx1 & H1 & H).
      apply bind_ok in H. destruct H as (x2 & cx2 & H2 & H).
      pose proof (let_part _ (sa_parts _ _ _ S)) as PO. pose proof (sane_let _ _ _ _ _ _ S) as [Si _].
      assert (S1 : sane cx1 (names_local x1) (parts_of_let x1)).
      { destruct (sc_foreign sc); [minv; exact S|].
        destruct (find_remove_attr a NESTED) as [[y a']|] eqn:FR; [|minv; exact S].
        destruct (in_ann _ _ _ _ FR) as [IX NX].
        minv. match goal with HV : optM _ _ _ = _ |- _ =>
          destruct (optM_good mk (fun e => visit_nested sc e y) i
                      ltac:(destruct i; cbn; [apply visit_nested_good|exact I]) _ _ _ HV (sa_mk _ _ _ Si) (sa_nok _ _ _ Si))
            as (t1 & R1 & X1); rename HV into HN end.
        apply (sane_step edl names_local parts_of_let cx _ t1 (Local a p ty i d)); [apply okR_l| |apply X1| |exact S].
        - apply (el_trans mk [] t1 _ (Local a' p ty i d)).
          + apply el_attr. eapply find_remove_drops; [apply helper_nested|eassumption].
          + rewrite <- (app_nil_r t1). apply el_parts; [assumption|apply eo_refl].
        - apply optM_inv in HN. destruct i as [e|]; [|destruct HN as [_ ->]; apply S]. destruct HN as (e' & HN & _).
          eapply nested_errs; [exact HN|apply S| |].
          + intros PX. apply (po_bare J mk _ PO y); [exact IX|exact NX|right; reflexivity|]. intros q. apply path_only_not. exact PX.
          + intros EW. apply (po_else J mk _ PO); [left; exists y; auto|exact EW]. }
      destruct (walk_local_all mk (v_expr R sc) x1 (eg_vexpr mk R G sc false) _ _ _ H2 (sa_mk _ _ _ S1) (sa_nok _ _ _ S1)) as (t2 & R2 & X2).
      pose proof (walk_local_tame (v_expr R sc) x1 (vexpr_rok sc false) _ _ _ H2 S1) as J2.
      assert (S2 : sane cx2 (names_local x2) (parts_of_let x2)) by (eapply sane_step; [apply okR_l|exact R2|apply X2|exact J2|exact S1]).
      destruct x2 as [a2 p2 ty2 i2 d2]. minv.
      match goal with HF : find_remove_attrs _ _ _ = _ |- _ =>
        eapply attrs_errs; [exact HF|exact J2| |apply (let_part _ (sa_parts _ _ _ S2))] end. reflexivity.
    Qed.

    (** A statement after [note_child]. *)
    Lemma noted_errs V s cx s' cx' :
      vis_rok V ->
      (forall e, good ede names_expr (on_expr V) e) -> (forall e, good eds names_stmt (on_stmt V) e) ->
      (forall e, good eda names_arm (on_arm V) e) -> (forall e, good edl names_local (on_local V) e) ->
      (note_child (s_attrs s) ;;; vs_visit_stmt hash ta R V s) cx = ROk (s', cx') ->
      sane cx (names_stmt s) (parts_of_stmt s) -> Forall J (cx_errs cx').
    Proof.
      intros VR Ge Gs Ga Gl H S. apply bind_ok in H. destruct H as (u & cx1 & H1 & H).
      apply note_child_ok in H1; [|apply nok_child with (mk := mk), nok_sattrs; apply S].
      destruct H1 as (X1 & E1 & _). eapply vs_stmt_errs; [exact VR|exact Ge|exact Gs|exact Ga|exact Gl|exact H|].
      eapply sane_ext; eassumption.
    Qed.

    Lemma visit_stmt_errs sc s cx s' cx' :
      visit_stmt hash ta R sc s cx = ROk (s', cx') -> sane cx (names_stmt s) (parts_of_stmt s) -> Forall J (cx_errs cx').
    Proof.
      intros H S. destruct (vis_good mk R G (scope_below sc (s_attrs s))) as (Ge & Gs & Ga & Gl).
      destruct s; cbn [visit_stmt] in H;
        try (eapply noted_errs; [eapply v_vis_rok|exact Ge|exact Gs|exact Ga|exact Gl|exact H|exact S]).
      minv. match goal with HE : r_vexpr _ _ _ _ _ = _ |- _ => go (vexpr_rok sc semi e) HE S S1 B1 end. apply S1.
    Qed.

    Lemma dummy_stmt_errs s cx s' cx' :
      dummy_stmt hash ta R s cx = ROk (s', cx') -> sane cx (names_stmt s) (parts_of_stmt s) -> Forall J (cx_errs cx').
    Proof.
      intros H S. destruct (dvis_good mk R G) as (Ge & Gs & Ga & Gl).
      eapply noted_errs; [apply d_vis_rok|exact Ge|exact Gs|exact Ga|exact Gl|exact H|exact S].
    Qed.

    Lemma dummy_expr_errs e cx e' cx' :
      dummy_expr hash ta R e cx = ROk (e', cx') -> sane cx (names_expr e) (parts_of e) -> Forall J (cx_errs cx').
    Proof.
      intros H S. destruct (dvis_good mk R G) as (Ge & Gs & Ga & Gl).
      unfold dummy_expr in H. apply bind_ok in H. destruct H as (u & cx1 & H1 & H).
      apply note_child_ok in H1; [|apply nok_child with (mk := mk), nok_attrs; apply S].
      destruct H1 as (X1 & E1 & _). eapply vs_expr_errs; [apply d_vis_rok|exact Ge|exact Gs|exact Ga|exact H|].
      eapply sane_ext; eassumption.
    Qed.
  End Level.

  Theorem engine_is_tame n : engine_tame (engine hash ta n).
  Proof.
    induction n as [|n IH].
    - split; cbn; repeat intro; minv.
    - pose proof (engine_is_good mk hash ta mk_default n) as G.
      split; intros; cbn [engine step r_vexpr r_vstmt r_varm r_vlocal r_dexpr r_dstmt]; intros cx x' cx' H S;
        apply unless_error_ok in H; destruct H as [[-> ->]|[E H]]; try apply S.
      + eapply visit_expr_errs; eassumption.
      + eapply visit_stmt_errs; eassumption.
      + eapply visit_arm_errs; eassumption.
      + eapply visit_local_errs; eassumption.
      + eapply dummy_expr_errs; eassumption.
      + eapply dummy_stmt_errs; eassumption.
  Qed.

End Cause.

(** ** The attribute *)

Lemma fold_flat {A B} (f : A -> list B) l : fold_list (@app B) [] f l = flat_map f l.
Proof. induction l; cbn; [reflexivity|]. f_equal. Qed.

Section Root.
  Variables (hash : node -> N) (ta : bool).

  Definition accounted (args : list token) (i : input) (e : err) : Prop := few e = true \/ cause args i e.

  Lemma input_ok args i : parts_ok (accounted args i) (marker_name args i) (input_parts i).
  Proof.
    apply Forall_forall. intros p I. split; intros; right.
    - eapply ca_bare; eassumption.
    - eapply ca_rec; eassumption.
    - eapply ca_nested_else; eassumption.
    - subst p. eapply ca_nested_uninit; eassumption.
    - subst p. eapply ca_marker; eassumption.
    - eapply ca_list; eassumption.
    - eapply ca_nested_args; eassumption.
    - apply ca_in_use. right. exists p, l, x, r, toks, ps, mo. auto 8.
  Qed.

  Theorem errors_accounted n args i l : attribute hash ta n args i = ROk (Errors l) -> Forall (accounted args i) l.
  Proof.
    unfold attribute. destruct (ctx_root _ args) as [e|cx0] eqn:EC.
    { intros H. injection H as <-. constructor; [|constructor]. right. apply ca_args.
      unfold ctx_root, ctx_new in EC. destruct (parse_args args) as [e'|[ps mo]]; [congruence|]. destruct mo; discriminate EC. }
    destruct (expand_input _ _ i cx0) as [[i' cx']| |] eqn:EI; try discriminate. intros H.
    assert (E : Forall (accounted args i) (cx_errs cx')).
    2:{ destruct (cx_errs cx') eqn:EE; [discriminate H|]. injection H as <-. exact E. }
    clear H l. pose (mk := marker_name args i). pose (K := run_cfg args i).
    assert (D : mk DEFAULT_MARKER = true) by reflexivity.
    assert (JF : forall e, few e = true -> accounted args i e) by (intros e He; left; exact He).
    pose proof (@engine_is_good K mk hash ta D n) as G.
    pose proof (@engine_is_tame K (accounted args i) mk hash ta D JF n) as T.
    unfold ctx_root in EC. apply ctx_new_ok in EC. destruct EC as (cur & ps & m & EP & Ec & _ & ->).
    assert (P : mk cur = true).
    { destruct m as [s|]; rewrite Ec; [|reflexivity]. apply (marker_name_in args i (ps, Some s)); [|reflexivity].
      apply in_or_app. left. unfold names_args. rewrite EP. left. reflexivity. }
    match type of EI with expand_input _ _ _ ?c = _ => assert (S : @sane K (accounted args i) mk c (names_input i) (input_parts i)) end.
    { split; cbn [cx_marker cx_markers cx_errs app].
      - exact P.
      - apply names_input_nok.
      - apply input_ok.
      - intros m0 AS [<-|[]]. right. apply ca_in_use. left. exists ps, m. subst cur. auto.
      - constructor. }
    unfold expand_input in EI. destruct i as [s|e|].
    - apply bind_ok in EI. destruct EI as (s' & cx1 & H1 & H2). minv.
      destruct s as [l|it|e semi|a mc semi]; cbn [expand_parent_stmt] in H1.
      + minv. destruct l as [al p t o d].
        match goal with HE : expand_parent_local _ _ _ _ = _ |- _ =>
          eapply (parent_local_errs _ _ _ JF _ G T); [exact HE|exact S| |] end.
        * intros ->. right. eapply ca_uninit. reflexivity.
        * intros E. right. apply ca_else. destruct o; exact E.
      + destruct it as [a sg out b| |].
        * minv. match goal with HE : expand_parent_item_fn _ _ _ _ _ = _ |- _ =>
            eapply (parent_fn_errs _ _ _ JF _ G T); [exact HE| | |] end.
          -- rewrite (fold_flat parts_of_stmt). exact S.
          -- intros ->. right. eapply ca_empty. reflexivity.
          -- intros E. right. apply ca_else. exact E.
        * minv. constructor; [|constructor]. right. eapply ca_item; [reflexivity|discriminate].
        * minv. constructor; [|constructor]. right. eapply ca_item; [reflexivity|discriminate].
      + minv. match goal with HE : expand_parent_expr _ _ _ _ _ = _ |- _ =>
          eapply (parent_expr_errs _ _ _ JF _ G T); [exact HE|exact S|] end.
        intros -> E. right. apply ca_else. exact E.
      + minv. constructor.
    - apply bind_ok in EI. destruct EI as (s' & cx1 & H1 & H2). minv.
      eapply (parent_expr_errs _ _ _ JF _ G T); [exact H1|exact S|].
      intros _ E. right. apply ca_else. exact E.
    - minv. constructor; [|constructor; [|constructor]]; right; [apply ca_syntax|apply ca_input]; reflexivity.
  Qed.
End Root.
