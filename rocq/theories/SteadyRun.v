(** Proof: the attributes in the code that Steady.v describes never report too few branches. *)

Require Import Coq.Strings.String Coq.Lists.List Coq.Bool.Bool Coq.Arith.Arith Coq.NArith.NArith Lia.
Require Import Verif.Syntax Verif.Context Verif.ExprModel Verif.TypeAnalysis Verif.AutoEnum.
Require Import Verif.AstInd Verif.Edits Verif.AttrFold Verif.RunLemmas Verif.EditsRun.
Require Import Verif.Frame Verif.VisitRun Verif.EngineRun Verif.AttributeRun Verif.Causes Verif.CauseEdits Verif.CauseRun.
Require Import Verif.Tails Verif.FewRun Verif.Steady Verif.SteadyEdits Verif.SteadyBranch.
Import ListNotations.
Open Scope string_scope.
Open Scope list_scope.

(** Not the error about branches. *)
Definition calm (e : err) : Prop := few e = false.

Lemma args_calm : forall toks e, parse_args toks = inl e -> calm e.
Proof.
  intros toks e. unfold parse_args, calm. generalize (S (length toks)), (@nil path), (@None string). intros n. revert toks.
  induction n as [|n IH]; intros toks l m; cbn [parse_args_loop]; [intros H; injection H as <-; reflexivity|].
  destruct toks as [|t ts]; [discriminate|]. cbn zeta.
  assert (N : forall a o r, match r with [] => inr (a, o) | TkComma :: r' => parse_args_loop n r' a o | _ => inl ErrArgSyntax end = inl e -> few e = false).
  { intros a o [|[] r] H; try discriminate; try (injection H as <-; reflexivity). eapply IH. exact H. }
  destruct (peek_marker _) as [[|[] r]|]; intros H; try (injection H as <-; reflexivity).
  - destruct m; [injection H as <-; reflexivity|]. eapply N. exact H.
  - destruct (parse_path _) as [[p r]|]; [|injection H as <-; reflexivity]. eapply N. exact H.
Qed.

Lemma part_calm mk p : part_ok calm mk p.
Proof. split; intros; try reflexivity. eapply args_calm. eassumption. Qed.

Section Steady.
  Context {K : Cfg}.
  Variables (mk : string -> bool) (hash : node -> N) (ta : bool).
  Hypothesis mk_default : mk DEFAULT_MARKER = true.
  Notation J := calm.

  Notation ede := (ed_expr mk).
  Notation eds := (ed_stmt mk).
  Notation eda := (ed_arm mk).
  Notation edl := (ed_local mk).
  Notation good := (good mk).
  Notation nok := (nok mk).
  Notation cgood := (cgood mk).
  Notation namesL := (fold_list (@app nitem) []).
  Notation allL := (fold_list andb true).
  Notation rE := (ready ta false).
  Notation rS := (ready_stmt ta).
  Notation rA := (ready_arm ta).
  Notation rL := (ready_let ta).

  Record sane (cx : ctx) (ns : list nitem) (r : bool) : Prop := Sane {
    sa_mk : mk (cx_marker cx) = true;
    sa_nok : nok ns;
    sa_ready : r = true;
    sa_errs : Forall J (cx_errs cx)
  }.

  Lemma sane_sub cx ns r ns' r' : sane cx ns r -> incl ns' ns -> (r = true -> r' = true) -> sane cx ns' r'.
  Proof. intros [a b c d] I Q. split; auto. eapply nok_incl; eassumption. Qed.

  Lemma sane_app cx n1 n2 r1 r2 : sane cx (n1 ++ n2) (r1 && r2) <-> sane cx n1 r1 /\ sane cx n2 r2.
  Proof.
    split.
    - intros S. split; (eapply sane_sub; [exact S| |]).
      + apply incl_appl, incl_refl. + intros H. apply andb_prop in H. tauto.
      + apply incl_appr, incl_refl. + intros H. apply andb_prop in H. tauto.
    - intros [[a b c d] [a' b' c' d']]. split; auto.
      + apply Forall_app. auto.
      + rewrite c, c'. reflexivity.
  Qed.

  Lemma sane_bext cx cx' ns r : bext cx cx' -> Forall J (cx_errs cx') -> sane cx ns r -> sane cx' ns r.
  Proof. intros B F [a b c d]. split; auto. rewrite (b_marker _ _ B). exact a. Qed.

  Definition okR {A} (R : list label -> A -> A -> Prop) (nm : A -> list nitem) (rd : A -> bool) : Prop :=
    forall t x x', R t x x' -> incl (nm x') (nm x) /\ (rd x = true -> rd x' = true).

  Lemma okR_e b : okR ede names_expr (ready ta b).
  Proof. intros t x x' H. split; [eapply (names_edit mk)|eapply (edits_kept ta mk)]; exact H. Qed.
  Lemma okR_s : okR eds names_stmt rS.
  Proof. intros t x x' H. split; [eapply (names_edit mk)|eapply (edits_kept ta mk)]; exact H. Qed.
  Lemma okR_a : okR eda names_arm rA.
  Proof. intros t x x' H. split; [eapply (names_edit mk)|eapply (edits_kept ta mk)]; exact H. Qed.
  Lemma okR_l : okR edl names_local rL.
  Proof. intros t x x' H. split; [eapply (names_edit mk)|eapply (edits_kept ta mk)]; exact H. Qed.
  Lemma okR_ss : okR (ed_stmts mk) (namesL names_stmt) (ready_stmts ta).
  Proof. intros t x x' H. split; [eapply (names_edit mk)|eapply (edits_kept ta mk)]; exact H. Qed.

  Lemma sane_step {A} R (nm : A -> list nitem) rd cx cx' t x x' :
    okR R nm rd -> R t x x' -> bext cx cx' -> Forall J (cx_errs cx') ->
    sane cx (nm x) (rd x) -> sane cx' (nm x') (rd x').
  Proof.
    intros O HR B F S. destruct (O _ _ _ HR) as [I Q]. eapply sane_sub; [|exact I|exact Q].
    eapply sane_bext; eassumption.
  Qed.

  (** The run adds only errors that are accounted for. *)
  Definition tame {A} (nm : A -> list nitem) (rd : A -> bool) (f : A -> M A) (x : A) : Prop :=
    forall cx x' cx', f x cx = ROk (x', cx') -> sane cx (nm x) (rd x) -> Forall J (cx_errs cx').

  (** ... and leaves the context fit for the code that follows. *)
  Definition rok {A} (nm : A -> list nitem) (rd : A -> bool) (f : A -> M A) (x : A) : Prop :=
    forall cx x' cx', f x cx = ROk (x', cx') -> sane cx (nm x) (rd x) ->
    sane cx' (nm x') (rd x') /\ bext cx cx'.

  Lemma rok_of {A} R (nm : A -> list nitem) rd f x :
    okR R nm rd -> good R nm f x -> tame nm rd f x -> rok nm rd f x.
  Proof.
    intros O G T cx x' cx' H S. destruct (G _ _ _ H (sa_mk _ _ _ S) (sa_nok _ _ _ S)) as (t & HR & X).
    split; [|apply X]. eapply sane_step; [exact O|exact HR|apply X|eapply T; eassumption|exact S].
  Qed.

  Lemma rok_errs {A} (nm : A -> list nitem) rd f x : rok nm rd f x -> tame nm rd f x.
  Proof. intros R cx x' cx' H S. destruct (R _ _ _ H S) as [S' _]. apply S'. Qed.

  (** ** Walks *)

  Lemma mapM_rok {A} (nm : A -> list nitem) rd f l :
    (forall x, rok nm rd f x) -> rok (namesL nm) (allL rd) (mapM f) l.
  Proof.
    intros HF. induction l as [|x r IH]; intros cx l' cx' H S; apply mapM_inv in H.
    - destruct H as [-> ->]. split; [exact S|apply bext_refl].
    - destruct H as (y & cx1 & ys & H1 & H2 & ->). cbn [fold_list fold_right] in S.
      apply sane_app in S. destruct S as [S1 S2].
      destruct (HF _ _ _ _ H1 S1) as [T1 B1].
      assert (S2' : sane cx1 (namesL nm r) (allL rd r)) by (eapply sane_bext; [exact B1|apply T1|exact S2]).
      destruct (IH _ _ _ H2 S2') as [T2 B2]. split; [|eapply bext_trans; eassumption].
      cbn [fold_list fold_right]. apply sane_app. split; [|exact T2].
      eapply sane_bext; [exact B2|apply T2|exact T1].
  Qed.

  Lemma optM_rok f o : (forall x, rok names_expr rE f x) -> rok (fold_opt [] names_expr) (fold_opt true rE) (optM f) o.
  Proof.
    intros HF cx o' cx' H S. apply optM_inv in H. destruct o as [x|].
    - destruct H as (y & H & ->). exact (HF _ _ _ _ H S).
    - destruct H as [-> ->]. split; [exact S|apply bext_refl].
  Qed.

  Lemma sane_kids cx b e : sane cx (names_expr e) (ready ta b e) ->
    match e with
    | EMacro _ _ => True
    | _ => sane cx (fold_expr (@app nitem) [] names_expr names_stmt names_arm e) (fold_expr andb true rE rS rA e)
    end.
  Proof.
    intros S. assert (Q : forall ns r, names_expr e = flat_map attr_marker (e_attrs e) ++ ns ->
      (ready ta b e = true -> r = true) -> sane cx ns r).
    { intros ns r E1 E2. eapply sane_sub; [exact S| |exact E2]. rewrite E1. apply incl_appr, incl_refl. }
    destruct e; try exact I; (apply Q; [reflexivity|]); cbn [ready]; intros H; apply andb_prop in H; apply H.
  Qed.

  Lemma sane_arm cx a p g b c : sane cx (names_arm (Arm a p g b c)) (rA (Arm a p g b c)) ->
    sane cx (fold_opt [] names_expr g) (fold_opt true rE g) /\ sane cx (names_expr b) (rE b).
  Proof.
    intros S. apply sane_app. eapply sane_sub; [exact S| |].
    - unfold names_arm. cbn [af_arm fold_arm]. apply incl_appr, incl_refl.
    - auto.
  Qed.

  Lemma sane_let cx a p t i d : sane cx (names_local (Local a p t i d)) (rL (Local a p t i d)) ->
    sane cx (fold_opt [] names_expr i) (fold_opt true rE i) /\ sane cx (fold_opt [] names_expr d) (fold_opt true rE d).
  Proof.
    intros S. apply sane_app. eapply sane_sub; [exact S| |].
    - unfold names_local. cbn [af_local fold_local]. apply incl_appr, incl_refl.
    - unfold ready_let. intros H. apply andb_prop in H. apply H.
  Qed.

  (** Runs on code that follows. *)
  Ltac go HF H S S' B :=
    destruct (HF _ _ _ H S) as [S' B].
  Ltac after B S' :=
    repeat match goal with
    | H : sane ?c _ _ |- _ =>
        match type of B with bext c _ => apply (sane_bext _ _ _ _ B (sa_errs _ _ _ S')) in H end
    end.

  Ltac goes HF H S :=
    let S' := fresh "T" in let B := fresh "B" in go HF H S S' B; after B S'.

  Lemma walk_arm_tame f x : (forall e, rok names_expr rE f e) -> tame names_arm rA (walk_arm f) x.
  Proof.
    intros HF cx x' cx' H S. destruct x as [a p g b c]. apply sane_arm in S. destruct S as [S1 S2].
    cbn [walk_arm] in H. minv.
    go (optM_rok f g HF) H0 S1 T1 B1. after B1 T1.
    go (HF b) H1 S2 T2 B2. apply T2.
  Qed.

  Lemma walk_local_tame f x : (forall e, rok names_expr rE f e) -> tame names_local rL (walk_local f) x.
  Proof.
    intros HF cx x' cx' H S. destruct x as [a p t i d]. apply sane_let in S. destruct S as [S1 S2].
    cbn [walk_local] in H. minv.
    go (optM_rok f i HF) H0 S1 T1 B1. after B1 T1.
    go (optM_rok f d HF) H1 S2 T2 B2. apply T2.
  Qed.

  Lemma walk_stmt_tame fe fl s :
    (forall e, rok names_expr rE fe e) -> (forall l, rok names_local rL fl l) ->
    tame names_stmt rS (walk_stmt fe fl) s.
  Proof.
    intros He Hl cx x' cx' H S. destruct s; cbn [walk_stmt] in H; minv; try apply S.
    - go (Hl l) H0 S T B. apply T.
    - eapply sane_sub in S; [|apply incl_refl|apply (ready_semi ta)]. go (He e) H0 S T B. apply T.
  Qed.

  Lemma walk_expr_tame V b e :
    (forall e, rok names_expr rE (on_expr V) e) -> (forall s, rok names_stmt rS (on_stmt V) s) ->
    (forall x, rok names_arm rA (on_arm V) x) -> tame names_expr (ready ta b) (walk_expr V) e.
  Proof.
    intros He Hs Ha cx x' cx' H S. pose proof (sa_errs _ _ _ S) as J0. apply (sane_kids _ b) in S.
    clear b; destruct e; cbn [fold_expr] in S; cbn [walk_expr] in H; minv; try exact J0;
      try match type of S with sane _ (_ ++ _ ++ _) _ => apply sane_app in S; destruct S as [S S3]; apply sane_app in S3; destruct S3 as [S3 S4]
          | sane _ (_ ++ _) _ => apply sane_app in S; destruct S as [S S3] end;
      repeat match goal with
      | H0 : on_expr V ?x ?c = ROk _, S : sane ?c (names_expr ?x) _ |- _ => goes (He x) H0 S; clear H0
      | H0 : mapM (on_expr V) ?x ?c = ROk _, S : sane ?c _ _ |- _ => goes (mapM_rok names_expr rE _ x He) H0 S; clear H0
      | H0 : mapM (on_stmt V) ?x ?c = ROk _, S : sane ?c _ _ |- _ => goes (mapM_rok names_stmt rS _ x Hs) H0 S; clear H0
      | H0 : mapM (on_arm V) ?x ?c = ROk _, S : sane ?c _ _ |- _ => goes (mapM_rok names_arm rA _ x Ha) H0 S; clear H0
      | H0 : optM (on_expr V) ?x ?c = ROk _, S : sane ?c _ _ |- _ => goes (optM_rok _ x He) H0 S; clear H0
      end; try (match goal with T : sane ?c _ _ |- Forall J (cx_errs ?c) => apply T end).
  Qed.

  (** ** Enough branches *)

  Notation adds cx cx' k := (length (cx_variants cx) + k <= length (cx_variants cx')).

  Lemma child_calm e cx e' cx' : child_expr e cx = ROk (e', cx') -> Forall J (cx_errs cx) -> Forall J (cx_errs cx').
  Proof. intros H F. eapply (child_errs J); [exact H|exact F|reflexivity]. Qed.

  Lemma build_calm {A} (f : genum -> A -> A) x cx x' cx' :
    build f x cx = ROk (x', cx') -> Forall J (cx_errs cx) -> 2 <= length (cx_variants cx) -> Forall J (cx_errs cx').
  Proof.
    unfold build. intros H J0 L.
    destruct (has_error cx); [inversion H; subst; exact J0|].
    destruct (length (cx_variants cx)) as [|[|n]]; try lia. inversion H; subst; exact J0.
  Qed.

  Record engine_tame (R : engine_t) : Prop := ETame {
    et_vexpr : forall sc b e, tame names_expr (ready ta b) (r_vexpr R sc b) e;
    et_vstmt : forall sc e, tame names_stmt rS (r_vstmt R sc) e;
    et_varm : forall sc e, tame names_arm rA (r_varm R sc) e;
    et_vlocal : forall sc e, tame names_local rL (r_vlocal R sc) e;
    et_dexpr : forall e, tame names_expr rE (r_dexpr R) e;
    et_dstmt : forall e, tame names_stmt rS (r_dstmt R) e
  }.

  Section Level.
    Variable R : engine_t.
    Hypothesis G : engine_good mk R.
    Hypothesis T : engine_tame R.

    Lemma vexpr_rok sc b e : rok names_expr (ready ta b) (r_vexpr R sc b) e.
    Proof. eapply rok_of; [apply okR_e|apply (eg_vexpr mk R G)|apply (et_vexpr R T)]. Qed.
    Lemma vstmt_rok sc e : rok names_stmt rS (r_vstmt R sc) e.
    Proof. eapply rok_of; [apply okR_s|apply (eg_vstmt mk R G)|apply (et_vstmt R T)]. Qed.
    Lemma varm_rok sc e : rok names_arm rA (r_varm R sc) e.
    Proof. eapply rok_of; [apply okR_a|apply (eg_varm mk R G)|apply (et_varm R T)]. Qed.
    Lemma vlocal_rok sc e : rok names_local rL (r_vlocal R sc) e.
    Proof. eapply rok_of; [apply okR_l|apply (eg_vlocal mk R G)|apply (et_vlocal R T)]. Qed.
    Lemma dexpr_rok e : rok names_expr rE (r_dexpr R) e.
    Proof. eapply rok_of; [apply okR_e|apply (eg_dexpr mk R G)|apply (et_dexpr R T)]. Qed.
    Lemma dstmt_rok e : rok names_stmt rS (r_dstmt R) e.
    Proof. eapply rok_of; [apply okR_s|apply (eg_dstmt mk R G)|apply (et_dstmt R T)]. Qed.

    Lemma sane_ext cx cx' t ns ps : ext cx t cx' -> cx_errs cx' = cx_errs cx -> sane cx ns ps -> sane cx' ns ps.
    Proof. intros X E S. eapply sane_bext; [apply X|rewrite E; apply S|exact S]. Qed.

    Lemma body_calm e cx e' cx' :
      expand_body ta R e cx = ROk (e', cx') -> sane cx (names_expr e) (rE e) ->
      Forall J (cx_errs cx') /\ (visit_last cx = true -> two e = true -> adds cx cx' 2).
    Proof.
      intros H S. unfold expand_body in H. minv.
      destruct (child_expr_good mk e _ _ _ H0 (sa_mk _ _ _ S) (sa_nok _ _ _ S)) as (t1 & R1 & X1).
      pose proof (child_calm _ _ _ _ H0 (sa_errs _ _ _ S)) as J1.
      assert (S1 : sane cx0 (names_expr a) (rE a)) by (eapply (sane_step ede names_expr rE); [apply okR_e|exact R1|apply X1|exact J1|exact S]).
      assert (X2 : Forall J (cx_errs cx') /\ exists t, ext cx0 t cx').
      { destruct (ta_dummy ta cx0).
        - destruct (eg_dexpr mk R G a _ _ _ H (sa_mk _ _ _ S1) (sa_nok _ _ _ S1)) as (t & _ & X). go (dexpr_rok a) H S1 S2 B2. split; [apply S2|eauto].
        - destruct (eg_vexpr mk R G _ _ a _ _ _ H (sa_mk _ _ _ S1) (sa_nok _ _ _ S1)) as (t & _ & X). go (vexpr_rok scope0 false a) H S1 S2 B2. split; [apply S2|eauto]. }
      destruct X2 as (F & t & X2). split; [exact F|]. intros V T2. pose proof (child_adds _ _ _ _ H0 V T2). pose proof (variants_grow _ _ _ X2). lia.
    Qed.

    Lemma expand_calm e cx e' cx' :
      expand_expr ta R e cx = ROk (e', cx') -> sane cx (names_expr e) (rE e) ->
      Forall J (cx_errs cx') /\ (visit_last cx = true -> two e = true -> adds cx cx' 2).
    Proof.
      intros H S. unfold expand_expr in H. minv.
      destruct e; try (eapply body_calm; eassumption). destruct (visit_last cx) eqn:V.
      2:{ destruct (body_calm _ _ _ _ H S) as [F A]. split; [exact F|]. discriminate. }
      minv. apply (sane_kids _ false) in S. cbn [fold_expr] in S. split.
      - match goal with HB : expand_body _ _ _ (set_mode ?m _) = _ |- _ =>
          eapply body_calm; [exact HB|eapply sane_ext; [apply (ext_mode m cx)|reflexivity|exact S]] end.
      - intros _ W. cbn [two] in W. rewrite andb_false_r in W. discriminate.
    Qed.

    Lemma parent_expr_calm b e cx e' cx' :
      expand_parent_expr ta R e b cx = ROk (e', cx') -> sane cx (names_expr e) (rE e) ->
      is_dummy cx = true \/ (b = false /\ visit_last cx = true /\ two e = true) -> Forall J (cx_errs cx').
    Proof.
      intros H S W. unfold expand_parent_expr in H.
      apply bind_ok in H. destruct H as (u & cxa & H0 & H).
      assert (X0 : ext cx [] cxa /\ cx_errs cxa = cx_errs cx /\ is_dummy cxa = is_dummy cx /\ (b = false -> cxa = cx)).
      { destruct b; minv; (split; [auto using ext_last, ext_refl|split; [reflexivity|split; [reflexivity|]]]); [discriminate|reflexivity]. }
      destruct X0 as (X0 & E0 & D0 & V0). pose proof (sane_ext _ _ _ _ _ X0 E0 S) as Sa.
      minv. rewrite D0 in H. destruct (is_dummy cx).
      - minv. go (dexpr_rok e) H Sa S2 B2. apply S2.
      - destruct W as [W|(-> & V & W)]; [discriminate|]. specialize (V0 eq_refl). subst cxa. clear H0 D0 E0.
        minv. match goal with HE : expand_expr _ _ _ _ = _ |- _ => destruct (expand_calm _ _ _ _ HE Sa) as [F A] end.
        eapply build_calm; [exact H|exact F|]. specialize (A V W). lia.
    Qed.

    Lemma parent_local_calm a p t i d cx l' cx' :
      expand_parent_local ta R (Local a p t i d) cx = ROk (l', cx') ->
      sane cx (names_local (Local a p t i d)) (rL (Local a p t i d)) ->
      (is_dummy cx = true /\ (ta = false \/ t = None)) \/ (visit_last cx = true /\ match i with Some e => two e | None => true end = true) ->
      Forall J (cx_errs cx').
    Proof.
      intros H S W. cbn [expand_parent_local] in H.
      apply bind_ok in H. destruct H as (t' & cx1 & HT & H).
      assert (E1 : cx_errs cx1 = cx_errs cx /\ visit_last cx1 = visit_last cx /\ (ta = false \/ t = None -> cx1 = cx)).
      { unfold local_ty in HT. destruct ta; [|minv; auto]. destruct t; [|minv; auto].
        minv. destruct (collect_impl_trait _ _ _). minv. split; [reflexivity|]. split; [reflexivity|]. intros [X|X]; discriminate. }
      destruct E1 as (E1 & V1 & D1).
      destruct (local_ty_ok mk ta a p t i d _ _ _ HT) as (R1 & X1 & _).
      pose proof (sane_ext _ _ _ _ _ X1 E1 S) as S1. clear S. minv. destruct (is_dummy cx1) eqn:D.
      - minv. eapply (walk_local_tame (r_dexpr R) (Local a p t' i d)); [apply dexpr_rok|exact H|].
        eapply (sane_step edl names_local rL); [apply okR_l|exact R1|apply bext_refl|apply S1|exact S1].
      - destruct i as [e|].
        + destruct W as [[W1 W2]|[V W]]; [rewrite (D1 W2) in D; congruence|].
          minv. apply sane_let in S1. destruct S1 as [S1 _].
          match goal with HE : expand_expr _ _ _ _ = _ |- _ => destruct (expand_calm _ _ _ _ HE S1) as [F A] end.
          eapply build_calm; [eassumption|exact F|]. rewrite V1 in A. specialize (A V W). lia.
        + minv. cbn [cx_errs set_errs]. apply Forall_app. split; [apply S1|]. constructor; [reflexivity|constructor].
    Qed.

    Lemma parent_fn_calm out b cx b' cx' :
      expand_parent_item_fn ta R out b cx = ROk (b', cx') -> sane cx (namesL names_stmt b) (ready_stmts ta b) ->
      (is_dummy cx = true /\ ta = false) \/
      (visit_last cx = true /\ (forall t, out = Some t -> is_result_impl t = false) /\ on_last two_last false b = true) ->
      Forall J (cx_errs cx').
    Proof.
      intros H S W. unfold expand_parent_item_fn in H.
      apply bind_ok in H. destruct H as (u1 & cx1 & H1 & H).
      apply bind_ok in H. destruct H as (u2 & cx2 & H2 & H).
      destruct (fn_mode_ok _ _ _ _ _ H1) as [X1 _]. destruct (fn_collect_ok _ _ _ _ _ H2) as [X2 _].
      assert (E1 : cx_errs cx1 = cx_errs cx /\ is_dummy cx1 = is_dummy cx
                   /\ (visit_last cx = true -> (forall t, out = Some t -> is_result_impl t = false) -> visit_last cx1 = true)).
      { unfold fn_mode in H1. minv. destruct (match cx_last cx with LDefault => true | LNever => false end) eqn:LD; [|minv; auto].
        destruct out as [[]|]; minv; auto.
        all: try (destruct (is_result_impl _) eqn:RI; minv; auto; destruct (2 <=? _)%nat; minv; auto;
                  split; [reflexivity|split; [reflexivity|]]; intros _ NR; rewrite (NR _ eq_refl) in RI; discriminate).
        split; [reflexivity|split; [reflexivity|]]. intros V _. unfold visit_last in *. cbn [cx_last cx_mode set_mode].
        apply andb_prop in V. destruct V as [-> _]. reflexivity. }
      assert (E2 : cx_errs cx2 = cx_errs cx1 /\ visit_last cx2 = visit_last cx1 /\ (ta = false -> cx2 = cx1)).
      { unfold fn_collect in H2. destruct ta; [|minv; auto]. destruct out; [|minv; auto].
        minv. destruct (collect_impl_trait _ _ _). minv. split; [reflexivity|]. split; [reflexivity|]. discriminate. }
      destruct E1 as (E1 & D1 & V1), E2 as (E2 & V2 & D2).
      pose proof (sane_ext _ _ _ _ _ X1 E1 S) as S1. pose proof (sane_ext _ _ _ _ _ X2 E2 S1) as S2. clear S S1.
      minv. destruct (is_dummy cx2) eqn:D.
      - minv. go (mapM_rok names_stmt rS _ b dstmt_rok) H S2 S3 B3. apply S3.
      - destruct W as [[W1 W2]|(V & NR & W)]; [rewrite (D2 W2) in D; congruence|].
        apply bind_ok in H. destruct H as (b1 & cx3 & H3 & H). destruct b as [|s r]; [discriminate W|].
        destruct (fun HF => map_last_good mk child_expr (s :: r) HF _ _ _ H3 (sa_mk _ _ _ S2) (sa_nok _ _ _ S2)) as (t & R1 & X3).
        { apply Forall_all. intros []; auto. apply child_expr_good. }
        assert (Q : sane cx3 (namesL names_stmt b1) (ready_stmts ta b1)).
        { eapply (sane_step (ed_stmts mk) (namesL names_stmt) (ready_stmts ta)); [apply okR_ss|exact R1|apply X3| |exact S2].
          eapply (map_last_errs J); [|exact H3|apply S2|reflexivity].
          apply Forall_all. intros []; auto. intros. eapply child_calm; eassumption. }
        assert (A : adds cx2 cx3 2).
        { eapply (last_adds child_expr (s :: r)); [|exact H3|rewrite V2; auto|exact W].
          apply Forall_all. intros []; auto. destruct semi; auto. apply child_adds. }
        clear S2. minv. destruct (ta_dummy ta cx3).
        + go (mapM_rok names_stmt rS _ b1 dstmt_rok) H Q S3 B3. apply S3.
        + minv. match goal with HM : mapM _ _ _ = _ |- _ => rename HM into HM' end.
          go (mapM_rok names_stmt rS _ b1 (vstmt_rok scope0)) HM' Q S3 B3.
          eapply build_calm; [eassumption|apply S3|].
          assert (GV : exists t, ext cx3 t cx0).
          { destruct (mapM_good_s mk (r_vstmt R scope0) b1 (eg_vstmt mk R G scope0) _ _ _ HM' (sa_mk _ _ _ Q) (sa_nok _ _ _ Q)) as (t3 & _ & X4). eauto. }
          destruct GV as (t3 & X4). pose proof (variants_grow _ _ _ X4). lia.
    Qed.
    (** *** Nested attributes *)

    Definition vis_rok (V : vis) : Prop :=
      (forall e, rok names_expr rE (on_expr V) e) /\ (forall s, rok names_stmt rS (on_stmt V) s)
      /\ (forall x, rok names_arm rA (on_arm V) x) /\ (forall l, rok names_local rL (on_local V) l).

    Lemma filter_one l x r y : is_auto x = true -> filter is_auto (l ++ x :: r) = [y] ->
      y = x /\ filter (fun z => negb (is_auto z)) (l ++ x :: r) = l ++ r.
    Proof.
      intros X. rewrite !filter_app. cbn [filter]. rewrite X. cbn [negb].
      assert (N : forall k, filter is_auto k = [] -> filter (fun z => negb (is_auto z)) k = k).
      { induction k as [|z k IH]; cbn; [reflexivity|]. destruct (is_auto z); [discriminate|]. cbn. intros H. f_equal. auto. }
      destruct (filter is_auto l) as [|z l0] eqn:L.
      - cbn [app]. intros H. injection H as -> H. split; [reflexivity|]. rewrite (N l L), (N r H). reflexivity.
      - cbn [app]. intros H. injection H as -> H. destruct l0; discriminate.
    Qed.

    Lemma new_calm i toks ms es er : ctx_new i toks false ms es = inl er -> calm er.
    Proof.
      unfold ctx_new. intros H. destruct (parse_args toks) as [e|[ps mo]] eqn:E; [injection H as <-; eapply args_calm; exact E|].
      destruct mo as [m|]; [|discriminate H]. destruct (existsb _ _); [injection H as <-; reflexivity|discriminate H].
    Qed.

    Lemma new_ready i toks ms es child : ctx_new i toks false ms es = inr child ->
      visit_last child = true /\ cx_errs child = es /\ exists ps mo, parse_args toks = inr (ps, mo) /\ (ps = [] -> is_dummy child = true).
    Proof.
      intros H. apply ctx_new_ok in H. destruct H as (cur & ps & mo & HP & _ & _ & ->). split; [reflexivity|]. split; [reflexivity|].
      exists ps, mo. split; [exact HP|]. intros ->. reflexivity.
    Qed.

    Lemma sane_take cx ns ps : sane cx ns ps -> sane (set_errs [] (set_markers [] cx)) ns ps.
    Proof. intros [a b c d]. split; auto. constructor. Qed.

    Lemma join_calm cx2 child' a cx3 :
      join_child child' cx2 = ROk (a, cx3) -> Forall J (cx_errs cx2) -> Forall J (cx_errs child') -> Forall J (cx_errs cx3).
    Proof. intros H J1 J2. apply join_child_ok in H. destruct H as [_ ->]. cbn [cx_errs set_errs]. apply Forall_app. auto. Qed.

    Lemma vs_expr_calm V b e cx e' cx' :
      vis_rok V ->
      (forall e, good ede names_expr (on_expr V) e) -> (forall e, good eds names_stmt (on_stmt V) e) ->
      (forall e, good eda names_arm (on_arm V) e) ->
      vs_visit_expr hash ta R V e b cx = ROk (e', cx') -> sane cx (names_expr e) (ready ta b e) ->
      Forall J (cx_errs cx').
    Proof.
      intros (Ve & Vs & Va & Vl) Ge Gs Ga H S. unfold vs_visit_expr in H.
      destruct (find_remove_attr (e_attrs e) NAME) as [[x a']|] eqn:FR.
      2:{ eapply (walk_expr_tame V b e); eassumption. }
      pose proof (find_remove_drops _ _ _ _ helper_name FR) as DR.
      pose proof (find_remove_split _ _ _ _ FR) as (l & r0 & EA & Ea' & NX & _).
      assert (OW : own_ready b e = true) by (pose proof (sa_ready _ _ _ S) as RD; rewrite ready_eq in RD; apply andb_prop in RD; apply RD).
      assert (R0 : ede [] e (set_attrs e a')) by (apply ee_attr; assumption).
      assert (S1 : sane cx (names_expr (set_attrs e a')) (ready ta b (set_attrs e a'))).
      { eapply (sane_step ede names_expr (ready ta b)); [apply okR_e|exact R0|apply bext_refl|apply S|exact S]. }
      apply bind_ok in H. destruct H as (r & cx1 & H1 & H).
      apply bind_ok in H. destruct H as (e1 & cx2 & H2 & H).
      assert (S2 : sane cx1 (names_expr (set_attrs e a')) (ready ta b (set_attrs e a'))).
      { destruct x; minv; auto. apply make_child_ok in H1. destruct H1 as (_ & -> & _). apply sane_take. exact S1. }
      pose proof (walk_expr_tame V b _ Ve Vs Va _ _ _ H2 S2) as J2.
      destruct (walk_good mk V (set_attrs e a') Ge Gs Ga _ _ _ H2 (sa_mk _ _ _ S2) (sa_nok _ _ _ S2)) as (t1 & R1 & X1).
      destruct r as [er|child].
      - minv. cbn [cx_errs set_errs]. apply Forall_app. split; [exact J2|]. constructor; [|constructor].
        destruct x as [q|q toks|q v]; minv; try (injection E as ->; reflexivity).
        apply make_child_ok in H1. destruct H1 as (_ & _ & HN). symmetry in HN. eapply new_calm. exact HN.
      - unfold in_child in H. destruct x as [q|q toks|q v]; minv; try discriminate.
        destruct (expand_parent_expr ta R e1 b child) as [[e2 child']| |] eqn:HX; try discriminate H. minv.
        apply make_child_ok in H1. destruct H1 as (_ & -> & HN). symmetry in HN.
        destruct (ctx_new_marker mk mk_default _ _ _ _ _ _ _ _ _ FR (nok_attrs mk _ (sa_nok _ _ _ S)) eq_refl HN) as [PC _].
        destruct (new_ready _ _ _ _ _ HN) as (VC & EC & ps & mo & HP & DC).
        destruct (okR_e b _ _ _ R1) as [I1 P1].
        assert (SC : sane child (names_expr e1) (rE e1)).
        { split.
          - exact PC.
          - eapply nok_incl; [exact I1|apply S1].
          - eapply ready_semi. apply P1, S1.
          - rewrite EC. apply S. }
        eapply join_calm; [eassumption|exact J2|].
        eapply parent_expr_calm; [exact HX|exact SC|].
        destruct ps as [|p0 ps0]; [left; auto|right].
        assert (AX : is_auto (MList q toks) = true) by exact NX.
        unfold own_ready in OW. rewrite EA in OW.
        match type of OW with context [filter is_auto ?z] => destruct (filter is_auto z) as [|y [|y2 ys]] eqn:FL end.
        + exfalso. assert (I : In (MList q toks) (filter is_auto (l ++ MList q toks :: r0))).
          { apply filter_In. split; [apply in_or_app; right; left; reflexivity|exact AX]. }
          match type of I with In _ ?z => replace z with (@nil attr) in I by (symmetry; exact FL) end. destruct I.
        + destruct (filter_one _ _ _ _ AX FL) as [-> FN]. rewrite HP in OW. apply andb_prop in OW. destruct OW as [B TW0].
          assert (TW : two (set_attrs e a') = true) by (rewrite Ea', <- FN; exact TW0).
          apply negb_true_iff in B. split; [exact B|]. split; [exact VC|].
          destruct (edits_kept ta mk) as (KE & _). destruct (KE _ _ _ R1) as (_ & KT & _). auto.
        + destruct y; discriminate.
    Qed.

    Lemma local_two t l l' : edl t l l' ->
      match l, l' with Local _ _ t0 i _, Local _ _ t1 i1 _ =>
        (t0 = None -> t1 = None)
        /\ (match i with Some e => two e | None => true end = true -> match i1 with Some e => two e | None => true end = true) end.
    Proof.
      destruct (edits_kept ta mk) as (_ & _ & KO & _).
      induction 1; auto.
      - destruct x1, x2, x3. intuition.
      - split; [auto|]. match goal with H : ed_opt _ _ i i' |- _ => destruct (KO _ _ _ H) as [_ KX] end.
        destruct i, i'; try contradiction; auto. apply KX.
    Qed.

    Lemma vs_stmt_calm V s cx s' cx' :
      vis_rok V ->
      (forall e, good ede names_expr (on_expr V) e) -> (forall e, good eds names_stmt (on_stmt V) e) ->
      (forall e, good eda names_arm (on_arm V) e) -> (forall e, good edl names_local (on_local V) e) ->
      vs_visit_stmt hash ta R V s cx = ROk (s', cx') -> sane cx (names_stmt s) (rS s) ->
      Forall J (cx_errs cx').
    Proof.
      intros VR Ge Gs Ga Gl H S. pose proof VR as (Ve & Vs & Va & Vl).
      destruct s as [[a p ty i d]|it|e semi|a m semi]; cbn [vs_visit_stmt] in H.
      2:{ minv. apply S. }
      2:{ minv. match goal with HE : vs_visit_expr _ _ _ _ _ _ _ = _ |- _ => eapply (vs_expr_calm V); [..|exact HE|exact S]; assumption end. }
      2:{ eapply (walk_stmt_tame (on_expr V) (on_local V)); eassumption. }
      destruct (find_remove_attr a NAME) as [[x a']|] eqn:FR.
      2:{ eapply (walk_stmt_tame (on_expr V) (on_local V)); eassumption. }
      pose proof (find_remove_drops _ _ _ _ helper_name FR) as DR.
      pose proof (find_remove_split _ _ _ _ FR) as (l & r0 & EA & Ea' & NX & _).
      assert (LW : let_ready ta (Local a p ty i d) = true) by (pose proof (sa_ready _ _ _ S) as RD; apply andb_prop in RD; apply RD).
      assert (R0 : eds [] (SLocal (Local a p ty i d)) (SLocal (Local a' p ty i d))) by (constructor; apply el_attr; assumption).
      set (s0 := SLocal (Local a' p ty i d)) in *.
      assert (S1 : sane cx (names_stmt s0) (rS s0)).
      { eapply (sane_step eds names_stmt rS); [apply okR_s|exact R0|apply bext_refl|apply S|exact S]. }
      apply bind_ok in H. destruct H as (r & cx1 & H1 & H).
      apply bind_ok in H. destruct H as (s1 & cx2 & H2 & H).
      assert (Q : (r = inl ErrExpectedList /\ cx1 = cx)
                   \/ (exists h toks, r = ctx_new (enum_name h) toks false (cx_markers cx) (cx_errs cx)
                         /\ cx1 = set_errs [] (set_markers [] cx)
                         /\ match x with MList _ l => toks = l | MPath _ => toks = [] | _ => False end)).
      { destruct x as [q|q toks|q v]; minv.
        - right. apply make_child_ok in H1. destruct H1 as (_ & -> & ->). do 2 eexists. repeat split; reflexivity.
        - right. apply make_child_ok in H1. destruct H1 as (_ & -> & ->). do 2 eexists. repeat split; reflexivity.
        - left. repeat split. }
      assert (S2 : sane cx1 (names_stmt s0) (rS s0)).
      { destruct Q as [(_ & ->)|(h & toks & _ & -> & _)]; [exact S1|apply sane_take; exact S1]. }
      pose proof (walk_stmt_tame (on_expr V) (on_local V) _ Ve Vl _ _ _ H2 S2) as J2.
      destruct (walk_stmt_all mk (on_expr V) (on_local V) s0 Ge Gl _ _ _ H2 (sa_mk _ _ _ S2) (sa_nok _ _ _ S2)) as (t1 & R1 & X1).
      destruct Q as [(-> & ->)|(h & toks & HN & -> & HT)].
      - minv. cbn [cx_errs set_errs]. apply Forall_app. split; [exact J2|]. constructor; [reflexivity|constructor].
      - symmetry in HN. destruct r as [er|child].
        + minv. cbn [cx_errs set_errs]. apply Forall_app. split; [exact J2|]. constructor; [|constructor].
          eapply new_calm. exact HN.
        + unfold in_child in H.
          destruct (expand_parent_stmt ta R s1 child) as [[s2 child']| |] eqn:HX; try discriminate H. minv.
          assert (HT' : match x with MList _ l => toks = l | _ => toks = [] end) by (destruct x; auto; contradiction).
          destruct (ctx_new_marker mk mk_default _ _ _ _ _ _ _ _ _ FR (proj1 (nok_local mk _ _ _ _ _ (sa_nok _ _ _ S))) HT' HN) as [PC _].
          destruct (new_ready _ _ _ _ _ HN) as (VC & EC & ps & mo & HP & DC).
          destruct (okR_s _ _ _ R1) as [I1 P1].
          assert (SC : sane child (names_stmt s1) (rS s1)).
          { split.
            - exact PC.
            - eapply nok_incl; [exact I1|apply S1].
            - apply P1, S1.
            - rewrite EC. apply S. }
          eapply join_calm; [eassumption|exact J2|].
          inversion R1 as [| |t l0 l1 RL|]; subst.
          match type of HX with expand_parent_stmt _ _ (SLocal ?z) _ = _ => destruct z as [b1 p1 ty1 i1 d1] end.
          cbn [expand_parent_stmt] in HX. minv.
          destruct (local_two _ _ _ RL) as [L1 L2].
          match goal with HE : expand_parent_local _ _ _ _ = _ |- _ => eapply parent_local_calm; [exact HE|exact SC|] end.
          assert (AX : is_auto x = true) by exact NX.
          unfold let_ready in LW.
          match type of LW with context [filter is_auto ?z] => destruct (filter is_auto z) as [|y [|y2 ys]] eqn:FL end.
          * exfalso. assert (I : In x (filter is_auto (l ++ x :: r0))).
            { apply filter_In. split; [apply in_or_app; right; left; reflexivity|exact AX]. }
            match type of I with In _ ?z => replace z with (@nil attr) in I by (symmetry; exact FL) end. destruct I.
          * destruct (filter_one _ _ _ _ AX FL) as [-> FN].
            assert (LW' : match ps with [] => negb ta || match ty with None => true | _ => false end | _ => false end
                          || match i with Some e => two e | None => true end = true).
            { destruct x; try contradiction; subst toks; cbn iota in LW; rewrite HP in LW; exact LW. }
            apply orb_prop in LW'. destruct LW' as [W|W].
            -- left. destruct ps; [|discriminate]. split; [auto|]. apply orb_prop in W. destruct W as [W|W].
               ++ left. apply negb_true_iff. exact W.
               ++ right. apply L1. destruct ty; [discriminate|reflexivity].
            -- right. split; [exact VC|]. auto.
          * destruct y; discriminate.
    Qed.

    Lemma v_vis_rok sc : vis_rok (v_vis R sc).
    Proof. split; [|split; [|split]]; intros; [apply (vexpr_rok sc false)|apply vstmt_rok|apply varm_rok|apply vlocal_rok]. Qed.

    Lemma d_vis_rok : vis_rok (d_vis R).
    Proof.
      pose proof (dvis_good mk R G) as (_ & _ & Ga & Gl). cbn [d_vis on_arm on_local] in Ga, Gl.
      split; [|split; [|split]]; intros; cbn [d_vis on_expr on_stmt on_arm on_local].
      - apply dexpr_rok.
      - apply dstmt_rok.
      - eapply rok_of; [apply okR_a|apply Ga|apply walk_arm_tame; apply dexpr_rok].
      - eapply rok_of; [apply okR_l|apply Gl|apply walk_local_tame; apply dexpr_rok].
    Qed.

    Lemma visit_expr_calm sc b e cx e' cx' :
      visit_expr hash ta R sc b e cx = ROk (e', cx') -> cx_errs cx = [] -> sane cx (names_expr e) (ready ta b e) -> Forall J (cx_errs cx').
    Proof.
      intros H E0 S. unfold visit_expr in H.
      apply bind_ok in H. destruct H as (u0 & cx0 & H0 & H).
      apply massert_ok in H0. destruct H0 as (_ & _ & ->).
      apply bind_ok in H. destruct H as (u & cx1 & H1 & H). cbn zeta in H.
      apply note_child_ok in H1; [|apply nok_child with (mk := mk), nok_attrs; apply S].
      destruct H1 as (X1 & E1 & M1 & _ & _ & _).
      pose proof (sane_ext _ _ _ _ _ X1 E1 S) as S1. clear S. rewrite E0 in E1.
      apply bind_ok in H. destruct H as (mode & cx1' & H1 & H).
      apply gets_ok in H1. destruct H1 as [-> ->].
      set (sc' := check_expr (scope_below sc (e_attrs e)) e) in *.
      apply bind_ok in H. destruct H as (e2 & cx2 & H2 & H).
      apply bind_ok in H. destruct H as (e3 & cx3 & H3 & H).
      apply bind_ok in H. destruct H as (e4 & cx4 & H4 & H).
      apply bind_ok in H. destruct H as (cur & cx4' & H5 & H).
      apply gets_ok in H5. destruct H5 as [-> ->].
      assert (Q2 : (exists t, ede t e e2 /\ ext cx1 t cx2) /\ e_attrs e2 = e_attrs e /\ cx_errs cx2 = cx_errs cx1).
      { destruct (cx_mode cx1).
        - minv. split; [|auto]. exists []. split; [apply ee_refl|apply ext_refl].
        - split; [eapply visit_return_good; [eassumption|apply S1..]|].
          split; [eapply visit_return_attrs; eassumption|eapply visit_return_errs; eassumption].
        - split; [eapply visit_try_good; [eassumption|apply S1..]|].
          split; [eapply visit_try_attrs; eassumption|eapply visit_try_errs; eassumption]. }
      destruct Q2 as ((t2 & R2 & X2) & A2 & E2).
      assert (S2 : sane cx2 (names_expr e2) (ready ta b e2)).
      { eapply (sane_step ede names_expr (ready ta b)); [apply okR_e|exact R2|apply X2|rewrite E2; apply S1|exact S1]. }
      assert (FO : any_attr (e_attrs e) NAME = true -> sc_foreign sc' = true).
      { intros HA. unfold sc'. unfold scope_below. rewrite HA. destruct e; try reflexivity. destruct k; reflexivity. }
      assert (S3 : sane cx3 (names_expr e3) (ready ta b e3) /\ (any_attr (e_attrs e3) NAME = true -> cx_errs cx3 = [])).
      { destruct (sc_foreign sc') eqn:F.
        - minv. split; [exact S2|]. congruence.
        - assert (NA : any_attr (e_attrs e2) NAME = false).
          { rewrite A2. destruct (any_attr (e_attrs e) NAME); [|reflexivity]. discriminate (FO eq_refl). }
          destruct (find_remove_attr (e_attrs e2) NESTED) as [[x a']|] eqn:FR.
          + pose proof (find_remove_drops _ _ _ _ helper_nested FR) as DR.
            assert (S2' : sane cx2 (names_expr (set_attrs e2 a')) (ready ta b (set_attrs e2 a'))).
            { eapply (sane_step ede names_expr (ready ta b)); [apply okR_e|apply ee_attr; exact DR|apply bext_refl|apply S2|exact S2]. }
            destruct (visit_nested_good mk sc' x (set_attrs e2 a') _ _ _ H3 (sa_mk _ _ _ S2') (sa_nok _ _ _ S2')) as (t3 & R3 & X3).
            split.
            * eapply (sane_step ede names_expr (ready ta b)); [apply okR_e|exact R3|apply X3| |exact S2'].
              eapply (nested_errs J); [exact H3|apply S2|reflexivity|reflexivity].
            * intros HA. exfalso. apply visit_nested_attrs in H3. rewrite H3 in HA.
              rewrite (e_attrs_set _ _ _ DR) in HA. rewrite (drops_no_name _ _ _ DR NA) in HA. discriminate.
          + minv. split; [exact S2|]. congruence. }
      destruct S3 as [S3 E3]. destruct (vis_good mk R G sc') as (Ge & Gs & Ga & Gl).
      destruct (vs_visit_expr_good mk hash ta mk_default R G _ _ _ _ _ _ Ge Gs Ga H4 (sa_mk _ _ _ S3) (sa_nok _ _ _ S3) E3) as (t4 & R4 & X4).
      pose proof (vs_expr_calm _ _ _ _ _ _ (v_vis_rok sc') Ge Gs Ga H4 S3) as J4.
      assert (S4 : sane cx4 (names_expr e4) (ready ta b e4)) by (eapply (sane_step ede names_expr (ready ta b)); [apply okR_e|exact R4|apply X4|exact J4|exact S3]).
      destruct (negb (sc_foreign sc') || negb (cx_marker cx4 =? DEFAULT_MARKER)); [|minv; exact J4].
      apply bind_ok in H. destruct H as (e5 & cx5 & H5 & H).
      destruct (visit_marker_good mk sc' e4 _ _ _ H5 (sa_mk _ _ _ S4) (sa_nok _ _ _ S4)) as (t5 & R5 & X5).
      pose proof (marker_errs J mk _ _ _ _ _ H5 J4 (sa_mk _ _ _ S4) (part_calm mk _)) as J5.
      assert (S5 : sane cx5 (names_expr e5) (ready ta b e5)) by (eapply (sane_step ede names_expr (ready ta b)); [apply okR_e|exact R5|apply X5|exact J5|exact S4]).
      unfold find_remove_attrs_expr in H. apply bind_ok in H. destruct H as (a6 & cx6 & H6 & H). minv.
      eapply (attrs_errs J mk _ (PtExpr e5)); [exact H6|exact J5|reflexivity|apply part_calm].
    Qed.

    Lemma visit_arm_calm sc x cx x' cx' :
      visit_arm R sc x cx = ROk (x', cx') -> sane cx (names_arm x) (rA x) -> Forall J (cx_errs cx').
    Proof.
      intros H S. destruct x as [a p g b c]. unfold visit_arm in H.
      apply bind_ok in H. destruct H as (x1 & cx1 & H1 & H).
      apply bind_ok in H. destruct H as (x2 & cx2 & H2 & H).
      pose proof (sane_arm _ _ _ _ _ _ S) as [_ Sb].
      assert (S1 : sane cx1 (names_arm x1) (rA x1)).
      { destruct (sc_foreign sc); [minv; exact S|].
        destruct (find_remove_attr a NESTED) as [[y a']|] eqn:FR; [|minv; exact S].
        minv. match goal with HV : visit_nested _ _ _ _ = _ |- _ =>
          destruct (visit_nested_good mk sc y b _ _ _ HV (sa_mk _ _ _ Sb) (sa_nok _ _ _ Sb)) as (t1 & R1 & X1); rename HV into HN end.
        apply (sane_step eda names_arm rA cx _ t1 (Arm a p g b c)); [apply okR_a| |apply X1| |exact S].
        - apply (ea_trans mk [] t1 _ (Arm a' p g b c)).
          + apply ea_attr. eapply find_remove_drops; [apply helper_nested|eassumption].
          + apply ea_body. assumption.
        - eapply (nested_errs J); [exact HN|apply S|reflexivity|reflexivity]. }
      destruct (walk_arm_all mk (v_expr R sc) x1 (eg_vexpr mk R G sc false) _ _ _ H2 (sa_mk _ _ _ S1) (sa_nok _ _ _ S1)) as (t2 & R2 & X2).
      pose proof (walk_arm_tame (v_expr R sc) x1 (vexpr_rok sc false) _ _ _ H2 S1) as J2.
      assert (S2 : sane cx2 (names_arm x2) (rA x2)) by (eapply (sane_step eda names_arm rA); [apply okR_a|exact R2|apply X2|exact J2|exact S1]).
      destruct x2 as [a2 p2 g2 b2 c2]. minv.
      match goal with HF : find_remove_attrs _ _ _ = _ |- _ =>
        eapply (attrs_errs J mk _ (PtArm (Arm a2 p2 g2 b2 c2))); [exact HF|exact J2|reflexivity|apply part_calm] end.
    Qed.

    Lemma visit_local_calm sc x cx x' cx' :
      visit_local R sc x cx = ROk (x', cx') -> sane cx (names_local x) (rL x) -> Forall J (cx_errs cx').
    Proof.
      intros H S. destruct x as [a p ty i d]. unfold visit_local in H.
      apply bind_ok in H. destruct H as (x1 & cx1 & H1 & H).
      apply bind_ok in H. destruct H as (x2 & cx2 & H2 & H).
      pose proof (sane_let _ _ _ _ _ _ S) as [Si _].
      assert (S1 : sane cx1 (names_local x1) (rL x1)).
      { destruct (sc_foreign sc); [minv; exact S|].
        destruct (find_remove_attr a NESTED) as [[y a']|] eqn:FR; [|minv; exact S].
        minv. match goal with HV : optM _ _ _ = _ |- _ =>
          destruct (optM_good mk (fun e => visit_nested sc e y) i
                      ltac:(destruct i; cbn; [apply visit_nested_good|exact I]) _ _ _ HV (sa_mk _ _ _ Si) (sa_nok _ _ _ Si))
            as (t1 & R1 & X1); rename HV into HN end.
        apply (sane_step edl names_local rL cx _ t1 (Local a p ty i d)); [apply okR_l| |apply X1| |exact S].
        - apply (el_trans mk [] t1 _ (Local a' p ty i d)).
          + apply el_attr. eapply find_remove_drops; [apply helper_nested|eassumption].
          + rewrite <- (app_nil_r t1). apply el_parts; [assumption|apply eo_refl].
        - apply optM_inv in HN. destruct i as [e|]; [|destruct HN as [_ ->]; apply S]. destruct HN as (e' & HN & _).
          eapply (nested_errs J); [exact HN|apply S|reflexivity|reflexivity]. }
      destruct (walk_local_all mk (v_expr R sc) x1 (eg_vexpr mk R G sc false) _ _ _ H2 (sa_mk _ _ _ S1) (sa_nok _ _ _ S1)) as (t2 & R2 & X2).
      pose proof (walk_local_tame (v_expr R sc) x1 (vexpr_rok sc false) _ _ _ H2 S1) as J2.
      assert (S2 : sane cx2 (names_local x2) (rL x2)) by (eapply (sane_step edl names_local rL); [apply okR_l|exact R2|apply X2|exact J2|exact S1]).
      destruct x2 as [a2 p2 ty2 i2 d2]. minv.
      match goal with HF : find_remove_attrs _ _ _ = _ |- _ =>
        eapply (attrs_errs J mk _ (PtLet (Local a2 p2 ty2 i2 d2))); [exact HF|exact J2|reflexivity|apply part_calm] end.
    Qed.

    (** A statement after [note_child]. *)
    Lemma noted_calm V s cx s' cx' :
      vis_rok V ->
      (forall e, good ede names_expr (on_expr V) e) -> (forall e, good eds names_stmt (on_stmt V) e) ->
      (forall e, good eda names_arm (on_arm V) e) -> (forall e, good edl names_local (on_local V) e) ->
      (note_child (s_attrs s) ;;; vs_visit_stmt hash ta R V s) cx = ROk (s', cx') ->
      sane cx (names_stmt s) (rS s) -> Forall J (cx_errs cx').
    Proof.
      intros VR Ge Gs Ga Gl H S. apply bind_ok in H. destruct H as (u & cx1 & H1 & H).
      apply note_child_ok in H1; [|apply nok_child with (mk := mk), nok_sattrs; apply S].
      destruct H1 as (X1 & E1 & _). eapply vs_stmt_calm; [exact VR|exact Ge|exact Gs|exact Ga|exact Gl|exact H|].
      eapply sane_ext; eassumption.
    Qed.

    Lemma visit_stmt_calm sc s cx s' cx' :
      visit_stmt hash ta R sc s cx = ROk (s', cx') -> sane cx (names_stmt s) (rS s) -> Forall J (cx_errs cx').
    Proof.
      intros H S. destruct (vis_good mk R G (scope_below sc (s_attrs s))) as (Ge & Gs & Ga & Gl).
      destruct s; cbn [visit_stmt] in H;
        try (eapply noted_calm; [eapply v_vis_rok|exact Ge|exact Gs|exact Ga|exact Gl|exact H|exact S]).
      minv. match goal with HE : r_vexpr _ _ _ _ _ = _ |- _ => go (vexpr_rok sc semi e) HE S S1 B1 end. apply S1.
    Qed.

    Lemma dummy_stmt_calm s cx s' cx' :
      dummy_stmt hash ta R s cx = ROk (s', cx') -> sane cx (names_stmt s) (rS s) -> Forall J (cx_errs cx').
    Proof.
      intros H S. destruct (dvis_good mk R G) as (Ge & Gs & Ga & Gl).
      eapply noted_calm; [apply d_vis_rok|exact Ge|exact Gs|exact Ga|exact Gl|exact H|exact S].
    Qed.

    Lemma dummy_expr_calm e cx e' cx' :
      dummy_expr hash ta R e cx = ROk (e', cx') -> sane cx (names_expr e) (rE e) -> Forall J (cx_errs cx').
    Proof.
      intros H S. destruct (dvis_good mk R G) as (Ge & Gs & Ga & Gl).
      unfold dummy_expr in H. apply bind_ok in H. destruct H as (u & cx1 & H1 & H).
      apply note_child_ok in H1; [|apply nok_child with (mk := mk), nok_attrs; apply S].
      destruct H1 as (X1 & E1 & _). eapply vs_expr_calm; [apply d_vis_rok|exact Ge|exact Gs|exact Ga|exact H|].
      eapply sane_ext; eassumption.
    Qed.
  End Level.

  Theorem engine_is_tame n : engine_tame (engine hash ta n).
  Proof.
    induction n as [|n IH].
    - split; cbn; repeat intro; minv.
    - pose proof (engine_is_good mk hash ta mk_default n) as G.
      split; intros; cbn [engine step r_vexpr r_vstmt r_varm r_vlocal r_dexpr r_dstmt]; intros cx x' cx' H S;
        apply unless_error_ok in H; destruct H as [[-> ->]|[E H]]; try apply S.
      + eapply visit_expr_calm; eassumption.
      + eapply visit_stmt_calm; eassumption.
      + eapply visit_arm_calm; eassumption.
      + eapply visit_local_calm; eassumption.
      + eapply dummy_expr_calm; eassumption.
      + eapply dummy_stmt_calm; eassumption.
  Qed.

End Steady.

(** ** The attribute *)

(** The return type is not [Result<_, impl ..>]. *)
Definition no_result (i : input) : Prop :=
  forall a sg t b, i = InStmt (SItem (IFn a sg (Some t) b)) -> is_result_impl t = false.

Theorem steady_calm hash ta n args ps mo i l :
  parse_args args = inr (ps, mo) -> ready_input ta ps i = true -> no_result i ->
  attribute hash ta n args i = ROk (Errors l) -> Forall calm l.
Proof.
  intros HP RI NR. unfold attribute. destruct (ctx_root _ args) as [e|cx0] eqn:EC.
  { intros H. injection H as <-. unfold ctx_root, ctx_new in EC. rewrite HP in EC. destruct mo; discriminate EC. }
  destruct (expand_input _ _ i cx0) as [[i' cx']| |] eqn:EI; try discriminate. intros H.
  assert (E : Forall calm (cx_errs cx')).
  2:{ destruct (cx_errs cx') eqn:EE; [discriminate H|]. injection H as <-. exact E. }
  clear H l. pose (mk := marker_name args i). pose (K := run_cfg args i).
  assert (D : mk DEFAULT_MARKER = true) by reflexivity.
  pose proof (@engine_is_good K mk hash ta D n) as G.
  pose proof (@engine_is_tame K mk hash ta D n) as T.
  unfold ctx_root in EC. apply ctx_new_ok in EC. destruct EC as (cur & ps' & m & EP & Ec & _ & ->).
  rewrite HP in EP. injection EP as <- <-.
  assert (P : mk cur = true).
  { destruct mo as [s|]; rewrite Ec; [|reflexivity]. apply (marker_name_in args i (ps, Some s)); [|reflexivity].
    apply in_or_app. left. unfold names_args. rewrite HP. left. reflexivity. }
  match type of EI with expand_input _ _ _ ?c = _ => set (cx := c) in * end.
  assert (SA : forall ns r, nok mk ns -> r = true -> sane mk cx ns r) by (intros ns r A B; split; [exact P|exact A|exact B|constructor]).
  pose proof (names_input_nok args i) as NK. fold mk in NK.
  assert (DU : match ps with [] => negb ta | _ => false end = true -> is_dummy cx = true /\ ta = false).
  { destruct ps; [|discriminate]. intros H. split; [reflexivity|apply negb_true_iff; exact H]. }
  unfold expand_input in EI. destruct i as [s|e|].
  - apply bind_ok in EI. destruct EI as (s' & cx1 & H1 & H2). minv.
    destruct s as [l|it|e semi|a mc semi]; cbn [expand_parent_stmt] in H1.
    + minv. destruct l as [al p t o d]. cbn [ready_input] in RI. apply andb_prop in RI. destruct RI as [R1 R2].
      match goal with HE : expand_parent_local _ _ _ _ = _ |- _ =>
        eapply (parent_local_calm _ _ _ G T); [exact HE|apply SA; [exact NK|exact R2]|] end.
      apply orb_prop in R1. destruct R1 as [R1|R1]; [left; destruct (DU R1); auto|right; auto].
    + destruct it as [a sg out b| |].
      * minv. cbn [ready_input] in RI. apply andb_prop in RI. destruct RI as [R1 R2].
        match goal with HE : expand_parent_item_fn _ _ _ _ _ = _ |- _ =>
          eapply (parent_fn_calm _ _ _ G T); [exact HE|apply SA; [exact NK|exact R2]|] end.
        apply orb_prop in R1. destruct R1 as [R1|R1]; [left; apply DU; exact R1|right].
        split; [reflexivity|]. split; [|exact R1]. intros t ->. eapply NR. reflexivity.
      * minv. constructor; [reflexivity|constructor].
      * minv. constructor; [reflexivity|constructor].
    + minv. cbn [ready_input] in RI. apply andb_prop in RI. destruct RI as [R1 R2].
      match goal with HE : expand_parent_expr _ _ _ _ _ = _ |- _ =>
        eapply (parent_expr_calm _ _ _ G T); [exact HE|apply SA; [exact NK|eapply ready_semi; exact R2]|] end.
      apply orb_prop in R1. destruct R1 as [R1|R1]; [left; apply DU; exact R1|right].
      apply andb_prop in R1. destruct R1 as [R1 R3]. apply negb_true_iff in R1. auto.
    + minv. constructor.
  - apply bind_ok in EI. destruct EI as (s' & cx1 & H1 & H2). minv.
    cbn [ready_input] in RI. apply andb_prop in RI. destruct RI as [R1 R2].
    eapply (parent_expr_calm _ _ _ G T); [exact H1|apply SA; [exact NK|exact R2]|].
    apply orb_prop in R1. destruct R1 as [R1|R1]; [left; apply DU; exact R1|right; auto].
  - minv. constructor; [reflexivity|constructor; [reflexivity|constructor]].
Qed.
