(** Proof: an attribute with traits on code where it finds nothing to wrap. *)

Require Import Coq.Strings.String Coq.Lists.List Coq.Bool.Bool Coq.Arith.Arith Coq.NArith.NArith Lia.
Require Import Verif.Syntax Verif.Context Verif.ExprModel Verif.TypeAnalysis Verif.AutoEnum.
Require Import Verif.AstInd Verif.RunLemmas Verif.Tails Verif.ArgsSpec Verif.TraitRun Verif.ArgsRun Verif.ContextRun Verif.ExitsTop Verif.OutsideRun Verif.Alike Verif.RootRun
  Verif.Spare Verif.SpareEdits Verif.SpareRun Verif.SpareSites.
Import ListNotations.
Open Scope string_scope.
Open Scope list_scope.

Lemma taken_any (ta : bool) ps i :
  (forall t bs q, ta = true -> annotated_type i = Some t -> In bs (impls t) -> In q (bounds_traits bs) -> ~ new_trait [] q) ->
  taken ta ps (annotated_type i) = [].
Proof.
  intros H. unfold taken. destruct (annotated_type i) as [t|]; [|reflexivity]. destruct ta; [|reflexivity].
  destruct (collect_ty ps t) as [|q l] eqn:E; [reflexivity|].
  assert (I : In q (collect_ty ps t)) by (rewrite E; left; reflexivity).
  apply collect_exact in I. destruct I as (bs & I1 & I2 & I3 & _). exfalso. eapply H; eauto. split; [exact I3|intros []].
Qed.

(** The errors at the end: those of the run without traits, or that there are no branches. *)
Definition ends (p : bool) (cx c : ctx) : Prop :=
  if p then cx_errs cx = cx_errs c else cx_has_child cx = false /\ exists semi, cx_errs cx = [ErrFewVariants false semi].

Lemma body_case md {A} (v d : M A) f p cx c x cx' :
  sim md v d -> tells p d -> rel md cx c -> cx_has_child c = false -> cx_errs c = [] ->
  (x <- v ;; build f x) cx = ROk (x, cx') -> exists c', d c = ROk (x, c') /\ ends p cx' c'.
Proof.
  intros S T R HC HE H. apply bind_ok in H. destruct H as (y & c1 & H1 & H).
  destruct (S _ _ _ _ R H1) as (c' & D & R'). destruct (T _ _ _ D) as (T1 & _ & T3).
  destruct R' as (_ & RH & RE & RV & _ & _). unfold build, has_error in H. rewrite RV in H. cbn [List.length] in H.
  destruct (cx_errs c1) as [|er es] eqn:EE.
  - destruct (cx_has_child c1) eqn:C1.
    + inversion H; subst y c1. exists c'. split; [exact D|]. unfold ends. destruct p; [congruence|].
      destruct (T1 eq_refl). congruence.
    + unfold variant_is_empty in H. rewrite RV in H. minv. exists c'. split; [exact D|]. unfold ends. destruct p.
      * destruct (T3 RE) as [_ T4]. specialize (T4 eq_refl). congruence.
      * cbn. rewrite EE. split; [exact C1|]. eexists. reflexivity.
  - inversion H; subst y c1. exists c'. split; [exact D|]. unfold ends. destruct p; [congruence|].
    destruct (T1 eq_refl). congruence.
Qed.

Section Top.
  Variables (hash : node -> N) (ta : bool) (n : nat) (ps : list path) (id : string).
  Hypothesis traits : ps <> [].
  Let R := engine hash ta n.
  Let cxa := Ctx id [] "marker" ["marker"] true false VDefault LDefault [] ps [].
  Let cxd := Ctx id [] "marker" ["marker"] true false VDefault LDefault [] [] [].

  Lemma args_some {B} (x y : B) : match ps with [] => x | _ => y end = y.
  Proof. destruct ps; [congruence|reflexivity]. Qed.

  Lemma some_expr e : spare true e = true ->
    sim VDefault (r_vexpr R scope0 false e) (r_dexpr R e) /\ tells (other e) (r_dexpr R e).
  Proof.
    intros S. unfold R. rewrite <- (dex_plain hash ta). split; [|apply (tells_all hash ta n)].
    apply (sims_all VDefault hash ta true (fun _ => eq_refl) n). exact S.
  Qed.

  Lemma open_body e cx : cx_mode cx = VDefault -> (visit_last cx = false \/ bare e = true /\ no_closure e = true) ->
    expand_expr ta R e cx = r_vexpr R scope0 false e cx.
  Proof.
    intros M H.
    assert (CE : child_expr e cx = ROk (e, cx)).
    { destruct H as [H|[H _]]; [|apply bare_child; exact H]. destruct e; cbn [child_expr]; unfold bind, gets; rewrite H; reflexivity. }
    assert (EB : expand_body ta R e cx = r_vexpr R scope0 false e cx).
    { unfold expand_body, bind, gets. rewrite CE. unfold ta_dummy. rewrite M, andb_false_r. reflexivity. }
    unfold expand_expr, bind at 1, gets at 1. destruct e; try exact EB.
    destruct H as [H|[_ H]]; [|discriminate]. rewrite H. exact EB.
  Qed.

  Lemma expr_case e semi e' cx' :
    spare true e = true -> semi = true \/ bare e = true /\ no_closure e = true ->
    expand_parent_expr ta R e semi cxa = ROk (e', cx') ->
    exists c', expand_parent_expr ta R e semi cxd = ROk (e', c') /\ ends (other e) cx' c'.
  Proof.
    intros S H X. destruct (some_expr e S) as [SM T]. unfold expand_parent_expr in *.
    set (sa := if semi then set_last LNever cxa else cxa). set (sd := if semi then set_last LNever cxd else cxd).
    assert (Xa : (e0 <- expand_expr ta R e ;; build build_expr e0) sa = ROk (e', cx')).
    { rewrite <- X. unfold bind, gets, sa. destruct semi; unfold modify, ret, is_dummy; cbn [set_last cxa cx_args cx_traits];
        rewrite args_some; reflexivity. }
    assert (Xd : r_dexpr R e sd = ((if semi then modify (set_last LNever) else ret tt) ;;; dummy <- gets is_dummy ;;
               if (dummy : bool) then massert (fun cx => match cx_args cx with [] => true | _ => false end) "dummy: args" ;;; r_dexpr R e
               else (e0 <- expand_expr ta R e ;; build build_expr e0)) cxd).
    { unfold bind, gets, sd. destruct semi; reflexivity. }
    rewrite <- Xd. unfold bind in Xa. rewrite open_body in Xa.
    - refine (body_case VDefault _ _ build_expr _ sa sd _ _ SM T _ _ _ Xa); destruct semi; repeat split.
    - destruct semi; reflexivity.
    - destruct H as [->|H]; [left; reflexivity|right; exact H].
  Qed.

  Lemma let_type q t : taken ta q t = [] -> forall cx, cx_args cx = q -> cx_traits cx = [] -> local_ty ta t cx = ROk (t, cx).
  Proof.
    intros N cx A T. unfold local_ty, taken in *. destruct ta; [|reflexivity]. destruct t as [t|]; [|reflexivity].
    unfold bind, gets, modify, ret, collect_impl_trait. rewrite A, T, N. cbn. destruct cx; cbn in *; subst; reflexivity.
  Qed.

  Lemma let_case a p t e l' cx' :
    taken ta ps t = [] -> taken ta [] t = [] -> spare true e = true -> bare e = true -> no_closure e = true ->
    expand_parent_local ta R (Local a p t (Some e) None) cxa = ROk (l', cx') ->
    exists c', expand_parent_local ta R (Local a p t (Some e) None) cxd = ROk (l', c') /\ ends (other e || false) cx' c'.
  Proof.
    intros N1 N2 S B C X. destruct (some_expr e S) as [SM T]. unfold expand_parent_local in *.
    unfold bind at 1 in X. rewrite (let_type ps t N1 cxa eq_refl eq_refl) in X.
    unfold bind at 1, gets at 1 in X. unfold is_dummy in X. cbn [cxa cx_args cx_traits] in X.
    replace (match ps with [] => true | _ => false end) with false in X by (symmetry; apply args_some).
    assert (Q : exists e', l' = Local a p t (Some e') None /\ (e0 <- r_vexpr R scope0 false e ;; build build_expr e0) cxa = ROk (e', cx')).
    { apply bind_ok in X. destruct X as (e1 & c1 & X1 & X). apply bind_ok in X. destruct X as (e2 & c2 & X2 & X).
      apply ret_ok in X. destruct X as [-> ->]. exists e2. split; [reflexivity|].
      rewrite (open_body e cxa eq_refl (or_intror (conj B C))) in X1. unfold bind. rewrite X1. exact X2. }
    destruct Q as (e' & -> & Q).
    destruct (body_case VDefault _ _ build_expr _ cxa cxd e' cx' SM T ltac:(repeat split) eq_refl eq_refl Q) as (c' & D & E).
    exists c'. rewrite orb_false_r. split; [|exact E]. unfold bind at 1. rewrite (let_type [] t N2 cxd eq_refl eq_refl).
    unfold bind at 1, gets at 1. cbn [is_dummy cxd cx_args cx_traits]. unfold bind at 1, massert. cbn [cxd cx_args walk_local optM].
    unfold bind, ret. fold cxd. rewrite D. reflexivity.
  Qed.

  (** The mode of a function. *)
  Lemma mode_of out b q : exists md, fn_mode out b (Ctx id [] "marker" ["marker"] true false VDefault LDefault [] q [])
      = ROk (tt, Ctx id [] "marker" ["marker"] true false md LDefault [] q [])
    /\ (~ wraps_exits out -> md = VDefault).
  Proof.
    unfold fn_mode, bind, gets, modify, ret. cbn [cx_last]. destruct out as [t|]; [|eauto].
    assert (TI : forall t, is_result_impl t = true -> wraps_exits (Some t)).
    { intros u H. exists u. split; [reflexivity|]. right. apply result_impl_true. exact H. }
    destruct t;
      try solve [ eexists; split; [reflexivity|]; intros NW; exfalso; apply NW; eexists; split; [reflexivity|]; left; eauto ];
      match goal with |- context [is_result_impl ?u] => pose proof (TI u) as TU; destruct (is_result_impl u) end;
      try destruct (2 <=? _)%nat; eexists; (split; [reflexivity|]); try (intros; reflexivity); intros NW; exfalso; apply NW; auto.
  Qed.

  Lemma collect_quiet q out cx : taken ta q out = [] -> cx_args cx = q -> cx_traits cx = [] -> fn_collect ta out cx = ROk (tt, cx).
  Proof.
    intros N A T. unfold fn_collect, taken in *. destruct ta; [|reflexivity]. destruct out as [t|]; [|reflexivity].
    unfold bind, gets, modify, collect_impl_trait. rewrite A, T, N. cbn. destruct cx; cbn in *; subst; reflexivity.
  Qed.

  Lemma fn_case out b b' cx' :
    taken ta ps out = [] -> taken ta [] out = [] -> b <> [] -> on_last bare_last true b = true ->
    (spare_block false b = true \/ spare_block true b = true /\ ~ wraps_exits out) ->
    expand_parent_item_fn ta R out b cxa = ROk (b', cx') ->
    exists c', expand_parent_item_fn ta R out b cxd = ROk (b', c') /\ ends (fold_list orb false other_stmt b) cx' c'.
  Proof.
    intros N1 N2 NE B S X. unfold expand_parent_item_fn in *.
    destruct (mode_of out b ps) as (md & Ma & W). destruct (mode_of out b []) as (md2 & Md & _).
    unfold bind at 1 in X. unfold cxa in X at 1. rewrite Ma in X.
    set (ca := Ctx id [] "marker" ["marker"] true false md LDefault [] ps []) in *.
    set (cd := Ctx id [] "marker" ["marker"] true false md2 LDefault [] [] []) in *.
    unfold bind at 1 in X. rewrite (collect_quiet ps out ca N1 eq_refl eq_refl) in X.
    unfold bind at 1, gets at 1 in X. unfold is_dummy in X. cbn [ca cx_args cx_traits] in X.
    replace (match ps with [] => true | _ => false end) with false in X by (symmetry; apply args_some).
    assert (CE : map_last_expr child_expr b ca = ROk (b, ca)).
    { apply bare_last_map; [|exact B]. apply Forall_forall. intros [] _; auto. intros. apply bare_child. assumption. }
    assert (Q : (b0 <- mapM (r_vstmt R scope0) b ;; build build_fn b0) ca = ROk (b', cx')).
    { rewrite <- X. destruct b as [|s r]; [congruence|]. unfold bind at 2. rewrite CE. unfold bind at 2, gets. unfold ta_dummy.
      cbn [ca cx_mode cx_args]. replace (match ps with [] => true | _ => false end) with false by (symmetry; apply args_some).
      destruct md; rewrite ?andb_false_r; reflexivity. }
    assert (K : exists k, spare_block k b = true /\ (k = true -> md = VDefault)).
    { destruct S as [S|[S NW]]; [exists false; split; [exact S|discriminate]|exists true; auto]. }
    destruct K as (k & SK & MK).
    assert (SM : sim md (mapM (r_vstmt R scope0) b) (mapM (r_dstmt R) b)).
    { apply (sim_mapM md (spare_stmt k)); [|exact SK]. intros s Hs. apply (sims_all md hash ta k MK n). exact Hs. }
    assert (T : tells (fold_list orb false other_stmt b) (mapM (r_dstmt R) b)).
    { apply tells_mapM. apply (tells_all hash ta n). }
    destruct (body_case md _ _ build_fn _ ca cd b' cx' SM T ltac:(repeat split) eq_refl eq_refl Q) as (c' & D & E).
    exists c'. split; [|exact E]. unfold bind at 1. unfold cxd at 1. rewrite Md. fold cd.
    unfold bind at 1. rewrite (collect_quiet [] out cd N2 eq_refl eq_refl).
    unfold bind at 1, gets at 1. cbn [is_dummy cd cx_args cx_traits]. exact D.
  Qed.

  Lemma input_case i i' cx' :
    taken ta ps (annotated_type i) = [] -> taken ta [] (annotated_type i) = [] -> spare_input i ->
    expand_input ta R i cxa = ROk (i', cx') ->
    exists c', expand_input ta R i cxd = ROk (i', c') /\ ends (other_input i) cx' c'.
  Proof.
    intros N1 N2 S X. destruct i as [[[a p t [e|] [d|]]|[a sg o b| |]|e semi|a m semi]|e|]; cbn [spare_input] in S; try contradiction;
      cbn [expand_input expand_parent_stmt annotated_type other_input] in *.
    - apply bind_ok in X. destruct X as (s1 & c1 & X & X2). apply ret_ok in X2. destruct X2 as [-> ->].
      apply bind_ok in X. destruct X as (l1 & c2 & X & X2). apply ret_ok in X2. destruct X2 as [-> ->].
      destruct S as (S & B & C). destruct (let_case _ _ _ _ _ _ N1 N2 S B C X) as (c' & D & E). exists c'. split; [|exact E].
      unfold bind, ret. rewrite D. reflexivity.
    - apply bind_ok in X. destruct X as (s1 & c1 & X & X2). apply ret_ok in X2. destruct X2 as [-> ->].
      apply bind_ok in X. destruct X as (l1 & c2 & X & X2). apply ret_ok in X2. destruct X2 as [-> ->].
      destruct S as (S & B & C). destruct (fn_case _ _ _ _ N1 N2 S B C X) as (c' & D & E). exists c'. split; [|exact E].
      unfold bind, ret. rewrite D. reflexivity.
    - apply bind_ok in X. destruct X as (s1 & c1 & X & X2). apply ret_ok in X2. destruct X2 as [-> ->].
      apply bind_ok in X. destruct X as (l1 & c2 & X & X2). apply ret_ok in X2. destruct X2 as [-> ->].
      destruct S as (S & B). destruct (expr_case _ _ _ _ S B X) as (c' & D & E). exists c'. split; [|exact E].
      unfold bind, ret. rewrite D. reflexivity.
    - apply bind_ok in X. destruct X as (s1 & c1 & X & X2). apply ret_ok in X2. destruct X2 as [-> ->].
      destruct S as (S & B). destruct (expr_case _ _ _ _ S (or_intror B) X) as (c' & D & E). exists c'. split; [|exact E].
      unfold bind, ret. rewrite D. reflexivity.
  Qed.
End Top.

Theorem spare_run hash ta n args ps i o :
  parse_args args = inr (ps, None) -> ps <> [] ->
  (forall t bs q, ta = true -> annotated_type i = Some t -> In bs (impls t) -> In q (bounds_traits bs) -> ~ new_trait [] q) ->
  spare_input i -> attribute hash ta n args i = ROk o ->
  exists o', attribute hash ta n [] i = ROk o'
    /\ if other_input i then same_outcome o o' else o = Errors [ErrFewVariants false (ends_in_semi i)].
Proof.
  intros HP NP F S H. unfold attribute, ctx_root, ctx_new in *. rewrite HP in H. change (parse_args []) with (@inr err _ (@nil path, @None string)).
  cbn [existsb app] in *. change DEFAULT_MARKER with "marker" in *.
  match type of H with match ?x with _ => _ end = _ => destruct x as [[i' cx']| |] eqn:X; try discriminate H end.
  destruct (input_case hash ta n ps _ NP i i' cx' (taken_any _ _ _ F) (taken_any _ _ _ F) S X) as (c' & D & E).
  rewrite D. eexists. split; [reflexivity|]. injection H as <-. unfold ends in E. destruct (other_input i).
  - rewrite E. destruct (cx_errs c'); reflexivity.
  - destruct E as (HC & semi & E). destruct (expand_input_few hash ta n i _ _ _ X eq_refl) as [Y|(de & Y & Z)]; [congruence|].
    cbn in Y. rewrite E in *. subst de. destruct Z as [Z|(_ & Z & _)]; [discriminate|]. injection Z as _ ->. reflexivity.
Qed.
