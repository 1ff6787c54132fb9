(** The context of an attribute is the same after the expansion of what is below it. *)

Require Import Coq.Strings.String Coq.Lists.List Coq.Bool.Bool Coq.Arith.Arith Coq.NArith.NArith Lia.
Require Import Verif.Syntax Verif.Context Verif.ExprModel Verif.TypeAnalysis Verif.AutoEnum.
Require Import Verif.RunLemmas Verif.AttrFold Verif.EditsRun Verif.Frame Verif.VisitRun Verif.EngineRun Verif.HaltRun
  Verif.ArgsSpec Verif.ArgsRun Verif.TraitRun.
Import ListNotations.
Open Scope string_scope.
Open Scope list_scope.

(** Everything that describes an attribute, apart from the variants made and the errors found. *)
Definition kept (cx cx' : ctx) : Prop :=
  cx_ident cx' = cx_ident cx /\ cx_marker cx' = cx_marker cx /\ cx_root cx' = cx_root cx
  /\ cx_mode cx' = cx_mode cx /\ cx_last cx' = cx_last cx /\ cx_args cx' = cx_args cx
  /\ cx_traits cx' = cx_traits cx
  /\ (cx_errs cx' = [] -> cx_markers cx' = cx_markers cx).

Lemma kept_of cx cx' : same_mode cx cx' -> bext cx cx' -> kept cx cx'.
Proof.
  intros S B. unfold same_mode in S. unfold kept. intuition.
  destruct (b_markers _ _ B) as [X|[X Y]]; [exact X|contradiction].
Qed.

Section Run.
  Variables (hash : node -> N) (ta : bool) (n : nat).
  Let R := engine hash ta n.
  Let G : engine_good every R := eng_good hash ta n.

  Theorem vexpr_kept sc b e cx e' cx' : r_vexpr R sc b e cx = ROk (e', cx') -> kept cx cx'.
  Proof.
    intros H. apply kept_of; [apply (visitor_frame hash ta n) in H; exact H|].
    destruct (eg_vexpr _ _ G sc b e _ _ _ H eq_refl (nok_any _)) as (t & _ & X). apply X.
  Qed.
  Theorem vstmt_kept sc s cx s' cx' : r_vstmt R sc s cx = ROk (s', cx') -> kept cx cx'.
  Proof.
    intros H. apply kept_of; [apply (visitor_frame hash ta n) in H; exact H|].
    destruct (eg_vstmt _ _ G sc s _ _ _ H eq_refl (nok_any _)) as (t & _ & X). apply X.
  Qed.
  Theorem dexpr_kept e cx e' cx' : r_dexpr R e cx = ROk (e', cx') -> kept cx cx'.
  Proof.
    intros H. apply kept_of; [apply (dummy_frame hash ta n) in H; exact (proj1 H)|].
    destruct (eg_dexpr _ _ G e _ _ _ H eq_refl (nok_any _)) as (t & _ & X). apply X.
  Qed.
  Theorem dstmt_kept s cx s' cx' : r_dstmt R s cx = ROk (s', cx') -> kept cx cx'.
  Proof.
    intros H. apply kept_of; [apply (dummy_frame hash ta n) in H; exact (proj1 H)|].
    destruct (eg_dstmt _ _ G s _ _ _ H eq_refl (nok_any _)) as (t & _ & X). apply X.
  Qed.

  (** Errors are never taken away. *)
  Lemma vstmt_errs sc s cx s' cx' : r_vstmt R sc s cx = ROk (s', cx') -> cx_errs cx' = [] -> cx_errs cx = [].
  Proof.
    intros H. destruct (eg_vstmt _ _ G sc s _ _ _ H eq_refl (nok_any _)) as (t & _ & X).
    eapply bext_errs_nil. apply X.
  Qed.

  Lemma kept_trans a b c : (cx_errs c = [] -> cx_errs b = []) -> kept a b -> kept b c -> kept a c.
  Proof. unfold kept. intuition congruence. Qed.

  (** Each statement of a block starts with the context of the first one. *)
  Theorem siblings sc l1 s l2 cx l' cx' :
    mapM (r_vstmt R sc) (l1 ++ s :: l2) cx = ROk (l', cx') -> cx_errs cx' = [] ->
    exists c1 s' c2, r_vstmt R sc s c1 = ROk (s', c2) /\ kept cx c1 /\ kept cx c2 /\ In s' l'
      /\ cx_errs c1 = [] /\ cx_errs c2 = [].
  Proof.
    assert (EL : forall l c l' c', mapM (r_vstmt R sc) l c = ROk (l', c') -> cx_errs c' = [] -> cx_errs c = []).
    { induction l as [|x l IH]; intros c l0 c' H E; cbn [mapM] in H; [minv; assumption|].
      apply bind_ok in H. destruct H as (y & c1 & H1 & H). apply bind_ok in H. destruct H as (ys & c2 & H2 & H).
      minv. eapply vstmt_errs; [exact H1|]. eapply IH; eassumption. }
    revert cx l' cx'. induction l1 as [|x l1 IH]; intros cx l' cx' H E; cbn [app mapM] in H;
      apply bind_ok in H; destruct H as (y & c1 & H1 & H); apply bind_ok in H; destruct H as (ys & c2 & H2 & H);
      apply ret_ok in H; destruct H as [-> ->].
    - exists cx, y, c1. pose proof (EL _ _ _ _ H2 E) as E1. split; [exact H1|].
      split; [unfold kept; intuition|]. split; [eapply vstmt_kept; exact H1|].
      split; [left; reflexivity|]. split; [eapply vstmt_errs; [exact H1|exact E1]|exact E1].
    - destruct (IH _ _ _ H2 E) as (d1 & s' & d2 & X & K1 & K2 & I & E1 & E2).
      pose proof (EL _ _ _ _ H2 E) as Ec.
      exists d1, s', d2. split; [exact X|]. apply vstmt_kept in H1.
      split; [apply (kept_trans cx c1 d1); auto|]. split; [apply (kept_trans cx c1 d2); auto|].
      split; [right; exact I|auto].
  Qed.

  (** What the context of a nested attribute starts with. *)
  Lemma child_starts i toks cx child cx' :
    make_child i toks cx = ROk (inr child, cx') ->
    exists ps mo, parse_args toks = inr (ps, mo)
      /\ cx_args child = ps
      /\ cx_marker child = match mo with Some m => m | None => "marker" end
      /\ cx_markers child = cx_markers cx ++ [cx_marker child]
      /\ match mo with Some m => ~ In m (cx_markers cx) | None => True end
      /\ cx_mode child = VDefault /\ cx_last child = LDefault /\ cx_traits child = []
      /\ cx_variants child = [] /\ cx_root child = false /\ cx_has_child child = false.
  Proof.
    unfold make_child, ctx_new. intros H. minv.
    destruct (parse_args toks) as [|[ps mo]]; [minv; discriminate|].
    exists ps, mo. split; [reflexivity|]. destruct mo as [m|].
    - destruct (existsb (String.eqb m) (cx_markers cx)) eqn:X; [minv; discriminate|].
      minv. repeat match goal with H : inr _ = inr _ |- _ => inversion H; clear H; subst end.
      cbn. repeat split. intros I. assert (X' : existsb (String.eqb m) (cx_markers cx) = true).
      { apply existsb_exists. exists m. split; [exact I|apply String.eqb_refl]. } congruence.
    - minv. repeat match goal with H : inr _ = inr _ |- _ => inversion H; clear H; subst end.
      cbn. repeat split.
  Qed.

  Lemma in_use i toks cx r cx' ps m :
    make_child i toks cx = ROk (r, cx') -> parse_args toks = inr (ps, Some m) -> In m (cx_markers cx) ->
    r = inl (ErrMarkerInUse m).
  Proof.
    unfold make_child, ctx_new. intros H HP I. rewrite HP in H.
    assert (X : existsb (String.eqb m) (cx_markers cx) = true).
    { apply existsb_exists. exists m. split; [exact I|apply String.eqb_refl]. }
    minv. rewrite X in *. congruence.
  Qed.

  (** An annotated node whose marker name is taken is an error. *)
  Theorem marker_in_use V e b cx e' cx' x p toks a' ps m :
    vs_visit_expr hash ta R V e b cx = ROk (e', cx') ->
    find_remove_attr (e_attrs e) "auto_enum" = Some (x, a') -> x = MList p toks ->
    parse_args toks = inr (ps, Some m) -> In m (cx_markers cx) ->
    In (ErrMarkerInUse m) (cx_errs cx').
  Proof.
    intros H F -> HP I. unfold vs_visit_expr in H. change NAME with "auto_enum" in H. rewrite F in H.
    apply bind_ok in H. destruct H as (r & c1 & H1 & H). eapply in_use in H1; [|eassumption|eassumption].
    subst r. apply bind_ok in H. destruct H as (e1 & c2 & H2 & H). minv. cbn. apply in_app_iff. right. left. reflexivity.
  Qed.

  Theorem marker_in_use_stmt V a q t i d cx s' cx' x p toks a' ps m :
    vs_visit_stmt hash ta R V (SLocal (Local a q t i d)) cx = ROk (s', cx') ->
    find_remove_attr a "auto_enum" = Some (x, a') -> x = MList p toks ->
    parse_args toks = inr (ps, Some m) -> In m (cx_markers cx) ->
    In (ErrMarkerInUse m) (cx_errs cx').
  Proof.
    intros H F -> HP I. cbn [vs_visit_stmt] in H. change NAME with "auto_enum" in H. rewrite F in H.
    apply bind_ok in H. destruct H as (r & c1 & H1 & H). eapply in_use in H1; [|eassumption|eassumption].
    subst r. apply bind_ok in H. destruct H as (e1 & c2 & H2 & H). minv. cbn. apply in_app_iff. right. left. reflexivity.
  Qed.
End Run.

(** No supported trait in the type. *)
Lemma taken_none (ta : bool) i :
  (forall t bs q, ta = true -> annotated_type i = Some t -> In bs (impls t) -> In q (bounds_traits bs) ->
     ~ new_trait [] q) ->
  taken ta [] (annotated_type i) = [].
Proof.
  intros H. unfold taken. destruct (annotated_type i) as [t|]; [|reflexivity]. destruct ta; [|reflexivity].
  destruct (collect_ty [] t) as [|q l] eqn:E; [reflexivity|].
  assert (I : In q (collect_ty [] t)) by (rewrite E; left; reflexivity).
  apply collect_exact in I. destruct I as (bs & I1 & I2 & I3). exfalso. eapply H; eauto.
Qed.
