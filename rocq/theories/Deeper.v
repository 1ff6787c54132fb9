(** More recursion depth does not change a result. *)

Require Import Coq.Strings.String Coq.Lists.List Coq.Bool.Bool Coq.Arith.Arith Coq.NArith.NArith Lia.
Require Import Verif.Syntax Verif.Context Verif.ExprModel Verif.TypeAnalysis Verif.AutoEnum.
Require Import Verif.RunLemmas Verif.Grammar Verif.HaltRun.
Import ListNotations.
Open Scope string_scope.
Open Scope list_scope.

(** [m'] does what [m] does, unless [m] runs out of depth. *)
Definition deeper {A} (m m' : M A) : Prop := forall cx, m cx <> RFuel -> m' cx = m cx.

Lemma deeper_refl {A} (m : M A) : deeper m m.
Proof. intros cx _. reflexivity. Qed.

Lemma deeper_bind {A B} (m m' : M A) (k k' : A -> M B) :
  deeper m m' -> (forall a, deeper (k a) (k' a)) -> deeper (bind m k) (bind m' k').
Proof.
  intros H HK cx. unfold bind. specialize (H cx). destruct (m cx) as [[a c]| |s] eqn:E.
  - rewrite H by discriminate. apply HK.
  - congruence.
  - rewrite H by discriminate. reflexivity.
Qed.

Lemma deeper_mapM {A B} (f f' : A -> M B) l :
  (forall x, deeper (f x) (f' x)) -> deeper (mapM f l) (mapM f' l).
Proof.
  intros H. induction l; cbn [mapM]; [apply deeper_refl|].
  apply deeper_bind; [auto|]. intros. apply deeper_bind; [auto|]. intros. apply deeper_refl.
Qed.

Lemma deeper_optM {A B} (f f' : A -> M B) o :
  (forall x, deeper (f x) (f' x)) -> deeper (optM f o) (optM f' o).
Proof.
  intros H. destruct o; cbn [optM]; [|apply deeper_refl].
  apply deeper_bind; [auto|]. intros. apply deeper_refl.
Qed.

(** All six functions. *)
Record deeper_t (R R' : engine_t) : Prop := DeeperT {
  dp_vexpr : forall sc b e, deeper (r_vexpr R sc b e) (r_vexpr R' sc b e);
  dp_vstmt : forall sc s, deeper (r_vstmt R sc s) (r_vstmt R' sc s);
  dp_varm : forall sc x, deeper (r_varm R sc x) (r_varm R' sc x);
  dp_vlocal : forall sc x, deeper (r_vlocal R sc x) (r_vlocal R' sc x);
  dp_dexpr : forall e, deeper (r_dexpr R e) (r_dexpr R' e);
  dp_dstmt : forall s, deeper (r_dstmt R s) (r_dstmt R' s)
}.

Ltac dstep :=
  match goal with
  | |- deeper ?m ?m => apply deeper_refl
  | |- deeper (bind _ _) (bind _ _) => apply deeper_bind; [|intros]
  | |- deeper (mapM _ _) (mapM _ _) => apply deeper_mapM; intros
  | |- deeper (optM _ _) (optM _ _) => apply deeper_optM; intros
  | |- deeper (match ?x with _ => _ end) (match ?x with _ => _ end) => destruct x
  | H : deeper_t ?R ?R' |- deeper (r_vexpr ?R _ _ _) _ => apply (dp_vexpr R R' H)
  | H : deeper_t ?R ?R' |- deeper (r_vstmt ?R _ _) _ => apply (dp_vstmt R R' H)
  | H : deeper_t ?R ?R' |- deeper (r_varm ?R _ _) _ => apply (dp_varm R R' H)
  | H : deeper_t ?R ?R' |- deeper (r_vlocal ?R _ _) _ => apply (dp_vlocal R R' H)
  | H : deeper_t ?R ?R' |- deeper (r_dexpr ?R _) _ => apply (dp_dexpr R R' H)
  | H : deeper_t ?R ?R' |- deeper (r_dstmt ?R _) _ => apply (dp_dstmt R R' H)
  end.

Section Deeper.
  Variable hash : node -> N.
  Variable ta : bool.

  Lemma walk_expr_deeper V V' e :
    (forall x, deeper (on_expr V x) (on_expr V' x)) -> (forall x, deeper (on_stmt V x) (on_stmt V' x)) ->
    (forall x, deeper (on_arm V x) (on_arm V' x)) -> deeper (walk_expr V e) (walk_expr V' e).
  Proof. intros. destruct e; cbn [walk_expr]; repeat dstep; auto. Qed.

  Lemma walk_arm_deeper f f' x :
    (forall x, deeper (f x) (f' x)) -> deeper (walk_arm f x) (walk_arm f' x).
  Proof. intros. destruct x; cbn [walk_arm]; repeat dstep; auto. Qed.

  Lemma walk_local_deeper f f' x :
    (forall x, deeper (f x) (f' x)) -> deeper (walk_local f x) (walk_local f' x).
  Proof. intros. destruct x; cbn [walk_local]; repeat dstep; auto. Qed.

  Section Level.
    Variables R R' : engine_t.
    Hypothesis D : deeper_t R R'.

    Lemma expand_expr_deeper e : deeper (expand_expr ta R e) (expand_expr ta R' e).
    Proof. unfold expand_expr, expand_body. repeat dstep. Qed.

    Lemma expand_parent_expr_deeper e b :
      deeper (expand_parent_expr ta R e b) (expand_parent_expr ta R' e b).
    Proof. unfold expand_parent_expr. repeat dstep. apply expand_expr_deeper. Qed.

    Lemma expand_parent_stmt_deeper s :
      deeper (expand_parent_stmt ta R s) (expand_parent_stmt ta R' s).
    Proof.
      unfold expand_parent_stmt, expand_parent_local, expand_parent_item_fn. repeat dstep;
        auto using expand_expr_deeper, expand_parent_expr_deeper.
      apply walk_local_deeper. intros. dstep.
    Qed.

    Lemma in_child_deeper {A} child (f f' : M A) :
      deeper f f' -> deeper (in_child child f) (in_child child f').
    Proof.
      intros H cx. unfold in_child. specialize (H child). destruct (f child) as [[a c]| |s] eqn:E;
        try (rewrite H by discriminate; reflexivity). congruence.
    Qed.

    Lemma vs_expr_deeper V V' e b :
      (forall x, deeper (on_expr V x) (on_expr V' x)) -> (forall x, deeper (on_stmt V x) (on_stmt V' x)) ->
      (forall x, deeper (on_arm V x) (on_arm V' x)) ->
      deeper (vs_visit_expr hash ta R V e b) (vs_visit_expr hash ta R' V' e b).
    Proof.
      intros. unfold vs_visit_expr. repeat dstep; auto using walk_expr_deeper.
      apply in_child_deeper, expand_parent_expr_deeper.
    Qed.

    Lemma vs_stmt_deeper V V' s :
      (forall x, deeper (on_expr V x) (on_expr V' x)) -> (forall x, deeper (on_stmt V x) (on_stmt V' x)) ->
      (forall x, deeper (on_arm V x) (on_arm V' x)) -> (forall x, deeper (on_local V x) (on_local V' x)) ->
      deeper (vs_visit_stmt hash ta R V s) (vs_visit_stmt hash ta R' V' s).
    Proof.
      intros. destruct s as [[]| | |]; unfold vs_visit_stmt, walk_stmt; repeat dstep; auto using vs_expr_deeper.
      all: apply in_child_deeper, expand_parent_stmt_deeper.
    Qed.

    Lemma v_vis_deeper sc :
      (forall x, deeper (on_expr (v_vis R sc) x) (on_expr (v_vis R' sc) x))
      /\ (forall x, deeper (on_stmt (v_vis R sc) x) (on_stmt (v_vis R' sc) x))
      /\ (forall x, deeper (on_arm (v_vis R sc) x) (on_arm (v_vis R' sc) x))
      /\ (forall x, deeper (on_local (v_vis R sc) x) (on_local (v_vis R' sc) x)).
    Proof. cbn. unfold v_expr. repeat split; intros; dstep. Qed.

    Lemma d_vis_deeper :
      (forall x, deeper (on_expr (d_vis R) x) (on_expr (d_vis R') x))
      /\ (forall x, deeper (on_stmt (d_vis R) x) (on_stmt (d_vis R') x))
      /\ (forall x, deeper (on_arm (d_vis R) x) (on_arm (d_vis R') x))
      /\ (forall x, deeper (on_local (d_vis R) x) (on_local (d_vis R') x)).
    Proof.
      cbn. repeat split; intros; try dstep.
      - apply walk_arm_deeper. intros. dstep.
      - apply walk_local_deeper. intros. dstep.
    Qed.

    Lemma step_deeper : deeper_t (step hash ta R) (step hash ta R').
    Proof.
      destruct d_vis_deeper as (d1 & d2 & d3 & d4).
      split; intros; cbn [step r_vexpr r_vstmt r_varm r_vlocal r_dexpr r_dstmt]; unfold unless_error;
        do 2 (dstep; try apply deeper_refl).
      - unfold visit_expr. destruct (v_vis_deeper (check_expr (scope_below sc (e_attrs e)) e))
          as (v1 & v2 & v3 & v4). repeat dstep; auto using vs_expr_deeper.
      - unfold visit_stmt. destruct (v_vis_deeper (scope_below sc (s_attrs s))) as (v1 & v2 & v3 & v4).
        destruct s; repeat dstep; auto using vs_stmt_deeper.
      - unfold visit_arm. repeat dstep. apply walk_arm_deeper. intros. unfold v_expr. dstep.
      - unfold visit_local. repeat dstep. apply walk_local_deeper. intros. unfold v_expr. dstep.
      - unfold dummy_expr. repeat dstep. apply vs_expr_deeper; assumption.
      - unfold dummy_stmt. repeat dstep. apply vs_stmt_deeper; assumption.
    Qed.
  End Level.

  Lemma engine_deeper n : deeper_t (engine hash ta n) (engine hash ta (S n)).
  Proof.
    induction n as [|n IH].
    - split; repeat intro; contradiction.
    - apply step_deeper. exact IH.
  Qed.

  Lemma attribute_deeper n args i :
    attribute hash ta n args i <> RFuel -> attribute hash ta (S n) args i = attribute hash ta n args i.
  Proof.
    unfold attribute. destruct (ctx_root _ _) as [e|cx]; [reflexivity|].
    pose proof (engine_deeper n) as D.
    assert (H : deeper (expand_input ta (engine hash ta n) i) (expand_input ta (engine hash ta (S n)) i)).
    { unfold expand_input. repeat dstep; [apply expand_parent_stmt_deeper|apply expand_parent_expr_deeper];
        exact D. }
    specialize (H cx). destruct (expand_input ta (engine hash ta n) i cx) as [[a c]| |s].
    - rewrite H by discriminate. reflexivity.
    - contradiction.
    - rewrite H by discriminate. reflexivity.
  Qed.

  Lemma attribute_stable n m args i :
    n <= m -> attribute hash ta n args i <> RFuel ->
    attribute hash ta m args i = attribute hash ta n args i.
  Proof.
    intros L H. induction L; [reflexivity|]. rewrite attribute_deeper by congruence. assumption.
  Qed.

  Theorem attribute_unique n m args i o o' :
    attribute hash ta n args i = ROk o -> attribute hash ta m args i = ROk o' -> o = o'.
  Proof.
    intros H1 H2. destruct (Nat.le_ge_cases n m) as [L|L].
    - rewrite (attribute_stable n m) in H2 by (auto; congruence). congruence.
    - rewrite (attribute_stable m n) in H1 by (auto; congruence). congruence.
  Qed.

  Theorem attribute_no_panic n args i s : wf_input i = true -> attribute hash ta n args i <> RPanic s.
  Proof.
    intros W H. destruct (attribute_halts hash ta args i W) as (k & o & HK).
    specialize (HK (max n k) (Nat.le_max_r _ _)).
    rewrite (attribute_stable n) in HK by (try apply Nat.le_max_l; congruence). congruence.
  Qed.
End Deeper.
