(** Proof: a run without traits notes that there are other attributes exactly if there are. *)

Require Import Coq.Strings.String Coq.Lists.List Coq.Bool.Bool Coq.Arith.Arith Coq.NArith.NArith Lia.
Require Import Verif.Syntax Verif.Context Verif.ExprModel Verif.TypeAnalysis Verif.AutoEnum.
Require Import Verif.AstInd Verif.RunLemmas Verif.Frame Verif.Tails Verif.Changes Verif.ChangesRun Verif.OutsideRun Verif.Alike Verif.Alone
  Verif.EngineRun Verif.VisitRun Verif.Spare Verif.SpareRun.
Import ListNotations.
Open Scope string_scope.
Open Scope list_scope.

(** [p]: another attribute is met. *)
Definition tells {A} (p : bool) (m : M A) : Prop :=
  forall cx a cx', m cx = ROk (a, cx') ->
    (p = false -> cx_has_child cx' = cx_has_child cx /\ cx_errs cx' = cx_errs cx)
    /\ (cx_has_child cx = true -> cx_has_child cx' = true)
    /\ (cx_errs cx' = [] -> cx_errs cx = [] /\ (p = true -> cx_has_child cx' = true)).

Lemma tells_ret {A} (a : A) : tells false (ret a).
Proof. intros cx x cx' H. minv. repeat split; auto; discriminate. Qed.
Lemma tells_bind {A B} p q (m : M A) (k : A -> M B) : tells p m -> (forall a, tells q (k a)) -> tells (p || q) (bind m k).
Proof.
  intros H K cx b cx' X. apply bind_ok in X. destruct X as (a & c & X1 & X2).
  destruct (H _ _ _ X1) as (A1 & A2 & A3). destruct (K _ _ _ _ X2) as (B1 & B2 & B3).
  split; [|split; [auto|]].
  - intros E. apply orb_false_iff in E. destruct E as [E1 E2]. destruct (A1 E1), (B1 E2). split; congruence.
  - intros E. destruct (B3 E) as [E2 B4]. destruct (A3 E2) as [E1 A4]. split; [exact E1|].
    intros O. apply orb_true_iff in O. destruct O; auto.
Qed.
Lemma tells_then {A B} p (m : M A) (k : A -> M B) : tells p m -> (forall a, tells false (k a)) -> tells p (bind m k).
Proof. intros H K. rewrite <- (orb_false_r p). apply tells_bind; assumption. Qed.
Lemma tells_mapM {A B} (g : A -> bool) (f : A -> M B) l :
  (forall x, tells (g x) (f x)) -> tells (fold_list orb false g l) (mapM f l).
Proof.
  intros H. induction l as [|x l IH]; cbn [mapM fold_list fold_right map]; [apply tells_ret|].
  apply tells_bind; [auto|]. intros. apply tells_then; [exact IH|intros; apply tells_ret].
Qed.
Lemma tells_optM {A B} (g : A -> bool) (f : A -> M B) o :
  (forall x, tells (g x) (f x)) -> tells (fold_opt false g o) (optM f o).
Proof. intros H. destruct o; cbn; [apply tells_then; [auto|intros]|]; apply tells_ret. Qed.

(** [m] keeps the note. *)
Definition notes {A} (m : M A) : Prop :=
  forall cx a cx', m cx = ROk (a, cx') -> cx_has_child cx = true -> cx_has_child cx' = true.
Lemma tells_notes {A} p (m : M A) : tells p m -> notes m.
Proof. intros H cx a cx' X. apply H in X. apply X. Qed.
Lemma notes_error {A} (w : M A) e : notes w -> notes (x <- w ;; error e ;;; ret x).
Proof. intros W cx a cx' X HC. apply bind_ok in X. destruct X as (x & c & X1 & X). minv. cbn. eapply W; eassumption. Qed.
Lemma notes_nested {A} i toks (w : M A) g : notes w -> notes (nested_run i toks w g).
Proof.
  intros W cx a cx' X HC. unfold nested_run in X. apply bind_ok in X. destruct X as (r & c0 & H1 & X).
  rewrite make_child_eq, HC in H1. inversion H1; subst r c0; clear H1.
  apply bind_ok in X. destruct X as (x & c1 & H1 & X). pose proof (W _ _ _ H1 HC) as W2.
  destruct (ctx_new i toks false (cx_markers cx) (cx_errs cx)) as [er|child] eqn:C.
  - minv. exact W2.
  - unfold in_child in X. destruct (g x child) as [[y child']| |]; try discriminate. unfold join_child in X. minv. exact W2.
Qed.

(** A part with its own attribute, and one without. *)
Lemma tells_site {A} (x : A) a (m : M A) : any_attr a NAME = true -> notes m -> tells true (unless_error x (note_child a ;;; m)).
Proof.
  intros AN H cx y cx' X. apply unless_cases in X. destruct X as [(NE & -> & ->)|(E & X)].
  - repeat split; auto; congruence.
  - apply bind_ok in X. destruct X as (u & c & X1 & X). unfold note_child in X1. rewrite AN in X1. minv.
    pose proof (H _ _ _ X eq_refl) as Y. repeat split; auto; discriminate.
Qed.
Lemma tells_plain {A} p (x : A) a (m : M A) : any_attr a NAME = false -> tells p m -> tells p (unless_error x (note_child a ;;; m)).
Proof.
  intros AN H cx y cx' X. apply unless_cases in X. destruct X as [(NE & -> & ->)|(E & X)].
  - repeat split; auto; congruence.
  - unfold note_child in X. rewrite AN in X. exact (H _ _ _ X).
Qed.

Lemma any_named a : any_attr a NAME = attr_named "auto_enum" a.
Proof. reflexivity. Qed.

Section Run.
  Variables (hash : node -> N) (ta : bool).

  Section Walks.
    Variables (fe : expr -> M expr) (fs : stmt -> M stmt).
    Hypothesis He : forall e, tells (other e) (fe e).
    Hypothesis Hs : forall s, tells (other_stmt s) (fs s).
    Lemma tells_arm x : tells (other_arm x) (walk_arm fe x).
    Proof.
      destruct x as [a p g b c]. cbn [walk_arm]. change (other_arm (Arm a p g b c)) with (fold_opt false other g || other b).
      apply tells_bind; [apply tells_optM; exact He|]. intros. apply tells_then; [apply He|intros; apply tells_ret].
    Qed.
    Lemma tells_local l : tells (fold_local orb false other l) (walk_local fe l).
    Proof.
      destruct l as [a p t i d]. cbn [walk_local fold_local].
      apply tells_bind; [apply tells_optM; exact He|]. intros.
      apply tells_then; [apply tells_optM; exact He|intros; apply tells_ret].
    Qed.
    Lemma tells_walk fl e : tells (fold_expr orb false other other_stmt other_arm e) (walk_expr (Vis fe fs (walk_arm fe) fl) e).
    Proof.
      pose proof tells_arm as Ha.
      assert (LE : forall l, tells (fold_list orb false other l) (mapM fe l)) by (intros; apply tells_mapM; exact He).
      assert (LS : forall l, tells (fold_list orb false other_stmt l) (mapM fs l)) by (intros; apply tells_mapM; exact Hs).
      assert (LA : forall l, tells (fold_list orb false other_arm l) (mapM (walk_arm fe) l)) by (intros; apply tells_mapM; exact Ha).
      assert (OE : forall o, tells (fold_opt false other o) (optM fe o)) by (intros; apply tells_optM; exact He).
      destruct e; cbn [walk_expr on_expr on_stmt on_arm on_local fold_expr];
        repeat first [ apply tells_ret | apply LS | apply LE | apply LA | apply OE | apply He
                     | apply tells_then; [|intros; apply tells_ret] | apply tells_bind; [|intros] ].
    Qed.
  End Walks.

  Lemma other_eq e : other e = attr_named "auto_enum" (e_attrs e) || fold_expr orb false other other_stmt other_arm e.
  Proof. destruct e; reflexivity. Qed.

  Theorem tells_all n :
    (forall b e, tells (other e) (dex hash ta n b e))
    /\ (forall s, tells (other_stmt s) (r_dstmt (engine hash ta n) s)).
  Proof.
    induction n as [|n [IE IS]]; [split; [intros b e cx a cx' H|intros s cx a cx' H]; discriminate|].
    assert (He : forall e, tells (other e) (r_dexpr (engine hash ta n) e)) by (intros; rewrite <- (dex_plain hash ta); apply IE).
    assert (W : forall e, tells (fold_expr orb false other other_stmt other_arm e) (walk_expr (d_vis (engine hash ta n)) e))
      by (intros; apply tells_walk; assumption).
    assert (VS : forall A (x : A) b e (k : expr -> A),
              tells (other e) (unless_error x (note_child (e_attrs e) ;;;
                (e' <- vs_visit_expr hash ta (engine hash ta n) (d_vis (engine hash ta n)) e b ;; ret (k e'))))).
    { intros. rewrite other_eq. unfold vs_visit_expr. pose proof (any_named (e_attrs e)) as AR. change NAME with "auto_enum" in *.
      destruct (find_remove_attr (e_attrs e) "auto_enum") as [[at_ a']|] eqn:F.
      - assert (AN : attr_named "auto_enum" (e_attrs e) = true) by (rewrite <- AR; eapply any_attr_some; exact F). rewrite AN in *.
        apply tells_site; [exact AR|].
        assert (NW : notes (walk_expr (d_vis (engine hash ta n)) (set_attrs e a'))) by (eapply tells_notes; apply W).
        intros cx y cx' X HC. apply bind_ok in X. destruct X as (e' & c & X & Y). apply ret_ok in Y. destruct Y as [-> ->].
        destruct at_ as [p|p toks|p v].
        + exact (notes_error _ ErrExpectedList NW _ _ _ X HC).
        + exact (notes_nested _ toks _ (fun x => expand_parent_expr ta (engine hash ta n) x b) NW _ _ _ X HC).
        + exact (notes_error _ ErrExpectedList NW _ _ _ X HC).
      - apply named_none in F. rewrite F in *.
        apply tells_plain; [exact AR|]. apply tells_then; [apply W|intros; apply tells_ret]. }
    split.
    - intros b e cx a cx' X. apply (VS _ e b e (fun x => x) cx a cx'). cbn [dex] in X. rewrite <- X. unfold unless_error, bind, ret, gets.
      destruct (has_error cx); [reflexivity|]. destruct (note_child _ cx) as [[u c]| |]; try reflexivity.
      destruct (vs_visit_expr _ _ _ _ _ _ c) as [[]| |]; reflexivity.
    - intros s. cbn [engine step r_dstmt]. unfold dummy_stmt. destruct s as [[a p t i d]|it|e semi|a m semi]; cbn [vs_visit_stmt s_attrs].
      + pose proof (any_named a) as AR. change NAME with "auto_enum" in *.
        assert (WL : forall l, tells (fold_local orb false other l)
                   (walk_stmt (on_expr (d_vis (engine hash ta n))) (on_local (d_vis (engine hash ta n))) (SLocal l))).
        { intros. cbn [walk_stmt on_local d_vis]. apply tells_then; [apply tells_local; exact He|intros; apply tells_ret]. }
        change (other_stmt (SLocal (Local a p t i d))) with
          (attr_named "auto_enum" a || fold_local orb false other (Local a p t i d)).
        destruct (find_remove_attr a "auto_enum") as [[at_ a']|] eqn:F.
        * assert (AN : attr_named "auto_enum" a = true) by (rewrite <- AR; eapply any_attr_some; exact F). rewrite AN in *.
          apply tells_site; [exact AR|]. pose proof (tells_notes _ _ (WL (Local a' p t i d))) as NW.
          destruct at_ as [q|q toks|q v].
          -- apply (notes_nested _ [] _ (expand_parent_stmt ta (engine hash ta n)) NW).
          -- apply (notes_nested _ toks _ (expand_parent_stmt ta (engine hash ta n)) NW).
          -- apply (notes_error _ ErrExpectedList NW).
        * apply named_none in F. rewrite F in *. apply tells_plain; [exact AR|]. apply WL.
      + apply tells_plain; [reflexivity|apply tells_ret].
      + exact (VS _ (SExpr e semi) semi e (fun x => SExpr x semi)).
      + change (other_stmt (SMacro a m semi)) with (any_attr a NAME). cbn [walk_stmt].
        destruct (any_attr a NAME) eqn:AN; [apply tells_site; [exact AN|eapply tells_notes; apply tells_ret]|].
        apply tells_plain; [exact AN|apply tells_ret].
  Qed.
End Run.
