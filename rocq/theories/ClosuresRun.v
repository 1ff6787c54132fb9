(** The expansion meets Closures.v. *)

Require Import Coq.Strings.String Coq.Lists.List Coq.Bool.Bool Coq.Arith.Arith Coq.NArith.NArith.
Require Import Verif.Syntax Verif.Context Verif.ExprModel Verif.TypeAnalysis Verif.AutoEnum Verif.Edits.
Require Import Verif.AstInd Verif.RunLemmas Verif.VisitRun Verif.Twin Verif.TwinRun Verif.TwinEdits Verif.FoldTwin.
Require Import Verif.Exits Verif.ExitsRun Verif.ExitsTop Verif.AttributeRun Verif.Closures.
Import ListNotations.
Open Scope string_scope.
Open Scope list_scope.

(** ** The relation *)

Definition pl0 := Place false false.
(** As [closure_kept]; the second closure is not annotated either. *)
Definition ck (x x' : bool * expr) : Prop :=
  fst x = false -> fst x' = false /\ Forall2 kept2 (exits false pl0 (snd x)) (exits false pl0 (snd x')).
Definition cks (l l' : list (bool * expr)) : Prop := Forall2 ck l l'.

Lemma ck_refl x : ck x x.
Proof. intros E. split; [exact E|apply Forall2_refl_of; intros; apply kept_refl]. Qed.
Lemma ck_trans x y z : ck x y -> ck y z -> ck x z.
Proof.
  intros H K E. destruct (H E) as [E1 F1]. destruct (K E1) as [E2 F2]. split; [exact E2|].
  eapply Forall2_comp; [|exact F1|exact F2]. unfold kept2. intros a b c. apply kept_trans.
Qed.
Lemma cks_refl l : cks l l.
Proof. apply Forall2_refl_of, ck_refl. Qed.
Lemma cks_trans a b c : cks a b -> cks b c -> cks a c.
Proof. apply Forall2_comp, ck_trans. Qed.
Lemma cks_nil : cks [] [].
Proof. constructor. Qed.
Lemma cks_app a a' b b' : cks a a' -> cks b b' -> cks (a ++ b) (a' ++ b').
Proof. apply Forall2_app. Qed.
#[local] Hint Resolve cks_refl cks_nil cks_app : core.

(** ** Closures of parts *)

Definition under (e : expr) : list (bool * expr) :=
  match e with
  | EMacro _ (Mac _ (Some x)) => closures false x
  | _ => fold_expr (@app _) [] (closures false) closures_stmt closures_arm e
  end.
Lemma closures_eq f e : closures f e = own_closure f e ++ under e.
Proof. destruct e; reflexivity. Qed.
Lemma closures_arm_eq x : closures_arm x = fold_arm (@app _) [] (closures false) x.
Proof. destruct x; reflexivity. Qed.
Definition local_at (f : bool) (x : local) : list (bool * expr) :=
  match x with
  | Local _ _ _ i d => fold_opt [] (closures f) i ++ fold_opt [] (closures false) d
  end.
Definition l_attrs (x : local) : list attr := match x with Local a _ _ _ _ => a end.
Lemma closures_local_eq x : closures_local x = local_at (has_auto_enum (l_attrs x)) x.
Proof. destruct x; reflexivity. Qed.

Lemma under_attrs e a : under (set_attrs e a) = under e.
Proof. destruct e; reflexivity. Qed.

(** Fewer annotations. *)
Definition le_flag (f f' : bool) : Prop := f = false -> f' = false.
Lemma own_le f f' e a : le_flag (f || has_auto_enum (e_attrs e)) (f' || has_auto_enum a) ->
  cks (own_closure f e) (own_closure f' (set_attrs e a)).
Proof.
  intros H. destruct e as [| | | | | | | | | | | |ca cps cb| | | | | | |]; cbn [own_closure set_attrs e_attrs] in *; try constructor; [|constructor].
  intros E. cbn [fst snd] in *. split; [auto|]. apply Forall2_refl_of. intros. apply kept_refl.
Qed.
Lemma closures_le f f' e a : le_flag (f || has_auto_enum (e_attrs e)) (f' || has_auto_enum a) ->
  cks (closures f e) (closures f' (set_attrs e a)).
Proof. intros H. rewrite !closures_eq, under_attrs. apply cks_app; [apply own_le; exact H|apply cks_refl]. Qed.
Lemma closures_true f e : cks (closures true e) (closures f e).
Proof. rewrite <- (set_attrs_same e) at 2. apply closures_le. intros E. discriminate E. Qed.
Lemma closures_flag f f' e : le_flag f f' -> cks (closures f e) (closures f' e).
Proof.
  intros H. rewrite <- (set_attrs_same e) at 2. apply closures_le. intros E. apply orb_false_iff in E. destruct E as [E1 E2].
  rewrite (H E1), E2. reflexivity.
Qed.

Lemma find_auto_enum a x a' : find_remove_attr a NAME = Some (x, a') -> has_auto_enum a = true.
Proof.
  revert x a'. induction a as [|y a IH]; intros x a'; [discriminate|]. unfold find_remove_attr in *. cbn [find_remove has_auto_enum existsb].
  fold (has_auto_enum a). fold (attr_path y). unfold NAME in *.
  destruct (is_ident (attr_path y) "auto_enum"); [reflexivity|].
  destruct (find_remove _ a) as [[z r]|]; [|discriminate]. intros _. cbn [orb]. eapply IH. reflexivity.
Qed.
Lemma find_le a n x a' : find_remove_attr a n = Some (x, a') -> le_flag (has_auto_enum a) (has_auto_enum a').
Proof.
  revert x a'. induction a as [|y a IH]; intros x a'; [discriminate|]. unfold find_remove_attr in *. cbn [find_remove].
  destruct (is_ident _ n).
  - intros E. injection E as <- <-. unfold le_flag, has_auto_enum. cbn [existsb]. intros E. apply orb_false_iff in E. apply E.
  - destruct (find_remove _ a) as [[z r]|] eqn:F; [|discriminate]. intros E. injection E as <- <-.
    unfold le_flag, has_auto_enum in *. cbn [existsb]. intros E. apply orb_false_iff in E. destruct E as [-> E].
    cbn [orb]. eapply IH; [reflexivity|exact E].
Qed.
Lemma attrs_le sc a a' : t_attrs sc a a' -> le_flag (has_auto_enum a) (has_auto_enum a').
Proof.
  unfold t_attrs. destruct (sc_foreign sc); [intros ->; intros E; exact E|]. intros [_ H].
  destruct (find_remove_attr a NEVER) as [[x a1]|] eqn:F; [|subst; intros E; exact E].
  destruct H as [_ ->]. eapply find_le; exact F.
Qed.
Lemma le_or f a b : le_flag a b -> le_flag (f || a) (f || b).
Proof. unfold le_flag. destruct f; auto. Qed.

(** Generated code has no closures. *)
Lemma closures_wrap f i v e : closures f (wrap i v e) = closures false e.
Proof. rewrite closures_eq. unfold wrap. cbn [own_closure under fold_expr fold_list fold_right]. cbn. apply app_nil_r. Qed.
Lemma closures_block f b : closures f (EBlock [] None b) = fold_list (@app _) [] closures_stmt b.
Proof. reflexivity. Qed.

(** ** Walks *)

Section Walk.
  Variable V : rvis.
  Hypothesis He : forall x x', o_expr V x x' -> cks (closures false x) (closures false x').
  Lemma under_kids e e' :
    kids (fun x => forall x', o_expr V x x' -> cks (closures false x) (closures false x'))
         (fun x => forall x', o_stmt V x x' -> cks (closures_stmt x) (closures_stmt x'))
         (fun x => forall x', o_arm V x x' -> cks (closures_arm x) (closures_arm x')) e ->
    t_walk V e e' -> cks (under e) (under e').
  Proof.
    intros K W.
    assert (F := fold_walk (@app _) [] (@app _) [] cks cks_nil (fun a a' b b' => cks_app a a' b b') _ _ _ _ _ _ V e e' K W).
    destruct e; cbn [t_walk] in W;
      repeat match goal with H : exists _, _ |- _ => destruct H | H : _ /\ _ |- _ => destruct H end; subst;
      try exact F. apply cks_refl.
  Qed.
End Walk.

Lemma under_walk V e e' :
  (forall x x', o_expr V x x' -> cks (closures false x) (closures false x')) ->
  (forall x x', o_stmt V x x' -> cks (closures_stmt x) (closures_stmt x')) ->
  (forall x x', o_arm V x x' -> cks (closures_arm x) (closures_arm x')) ->
  t_walk V e e' -> cks (under e) (under e').
Proof. intros He Hs Ha. apply under_kids. apply kids_all; assumption. Qed.

(** The closure itself. *)
Lemma own_walk_closure V f e e' :
  (forall a ps b b', e = EClosure a ps b -> o_expr V b b' -> f || has_auto_enum a = false ->
     Forall2 kept2 (exits false pl0 b) (exits false pl0 b')) ->
  t_walk V e e' -> cks (own_closure f e) (own_closure f e').
Proof.
  intros H W. destruct e; cbn [t_walk] in W;
    repeat match goal with H : exists _, _ |- _ => destruct H | H : _ /\ _ |- _ => destruct H end; subst; cbn [own_closure]; try constructor; [|constructor].
  intros E. cbn [fst snd] in *. split; [exact E|]. eapply H; [reflexivity|eassumption|exact E].
Qed.

(** ** Wrapping the branches of the last expression *)

Section Parts.
  Variable P : ctx.

  (** The closures inside change as allowed, the expression itself does not. *)
  Definition QE (e e' : expr) : Prop := (forall f, own_closure f e' = own_closure f e) /\ cks (under e) (under e').
  Lemma QF f x y : QE x y -> cks (closures f x) (closures f y).
  Proof. intros [E K]. rewrite !closures_eq, E. auto. Qed.

  #[local] Hint Resolve QF : core.

  Lemma closures_loop :
    (forall e la n e', c_loop P la n e e' -> QE e e')
    /\ (forall s la n s', c_loop_stmt P la n s s' -> cks (closures_stmt s) (closures_stmt s'))
    /\ (forall x la n x', c_loop_arm P la n x x' -> cks (closures_arm x) (closures_arm x'))
    /\ (forall x la n x', c_loop_local P la n x x' -> cks (closures_local x) (closures_local x')).
  Proof.
    assert (O : forall A (R : option string -> bool -> A -> A -> Prop) (F : A -> list (bool * expr)) (Q : A -> A -> Prop) o la n,
      (forall x y, Q x y -> cks (F x) (F y)) ->
      opt_all (fun x => forall la n y, R la n x y -> Q x y) o ->
      opt_all (fun x => forall y, R la n x y -> cks (F x) (F y)) o).
    { intros A R0 F Q [] la n HQ; cbn; eauto. }
    assert (L : forall A (R : option string -> bool -> A -> A -> Prop) (F : A -> list (bool * expr)) (Q : A -> A -> Prop) l la n,
      (forall x y, Q x y -> cks (F x) (F y)) ->
      Forall (fun x => forall la n y, R la n x y -> Q x y) l ->
      Forall (fun x => forall y, R la n x y -> cks (F x) (F y)) l).
    { intros. eapply Forall_impl; [|eassumption]. cbn. eauto. }
    assert (W : forall la n e e', match e with EClosure _ _ _ => False | _ => True end ->
      kids (fun x => forall la n x', c_loop P la n x x' -> QE x x')
           (fun x => forall la n x', c_loop_stmt P la n x x' -> cks (closures_stmt x) (closures_stmt x'))
           (fun x => forall la n x', c_loop_arm P la n x x' -> cks (closures_arm x) (closures_arm x')) e ->
      t_walk (RVis (c_loop P la n) (c_loop_stmt P la n) (c_loop_arm P la n) (c_loop_local P la n)) e e' -> QE e e').
    { intros la n e e' NC K Wk. split.
      - destruct e; try contradiction; cbn [t_walk] in Wk;
          repeat match goal with H : exists _, _ |- _ => destruct H | H : _ /\ _ |- _ => destruct H end; subst; reflexivity.
      - eapply under_kids; [|exact Wk]. cbn [o_expr o_stmt o_arm].
        destruct e; cbn [kids] in *; repeat match goal with H : _ /\ _ |- _ => destruct H end; repeat split; eauto;
          try (eapply (L _ (c_loop P)); [exact (QF false)|]; assumption); try (eapply (O _ (c_loop P)); [exact (QF false)|]; assumption);
          try (eapply (L _ (c_loop_stmt P)); [intros ? ? KK; exact KK|]; assumption);
          try (eapply (L _ (c_loop_arm P)); [intros ? ? KK; exact KK|]; assumption). }
    assert (RR : forall e, QE e e) by (split; auto).
    apply ast_ind; intros.
    all: try match goal with
      | H : c_loop_arm _ ?l ?n _ _ |- _ =>
          rewrite !closures_arm_eq; refine (fold_arm2 (@app _) [] (@app _) [] cks cks_nil (fun a a' b b' => cks_app a a' b b')
                    (closures false) (closures false) (c_loop P l n) _ _ _ H); split; [eapply (O _ (c_loop P)); [exact (QF false)|assumption]|eauto]
      | H : c_loop_local _ ?l ?n _ _ |- _ =>
          destruct H as (i' & d' & -> & K1 & K2); cbn [closures_local]; apply cks_app;
          [destruct i as [y|]; cbn in K1, H; [destruct K1 as (z & -> & K1)|subst; constructor]
          |destruct d as [y|]; cbn in K2; [destruct K2 as (z & -> & K2)|subst; constructor]]
      | H : c_loop_stmt _ _ _ (SMacro _ _ _) _ |- _ => cbn in H; subst; apply cks_refl
      | H : c_loop_stmt _ ?l ?n _ _ |- _ =>
          cbn in H; repeat match goal with H : exists _, _ |- _ => destruct H | H : _ /\ _ |- _ => destruct H end; subst; cbn; eauto; try constructor
      end.
    all: try match goal with H : c_loop _ _ _ _ _ |- QE _ _ => revert H end;
      cbn [c_loop e_attrs]; try (destruct (any_empty_attr a NEVER); [intros ->; apply RR|]).
    all: try (intros HH; refine (W _ _ _ _ _ _ HH); [exact I|cbn [kids]; auto]; fail).
    - destruct k; try (intros HH; refine (W _ _ _ _ _ _ HH); [exact I|cbn [kids]; auto]; fail). intros ->; apply RR.
    - destruct la; [intros HH; refine (W _ _ _ _ _ _ HH); [exact I|cbn [kids]; auto]|intros ->; apply RR].
    - destruct la; [intros HH; refine (W _ _ _ _ _ _ HH); [exact I|cbn [kids]; auto]|intros ->; apply RR].
    - destruct la; [intros HH; refine (W _ _ _ _ _ _ HH); [exact I|cbn [kids]; auto]|intros ->; apply RR].
    - destruct (own_break la n l).
      + destruct e as [y|].
        * cbn [opt_all] in H. intros (y' & Y & K). pose proof (QF false _ _ (H _ _ _ Y)) as HY.
          destruct (is_marker_expr P y).
          -- subst. split; [reflexivity|exact HY].
          -- destruct K as (y2 & -> & v & ->). split; [reflexivity|]. cbn [under fold_expr fold_opt]. rewrite closures_wrap. exact HY.
        * intros (x' & -> & v & ->). split; [reflexivity|]. constructor.
      + intros (x' & -> & K). split; [reflexivity|]. cbn [under fold_expr].
        destruct e; cbn in K; [destruct K as (y & -> & K); cbn in H|subst; constructor]. cbn [fold_opt]. eauto.
    - intros ->; apply RR.
    - destruct H1 as (i' & d' & -> & K1 & K2). cbn [closures_local]. apply cks_app.
      + destruct i as [y|]; cbn in K1, H; [destruct K1 as (z & -> & K1)|subst; constructor]. cbn [fold_opt]. eauto.
      + destruct d as [y|]; cbn in K2, H0; [destruct K2 as (z & -> & K2)|subst; constructor]. cbn [fold_opt]. eauto.
  Qed.

  Lemma closures_c_arm x x' : c_arm P x x' -> cks (closures_arm x) (closures_arm x').
  Proof.
    unfold c_arm. destruct (skip_arm P x); [intros ->; apply cks_refl|]. destruct x. intros (b' & -> & v & ->).
    rewrite !closures_arm_eq. cbn [fold_arm]. rewrite closures_wrap. apply cks_refl.
  Qed.
  Lemma closures_c_block b b' : c_block P b b' -> fold_list (@app _) [] closures_stmt b' = fold_list (@app _) [] closures_stmt b.
  Proof.
    unfold c_block. destruct (skip_block P b); [intros ->; reflexivity|].
    intros (e' & -> & v & ->). unfold fold_list at 1. cbn [fold_right].
    change (closures_stmt (SExpr (wrap (cx_ident P) v (EBlock [] None b)) false)) with (closures false (wrap (cx_ident P) v (EBlock [] None b))).
    rewrite closures_wrap, closures_block, app_nil_r. reflexivity.
  Qed.
  Lemma closures_c_if : forall e e', c_if P e e' -> (forall f, own_closure f e' = own_closure f e) /\ under e' = under e.
  Proof.
    destruct (ast_ind (fun e => forall e', c_if P e e' -> (forall f, own_closure f e' = own_closure f e) /\ under e' = under e)
       (fun _ => True) (fun _ => True) (fun _ => True)) as (H & _);
      [..|exact H]; cbv beta; intros; try exact I; cbn [c_if] in *; try (subst; auto; fail).
    destruct H2 as (t' & els' & -> & B & K). split; [reflexivity|].
    cbn [under fold_expr]. rewrite (closures_c_block _ _ B). f_equal. f_equal.
    destruct els as [els|]; [|contradiction]. destruct els; try contradiction.
    - destruct K as (b' & -> & B'). cbn [fold_opt]. rewrite !closures_eq. cbn [own_closure under fold_expr].
      rewrite (closures_c_block _ _ B'). reflexivity.
    - destruct K as (e2 & -> & K). cbn [opt_all] in H1. cbn [fold_opt]. destruct (H1 _ K) as [E1 E2].
      rewrite !closures_eq, E1, E2. reflexivity.
  Qed.
  Lemma closures_last (f : expr -> expr -> Prop) b b' :
    Forall (fun s => match s with SExpr e _ => forall e', f e e' -> cks (closures false e) (closures false e') | _ => True end) b ->
    t_last f b b' -> cks (fold_list (@app _) [] closures_stmt b) (fold_list (@app _) [] closures_stmt b').
  Proof.
    intros H. revert b'. induction H as [|s b H K IH]; intros b'; cbn [t_last]; [intros ->; constructor|].
    destruct b.
    - destruct s as [| |e []|]; try (intros ->; apply cks_refl).
      intros (e' & -> & F). unfold fold_list. cbn [fold_right]. rewrite !app_nil_r. apply H. exact F.
    - intros (r' & -> & F). apply IH in F. unfold fold_list in *. cbn [fold_right] in *.
      apply cks_app; [apply cks_refl|exact F].
  Qed.
  Lemma closures_c_expr : forall e e', c_expr P e e' -> QE e e'.
  Proof.
    assert (RR : forall e, QE e e) by (split; auto).
    destruct (ast_ind (fun e => forall e', c_expr P e e' -> QE e e')
      (fun s => match s with SExpr e _ => forall e', c_expr P e e' -> QE e e' | _ => True end)
      (fun _ => True) (fun _ => True)) as (H & _); [..|exact H]; cbv beta; intros; try exact I; try (apply H; assumption);
      match goal with H : c_expr _ _ _ |- _ => revert H end; cbn [c_expr];
      (destruct (negb (visit_last P) || _); [intros ->; apply RR|]); try (intros ->; apply RR).
    - intros (b' & -> & K). split; [reflexivity|]. cbn [under fold_expr].
      eapply closures_last; [|exact K]. eapply Forall_impl; [|exact H]. intros [] Hs; auto.
    - destruct k; try (intros ->; apply RR).
      intros (b' & -> & K). split; [reflexivity|]. cbn [under fold_expr].
      eapply closures_last; [|exact K]. eapply Forall_impl; [|exact H]. intros [] Hs; auto.
    - intros (arms' & -> & K). split; [reflexivity|]. cbn [under fold_expr]. apply cks_app; [apply cks_refl|].
      eapply fold_all2; [exact cks_nil|exact cks_app| |exact K]. apply Forall_forall. intros x _ y. apply closures_c_arm.
    - intros K. destruct (closures_c_if _ _ K) as [E1 E2]. split; [exact E1|]. rewrite E2. apply cks_refl.
    - intros (b' & -> & K). split; [reflexivity|]. cbn [under fold_expr].
      eapply fold_all2; [exact cks_nil|exact cks_app| |exact K].
      apply Forall_forall. intros x _ y Hy. eapply closures_loop. exact Hy.
    - intros (r' & -> & K). split; [reflexivity|]. cbn [under fold_expr]. apply cks_app; [|apply cks_refl]. auto.
    - intros (b' & -> & K). split; [reflexivity|]. cbn [under fold_expr]. auto.
  Qed.
End Parts.

(** ** The engine *)

Section Engine.
  Variables (hash : node -> N) (ta : bool).

  Record closures_ok (T : tengine) : Prop := ClosuresOk {
    co_vexpr : forall P sc b e e', gen_name (cx_ident P) = true -> q_vexpr T P sc b e e' -> forall f, cks (closures f e) (closures f e');
    co_vstmt : forall P sc s s', gen_name (cx_ident P) = true -> q_vstmt T P sc s s' -> cks (closures_stmt s) (closures_stmt s');
    co_varm : forall P sc x x', gen_name (cx_ident P) = true -> q_varm T P sc x x' -> cks (closures_arm x) (closures_arm x');
    co_vlocal : forall P sc x x', gen_name (cx_ident P) = true -> q_vlocal T P sc x x' ->
      le_flag (has_auto_enum (l_attrs x)) (has_auto_enum (l_attrs x')) /\ forall f, cks (local_at f x) (local_at f x');
    co_dexpr : forall P e e', q_dexpr T P e e' -> forall f, cks (closures f e) (closures f e');
    co_dstmt : forall P s s', q_dstmt T P s s' -> cks (closures_stmt s) (closures_stmt s')
  }.

  Variable T : tengine.
  Hypothesis G : closures_ok T.
  Hypothesis X : exits_ok T.

  Lemma local_flag f f' x x' : le_flag f f' -> cks (local_at f x) (local_at f x') -> cks (local_at f x) (local_at f' x').
  Proof.
    intros L H. eapply cks_trans; [exact H|]. destruct x' as [a p t i d]. cbn [local_at]. apply cks_app; [|apply cks_refl].
    destruct i; [apply closures_flag; exact L|constructor].
  Qed.
  Lemma local_true f x x' : cks (local_at true x) (local_at true x') -> cks (local_at true x) (local_at f x').
  Proof. apply local_flag. intros E. discriminate E. Qed.

  Lemma dlocal f P x x' : t_local (q_dexpr T P) x x' ->
    le_flag (has_auto_enum (l_attrs x)) (has_auto_enum (l_attrs x')) /\ cks (local_at f x) (local_at f x').
  Proof.
    destruct x as [a p t i d]. cbn [t_local]. intros (i' & d' & -> & K1 & K2). split; [intros E; exact E|]. cbn [local_at]. apply cks_app.
    - destruct i; cbn in K1; [destruct K1 as (y & -> & K1)|subst; constructor]. eapply co_dexpr; eassumption.
    - destruct d; cbn in K2; [destruct K2 as (y & -> & K2)|subst; constructor]. eapply co_dexpr; eassumption.
  Qed.
  Lemma darm P x x' : t_arm (q_dexpr T P) x x' -> cks (closures_arm x) (closures_arm x').
  Proof.
    intros H. rewrite !closures_arm_eq.
    refine (fold_arm2 (@app _) [] (@app _) [] cks cks_nil (fun a a' b b' => cks_app a a' b b')
              (closures false) (closures false) (q_dexpr T P) _ _ _ H).
    destruct x. split; [destruct guard; cbn; [|exact I]|]; intros; eapply co_dexpr; eassumption.
  Qed.

  (** The visitors of an expression and its parts. *)
  Definition vis_ok (V : ctx -> rvis) (P : ctx) (e : expr) : Prop :=
    forall C, (C = P \/ C = set_markers [] P) -> forall a e' f, t_walk (V C) (set_attrs e a) e' ->
    cks (closures f (set_attrs e a)) (closures f e').

  Lemma dwalk_closures P e e' f : t_walk (td_vis T P) e e' -> cks (closures f e) (closures f e').
  Proof.
    intros W. rewrite !closures_eq. apply cks_app.
    - eapply own_walk_closure; [|exact W]. cbn [td_vis o_expr]. intros a ps b b' _ H _. eapply xo_dexpr; eassumption.
    - eapply under_walk; [..|exact W]; cbn [td_vis o_expr o_stmt o_arm]; intros x x' H.
      + eapply co_dexpr; eassumption.
      + eapply co_dstmt; eassumption.
      + eapply darm; exact H.
  Qed.
  Lemma dvis_ok P e : vis_ok (td_vis T) P e.
  Proof. intros C _ a e' f. apply dwalk_closures. Qed.

  Lemma closure_fits P sc : gen_name (cx_ident P) = true -> sc_closure sc = true -> fit P false sc pl0.
  Proof. intros N C. unfold fit. split; [exact N|]. destruct (cx_mode P); rewrite ?C; try split; try discriminate; auto. Qed.
  Lemma closure_treated P x x' : treated P true x x' -> kept2 x x'.
  Proof. auto. Qed.

  Lemma vvis_ok P sc e : gen_name (cx_ident P) = true -> (head e = HClosure -> sc_closure sc = true) -> vis_ok (tv_vis T sc) P e.
  Proof.
    intros N HC C EC a e' f W. assert (NC : gen_name (cx_ident C) = true) by (destruct EC as [->| ->]; exact N).
    rewrite !closures_eq. apply cks_app.
    - eapply own_walk_closure; [|exact W]. cbn [tv_vis o_expr]. intros a0 ps b b' E H _.
      assert (SC : sc_closure sc = true) by (apply HC; rewrite <- (head_attrs e a), E; reflexivity).
      pose proof (xo_vexpr _ X C sc false pl0 false b b' (closure_fits _ _ NC SC) H pl0) as K.
      rewrite SC in K. exact K.
    - eapply under_walk; [..|exact W]; cbn [tv_vis o_expr o_stmt o_arm]; intros x x' H.
      + eapply co_vexpr; eassumption.
      + eapply co_vstmt; eassumption.
      + eapply co_varm; eassumption.
  Qed.

  (** Nested attributes *)

  Lemma body_closures P e e' f : gen_name (cx_ident P) = true -> t_body ta T P e e' -> cks (closures f e) (closures f e').
  Proof.
    intros N (e1 & k & C & _ & D). eapply cks_trans; [apply (QF f), (closures_c_expr P _ _ C)|].
    destruct D as [(_ & _ & D)|D]; [eapply co_dexpr; eassumption|eapply co_vexpr; eassumption].
  Qed.
  Lemma expand_closures P e e' f : gen_name (cx_ident P) = true -> t_expand ta T P e e' -> cks (closures true e) (closures f e').
  Proof.
    intros N H. eapply cks_trans; [|apply (closures_true f)]. revert H.
    unfold t_expand. destruct e; try (apply body_closures; exact N). destruct (visit_last P); [|apply body_closures; exact N].
    intros (b' & -> & B). rewrite !closures_eq. apply cks_app.
    - cbn [own_closure]. constructor; [|constructor]. intros E. discriminate E.
    - cbn [under fold_expr]. eapply body_closures; [|exact B]. exact N.
  Qed.
  Lemma build_closures P e e' f : t_build_expr P e e' -> cks (closures true e) (closures f e').
  Proof.
    intros [->|(n & _ & ->)]; [apply closures_true|]. rewrite closures_block. unfold fold_list. cbn [fold_right].
    cbn [closures_stmt fold_stmt]. rewrite app_nil_r. apply closures_true.
  Qed.
  Lemma parent_closures P e semi e' f :
    gen_name (cx_ident P) = true -> t_parent_expr ta T P e semi e' -> cks (closures true e) (closures f e').
  Proof.
    intros N. unfold t_parent_expr. destruct (is_dummy P).
    - intros H. eapply cks_trans; [eapply co_dexpr; eassumption|apply closures_true].
    - intros (e1 & E & B). eapply cks_trans; [eapply expand_closures; [|exact E]; destruct semi; exact N|].
      eapply build_closures; exact B.
  Qed.
  Lemma parent_local_closures P l l' f :
    gen_name (cx_ident P) = true -> t_parent_local ta T P l l' -> cks (local_at true l) (local_at f l').
  Proof.
    intros N. destruct l as [a p t i d]. cbn [t_parent_local]. cbv zeta. intros (i' & d' & -> & H). apply local_true. cbn [local_at].
    assert (O : forall C o o' g, opt2 (q_dexpr T C) o o' -> cks (fold_opt [] (closures g) o) (fold_opt [] (closures g) o')).
    { intros C [x|] o' g; cbn; [intros (y & -> & K); eapply co_dexpr; eassumption|intros ->; constructor]. }
    apply cks_app; destruct (is_dummy _).
    - destruct H as [H1 H2]. eapply O; eassumption.
    - destruct H as (-> & e & e1 & e2 & -> & -> & E & B). cbn [fold_opt].
      eapply cks_trans; [eapply expand_closures; [|exact E]|eapply build_closures; exact B].
      unfold t_collect. destruct t, ta; exact N.
    - destruct H as [H1 H2]. eapply O; eassumption.
    - destruct H as (-> & _). apply cks_refl.
  Qed.
  Lemma nested_gen P h toks C : nested_ctx P (enum_name h) toks C -> gen_name (cx_ident C) = true.
  Proof. intros H. apply (nested_mode _ _ _ _ H). Qed.

  Lemma vs_closures V P e semi e' f : vis_ok V P e -> t_vs_expr hash ta T V P e semi e' -> cks (closures f e) (closures f e').
  Proof.
    intros W. unfold t_vs_expr. destruct (find_remove_attr (e_attrs e) NAME) as [[at_ a']|] eqn:F.
    - cbv zeta. intros (p & toks & C & e1 & _ & NC & K & L).
      eapply cks_trans; [|eapply parent_closures; [eapply nested_gen; exact NC|exact L]].
      eapply cks_trans; [|eapply (W _ (or_intror eq_refl)); exact K].
      apply closures_le. rewrite (find_auto_enum _ _ _ F), orb_true_r. intros E. discriminate E.
    - intros K. rewrite <- (set_attrs_same e) in K. pose proof (W P (or_introl eq_refl) _ e' f K) as Q.
      rewrite set_attrs_same in Q. exact Q.
  Qed.

  Lemma marker_closures P e e' f : t_marker P e e' -> cks (closures f e) (closures f e').
  Proof.
    unfold t_marker. destruct e; try (intros ->; apply cks_refl). destruct m as [p x].
    destruct (is_ident p (cx_marker P)); [|intros ->; apply cks_refl].
    intros (y & v & -> & ->). rewrite !closures_eq. cbn [own_closure under fold_expr]. unfold fold_list. cbn [fold_right].
    rewrite app_nil_r. cbn. apply cks_refl.
  Qed.

  Lemma nested_closures P e e' a f : t_nested P e e' a -> cks (closures f e) (closures f e').
  Proof. intros (_ & C & _). apply (QF f), (closures_c_expr P _ _ C). Qed.

  Lemma visit_closures P sc semi e e' f : gen_name (cx_ident P) = true -> t_visit_expr hash ta T P sc semi e e' ->
    cks (closures f e) (closures f e').
  Proof.
    intros N. unfold t_visit_expr. cbv zeta. intros (e1 & e2 & e3 & H1 & H2 & H3 & H4).
    set (sc1 := check_expr _ e) in *.
    assert (X1 : cks (closures f e) (closures f e1) /\ head e1 = head e /\ e_attrs e1 = e_attrs e).
    { assert (Z : e1 = e -> cks (closures f e) (closures f e1) /\ head e1 = head e /\ e_attrs e1 = e_attrs e) by (intros ->; auto).
      destruct (cx_mode P); [auto| |].
      - unfold t_return in H1. destruct (_ && _) in H1; [|auto]. destruct e; auto.
        destruct (match e with Some _ => _ | None => _ end) in H1; [auto|].
        destruct H1 as (x' & -> & v & ->). split; [|split; reflexivity]. rewrite !closures_eq. cbn [own_closure under fold_expr fold_opt app].
        rewrite closures_wrap. destruct e; apply cks_refl.
      - unfold t_try in H1. destruct (_ && _) in H1; [|auto]. destruct e; auto.
        destruct (is_marker_expr P e) in H1; [auto|].
        destruct H1 as (v & ->). split; [|split; reflexivity]. rewrite !closures_eq. cbn [own_closure under fold_expr app].
        cbn. rewrite app_nil_r. apply cks_refl. }
    destruct X1 as (K1 & D1 & A1).
    assert (X2 : cks (closures f e1) (closures f e2) /\ head e2 = head e1).
    { destruct (sc_foreign sc1); [subst; auto|].
      destruct (find_remove_attr (e_attrs e1) NESTED) as [[at_ a']|] eqn:FR; [|subst; auto].
      split.
      - eapply cks_trans; [|eapply nested_closures; exact H2]. apply closures_le, le_or. eapply find_le; exact FR.
      - destruct H2 as (_ & H2 & _). destruct (c_expr_same P N false _ _ H2) as (_ & _ & _ & _ & E). rewrite E. apply head_attrs. }
    destruct X2 as (K2 & D2).
    assert (K3 : cks (closures f e2) (closures f e3)).
    { eapply vs_closures; [|exact H3]. apply vvis_ok; [exact N|]. rewrite D2, D1. unfold sc1. destruct e; try discriminate. reflexivity. }
    assert (K : cks (closures f e) (closures f e3)) by (eapply cks_trans; [eapply cks_trans; eassumption|exact K3]).
    destruct (negb (sc_foreign sc1) || _); [|subst; exact K].
    destruct H4 as (e4 & a' & M & A & ->). eapply cks_trans; [exact K|].
    eapply cks_trans; [eapply marker_closures; exact M|]. apply closures_le, le_or. eapply attrs_le; exact A.
  Qed.

  Lemma opt_closures P sc o o' f : gen_name (cx_ident P) = true -> opt2 (q_vexpr T P sc false) o o' ->
    cks (fold_opt [] (closures f) o) (fold_opt [] (closures f) o').
  Proof. intros N. destruct o; cbn; [intros (y & -> & K); eapply co_vexpr; eassumption|intros ->; constructor]. Qed.

  Lemma visit_arm_closures P sc x x' : gen_name (cx_ident P) = true -> t_visit_arm T P sc x x' -> cks (closures_arm x) (closures_arm x').
  Proof.
    intros N. destruct x as [a p g b c]. cbn [t_visit_arm]. intros (a1 & b1 & g2 & b2 & a2 & H1 & Hg & Hb & A & ->).
    rewrite !closures_arm_eq. cbn [fold_arm]. apply cks_app; [eapply opt_closures; eassumption|].
    eapply cks_trans; [|eapply co_vexpr; eassumption].
    destruct (sc_foreign sc); [destruct H1 as [_ ->]; apply cks_refl|].
    destruct (find_remove_attr a NESTED) as [[at_ a']|]; [|destruct H1 as [_ ->]; apply cks_refl].
    destruct H1 as (_ & H1). eapply nested_closures; exact H1.
  Qed.
  Lemma visit_local_closures P sc x x' : gen_name (cx_ident P) = true -> t_visit_local T P sc x x' ->
    le_flag (has_auto_enum (l_attrs x)) (has_auto_enum (l_attrs x')) /\ forall f, cks (local_at f x) (local_at f x').
  Proof.
    intros N. destruct x as [a p t i d]. cbn [t_visit_local]. intros (a1 & i1 & i2 & d2 & a2 & H1 & Hi & Hd & A & ->).
    assert (L : le_flag (has_auto_enum a) (has_auto_enum a1) /\ forall f, cks (fold_opt [] (closures f) i) (fold_opt [] (closures f) i1)).
    { assert (Z : a1 = a /\ i1 = i -> le_flag (has_auto_enum a) (has_auto_enum a1) /\ forall f, cks (fold_opt [] (closures f) i) (fold_opt [] (closures f) i1)).
      { intros [-> ->]. split; [intros E; exact E|auto]. }
      destruct (sc_foreign sc); [auto|]. destruct (find_remove_attr a NESTED) as [[at_ a']|] eqn:F; [|auto].
      destruct H1 as (-> & K). split; [eapply find_le; exact F|]. intros f.
      destruct i as [y|]; cbn in K; [destruct K as (z & -> & K)|subst; constructor]. eapply nested_closures; exact K. }
    destruct L as [L1 L2]. split.
    - cbn [l_attrs]. intros E. eapply attrs_le; [exact A|]. auto.
    - intros f. cbn [local_at]. apply cks_app; [|eapply opt_closures; eassumption].
      eapply cks_trans; [apply L2|eapply opt_closures; eassumption].
  Qed.

  Lemma local_attr_true a p t i d at_ a' : find_remove_attr a NAME = Some (at_, a') ->
    cks (closures_local (Local a p t i d)) (local_at true (Local a' p t i d)).
  Proof. intros F. cbn [closures_local local_at]. rewrite (find_auto_enum _ _ _ F). apply cks_refl. Qed.

  Lemma step_closures : closures_ok (t_step hash ta T).
  Proof.
    constructor; cbn [q_vexpr q_vstmt q_varm q_vlocal q_dexpr q_dstmt t_step].
    - intros P sc b e e' N H f. eapply visit_closures; eassumption.
    - intros P sc s s' N H. unfold t_visit_stmt in H.
      destruct s as [[a p t i d]|it|e semi|a m semi].
      + cbn [t_vs_stmt] in H. destruct (find_remove_attr a NAME) as [[at_ a']|] eqn:FR.
        * cbv zeta in H. destruct H as (toks & C & l1 & l' & _ & NC & K & -> & M). cbn in K.
          change (cks (closures_local (Local a p t i d)) (closures_local l')). rewrite (closures_local_eq l').
          eapply cks_trans; [eapply local_attr_true; exact FR|].
          eapply cks_trans; [|eapply parent_local_closures; [eapply nested_gen; exact NC|exact M]].
          apply (co_vlocal _ G (set_markers [] P) _ _ _ N K).
        * destruct H as (l' & -> & K). cbn in K.
          change (cks (closures_local (Local a p t i d)) (closures_local l')). rewrite !closures_local_eq.
          destruct (co_vlocal _ G _ _ _ _ N K) as [K1 K2]. apply local_flag; [exact K1|apply K2].
      + cbn in H. subst. constructor.
      + destruct H as (e' & -> & H). exact (co_vexpr _ G _ _ _ _ _ N H false).
      + cbn in H. subst. apply cks_refl.
    - intros P sc x x'. apply visit_arm_closures.
    - intros P sc x x'. apply visit_local_closures.
    - intros P e e' H f. eapply vs_closures; [apply dvis_ok|exact H].
    - intros P s s' H. destruct s as [[a p t i d]|it|e semi|a m semi]; cbn [t_vs_stmt] in H.
      + destruct (find_remove_attr a NAME) as [[at_ a']|] eqn:FR.
        * cbv zeta in H. destruct H as (toks & C & l1 & l' & _ & NC & K & -> & M).
          change (cks (closures_local (Local a p t i d)) (closures_local l')). rewrite (closures_local_eq l').
          eapply cks_trans; [eapply local_attr_true; exact FR|].
          eapply cks_trans; [|eapply parent_local_closures; [eapply nested_gen; exact NC|exact M]].
          apply (dlocal true _ _ _ K).
        * destruct H as (l' & -> & K).
          change (cks (closures_local (Local a p t i d)) (closures_local l')). rewrite !closures_local_eq.
          destruct (dlocal (has_auto_enum (l_attrs (Local a p t i d))) _ _ _ K) as [K1 K2]. apply local_flag; [exact K1|exact K2].
      + subst. constructor.
      + destruct H as (e' & -> & H). exact (vs_closures (td_vis T) P e semi e' false (dvis_ok P e) H).
      + subst. apply cks_refl.
  Qed.
End Engine.

Theorem engine_closures hash ta n : closures_ok (tengine_n hash ta n).
Proof.
  induction n as [|n IH]; [constructor; cbn; intros; contradiction|].
  cbn [tengine_n]. apply step_closures; [exact IH|apply engine_exits].
Qed.

(** ** The attribute *)

Lemma cks_kept l l' : cks l l' -> Forall2 closure_kept l l'.
Proof. apply Forall2_mono. intros x x' H E. apply (H E). Qed.

Theorem attribute_closures hash ta n args i i' cx :
  attribute hash ta n args i = ROk (Code i' cx) ->
  Forall2 closure_kept (input_closures i) (input_closures i').
Proof.
  intros H. apply cks_kept. apply attribute_twin in H. destruct H as (P & E & H).
  assert (N : gen_name (cx_ident P) = true).
  { destruct (parse_args args) as [er|[ps m]] eqn:PA; [unfold ctx_root, ctx_new in E; rewrite PA in E; discriminate E|].
    apply (root_facts _ _ _ _ _ PA E), gen_enum_name. }
  set (T := tengine_n hash ta n) in *. pose proof (engine_closures hash ta n) as G. fold T in G.
  destruct i as [s|e|]; [|destruct H as (e' & -> & H); exact (parent_closures ta T G P e false e' true N H)|contradiction].
  destruct H as (s' & -> & H). destruct s as [l|it|e semi|a m semi]; cbn [t_parent_stmt] in H.
  - destruct H as (l' & -> & H). destruct l as [a p t i d], l' as [a' p' t' i' d'].
    exact (parent_local_closures ta T G P _ _ true N H).
  - destruct it as [a sg out b| |]; try contradiction. destruct H as (b' & -> & H). cbn [input_closures].
    unfold t_parent_fn in H. cbv zeta in H. set (P1 := fn_ctx ta P out b) in *.
    assert (N1 : gen_name (cx_ident P1) = true) by (unfold P1, fn_ctx, t_collect; destruct out, ta; exact N).
    assert (D : forall b1, all2 (q_dstmt T P1) b1 b' -> cks (fold_list (@app _) [] closures_stmt b1) (fold_list (@app _) [] closures_stmt b')).
    { intros b1 A. eapply fold_all2; [exact cks_nil|exact cks_app| |exact A]. apply Forall_forall. intros s _ s'. apply (co_dstmt _ G). }
    destruct (is_dummy P1); [apply D; exact H|].
    destruct H as (_ & b1 & k & L & _ & H).
    eapply cks_trans; [eapply closures_last; [|exact L]; apply Forall_forall; intros [] _; auto; intros e' C; apply QF, (closures_c_expr P1 _ _ C)|].
    destruct H as [(_ & _ & H)|(b2 & A & B)]; [apply D; exact H|].
    assert (K : cks (fold_list (@app _) [] closures_stmt b1) (fold_list (@app _) [] closures_stmt b2)).
    { eapply fold_all2; [exact cks_nil|exact cks_app| |exact A]. apply Forall_forall. intros s _ s'. apply (co_vstmt _ G); exact N1. }
    destruct B as [->|(m & _ & ->)]; exact K.
  - destruct H as (e' & -> & H). exact (parent_closures ta T G P e semi e' true N H).
  - subst. apply cks_refl.
Qed.

(** ** Items *)

Lemma added_refl l : enums_added l l.
Proof. induction l; constructor; assumption. Qed.
Lemma added_trans a b c : enums_added a b -> enums_added b c -> enums_added a c.
Proof.
  intros H K. revert a H. induction K as [|i l l' K IH|g l l' K IH]; intros a H.
  - exact H.
  - inversion H; subst; constructor; auto.
  - constructor. auto.
Qed.
Lemma added_app a a' b b' : enums_added a a' -> enums_added b b' -> enums_added (a ++ b) (a' ++ b').
Proof. induction 1; cbn; intros; try constructor; auto. Qed.

Lemma items_attrs e a : items (set_attrs e a) = items e.
Proof. destruct e; reflexivity. Qed.
Lemma items_wrap i v e : items (wrap i v e) = items e.
Proof. unfold wrap. cbn [items fold_expr]. unfold fold_list. cbn [fold_right]. rewrite app_nil_r. reflexivity. Qed.
Lemma items_branch i v b : fold_list (@app _) [] items_stmt (wrap_branch i v b) = fold_list (@app _) [] items_stmt b.
Proof.
  unfold wrap_branch. unfold fold_list at 1. cbn [fold_right]. rewrite app_nil_r.
  change (items_stmt (SExpr (wrap i v (EBlock [] None b)) false)) with (items (wrap i v (EBlock [] None b))).
  rewrite items_wrap. reflexivity.
Qed.

Lemma edits_items mk :
  (forall t e e', ed_expr mk t e e' -> enums_added (items e) (items e'))
  /\ (forall t l l', ed_exprs mk t l l' -> enums_added (fold_list (@app _) [] items l) (fold_list (@app _) [] items l'))
  /\ (forall t o o', ed_opt mk t o o' -> enums_added (fold_opt [] items o) (fold_opt [] items o'))
  /\ (forall t s s', ed_stmt mk t s s' -> enums_added (items_stmt s) (items_stmt s'))
  /\ (forall t l l', ed_stmts mk t l l' -> enums_added (fold_list (@app _) [] items_stmt l) (fold_list (@app _) [] items_stmt l'))
  /\ (forall t x x', ed_arm mk t x x' -> enums_added (items_arm x) (items_arm x'))
  /\ (forall t l l', ed_arms mk t l l' -> enums_added (fold_list (@app _) [] items_arm l) (fold_list (@app _) [] items_arm l'))
  /\ (forall t x x', ed_local mk t x x' -> enums_added (items_local x) (items_local x')).
Proof.
  apply (ed_ind mk); intros; try (eapply added_trans; eassumption); try apply added_refl;
    try (cbn; repeat apply added_app; assumption || apply added_refl; fail).
  - rewrite items_attrs. apply added_refl.
  - cbn [items fold_expr]. rewrite items_branch. apply added_refl.
  - cbn [items fold_expr fold_opt]. rewrite items_branch. apply added_refl.
  - cbn [items fold_expr fold_opt]. rewrite items_wrap. destruct o; apply added_refl.
  - cbn [items fold_expr fold_opt]. rewrite items_wrap. destruct o; apply added_refl.
  - cbn. rewrite app_nil_r. apply added_refl.
  - cbn. rewrite app_nil_r. apply added_refl.
  - cbn. rewrite app_nil_r. constructor. assumption.
  - cbn [items_arm fold_arm]. rewrite items_wrap. apply added_refl.
Qed.

Theorem attribute_items hash ta n args i i' cx :
  attribute hash ta n args i = ROk (Code i' cx) -> enums_added (input_items i) (input_items i').
Proof.
  intros H. destruct (attribute_edits _ _ _ _ _ _ _ H) as (t & R & _). destruct (edits_items (marker_name args i)) as (HE & _ & _ & HS & HB & _).
  destruct R as [t e e' R|t s s' R|t a sig out b b' R]; cbn [input_items].
  - eapply HE; exact R.
  - pose proof (HS _ _ _ R) as K. destruct R as [[]| | |]; try exact K. apply added_refl.
  - destruct R as [t b b' R|j m d t b b' R M]; [eapply HB; exact R|].
    unfold fold_list. cbn [fold_right items_stmt]. cbn [app]. constructor. exact (HB _ _ _ R).
Qed.
