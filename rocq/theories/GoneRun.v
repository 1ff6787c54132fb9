(** Proof: the annotations are gone from the output (Annotations.v). *)

Require Import Coq.Strings.String Coq.Lists.List Coq.Bool.Bool.
Require Import Verif.Syntax Verif.Context Verif.ExprModel Verif.Edits Verif.NoValueSpec Verif.Tails Verif.TwinEdits Verif.ArgsSpec Verif.ArgsRun.
Require Import Verif.AstInd Verif.Changes Verif.ChangesInd Verif.ChangesTop Verif.LoopsRun Verif.Branches Verif.BranchesRun Verif.Nodes Verif.Annotations.
Require Import Verif.AnnotRun.
Import ListNotations.
Open Scope string_scope.
Open Scope list_scope.

(** ** One condition implies another *)

Section Impl.
  Context {C D : Type} (r : rule C) (s : rule D) (K : C -> D -> Prop).
  Hypothesis Ke : forall c d e, K c d -> r_expr r c e = true -> r_expr s d e = true.
  Hypothesis Ki : forall c d e, K c d -> r_expr r c e = true -> K (r_in r c e) (r_in s d e).
  Hypothesis Ka : forall c d a, K c d -> r_arm r c a = true -> r_arm s d a = true.
  Hypothesis Kl : forall c d a v, K c d -> r_let r c a v = true -> r_let s d a v = true.
  Hypothesis Kv : forall c d a v e, K c d -> r_let r c a v = true -> K (r_value r c a e) (r_value s d a e).
  Hypothesis Kd : forall c d a v, K c d -> r_let r c a v = true -> K (r_else r c a) (r_else s d a).

  Definition implied {A} (f : C -> A -> bool) (g : D -> A -> bool) (x : A) : Prop := forall c d, K c d -> f c x = true -> g d x = true.
  Lemma list_impl {A} (f : C -> A -> bool) (g : D -> A -> bool) l c d : Forall (implied f g) l -> K c d ->
    fold_list andb true (f c) l = true -> fold_list andb true (g d) l = true.
  Proof.
    intros F KK. unfold fold_list. induction F as [|x l H F IH]; [reflexivity|]. cbn [fold_right]. intros E. apply andb_true_iff in E.
    apply andb_true_iff. split; [apply (H c d KK); apply E|apply IH; apply E].
  Qed.
  Lemma opt_impl {A} (f : C -> A -> bool) (g : D -> A -> bool) o c d : opt_all (implied f g) o -> K c d ->
    fold_opt true (f c) o = true -> fold_opt true (g d) o = true.
  Proof. destruct o; cbn; [intros H KK; exact (H c d KK)|reflexivity]. Qed.
  Lemma below_impl c d e : kids (implied (all r) (all s)) (implied (all_stmt r) (all_stmt s)) (implied (all_arm r) (all_arm s)) e ->
    K c d -> below r c e = true -> below s d e = true.
  Proof.
    intros H KK E. unfold below in *. destruct e; cbn [kids fold_expr] in *; repeat match goal with H : _ /\ _ |- _ => destruct H end;
      repeat match goal with H : _ && _ = true |- _ => apply andb_true_iff in H; destruct H end; rewrite ?andb_true_iff; repeat split;
      eauto using list_impl, opt_impl; match goal with H : implied _ _ ?x |- _ ?x = true => eapply H; eassumption | _ => idtac end.
  Qed.
  Theorem all_impl :
    (forall e, implied (all r) (all s) e) /\ (forall e, implied (all_stmt r) (all_stmt s) e)
    /\ (forall e, implied (all_arm r) (all_arm s) e) /\ (forall e, implied (all_local r) (all_local s) e).
  Proof.
    assert (X : forall e, kids (implied (all r) (all s)) (implied (all_stmt r) (all_stmt s)) (implied (all_arm r) (all_arm s)) e ->
      implied (all r) (all s) e).
    { intros e KD c d KK E. rewrite (all_below r) in E. rewrite (all_below s). apply andb_true_iff in E. destruct E as [E1 E2]. rewrite (Ke c d _ KK E1). cbn [andb].
      eapply below_impl; [exact KD|exact (Ki _ _ _ KK E1)|exact E2]. }
    apply ast_ind; intros; try (apply X; cbn [kids]; auto; fail).
    - intros c d KK E. rewrite all_let_eq in *. exact (H c d KK E).
    - intros c d KK E. reflexivity.
    - intros c d KK E. rewrite all_stmt_eq in *. exact (H c d KK E).
    - intros c d0 KK E. reflexivity.
    - intros c d0 KK E. rewrite all_local_eq in *. apply andb_true_iff in E. destruct E as [E1 E2]. apply andb_true_iff in E2. destruct E2 as [E2 E3].
      rewrite (Kl _ _ _ _ KK E1). cbn [andb]. apply andb_true_iff. split.
      + destruct i; [|reflexivity]. cbn [fold_opt] in *. eapply H; [eapply Kv; eassumption|exact E2].
      + eapply opt_impl; [exact H0|eapply Kd; eassumption|exact E3].
    - intros c0 d KK E. rewrite all_arm_eq in *. apply andb_true_iff in E. destruct E as [E1 E2]. apply andb_true_iff in E2. destruct E2 as [E2 E3].
      rewrite (Ka _ _ _ KK E1). cbn [andb]. apply andb_true_iff. split; [eapply opt_impl; eassumption|eapply H0; eassumption].
  Qed.
End Impl.

(** ** The two conditions *)

Notation T := tidy.
Notation G := gone.
Lemma free_parts a : free_of a = true <-> attr_named "auto_enum" a = false /\ attr_named "nested" a = false /\ attr_named "never" a = false.
Proof. unfold free_of. rewrite negb_true_iff, !orb_false_iff. tauto. Qed.
Lemma un_parts_of a : unannotated a = true <-> attr_named "nested" a = false /\ attr_named "never" a = false.
Proof. unfold unannotated. rewrite negb_true_iff, orb_false_iff. tauto. Qed.
Lemma filter_none n a : attr_named n a = false -> filter (fun x => is_ident (attr_path x) n) a = [].
Proof.
  unfold attr_named. induction a as [|x a IH]; [reflexivity|]. cbn. destruct (is_ident (attr_path x) n); [discriminate|exact IH].
Qed.
Lemma once_none n a : attr_named n a = false -> once_of n a = true.
Proof. intros H. unfold once_of. rewrite (filter_none _ _ H). reflexivity. Qed.
Lemma once_removed n a x a' : removes n a x a' -> once_of n a = true -> attr_named n a' = false.
Proof.
  intros (l & r & -> & -> & I & N) O. unfold once_of in O. rewrite filter_app, (filter_none _ _ N) in O. cbn [filter app] in O. rewrite I in O.
  unfold attr_named in *. rewrite existsb_app, N. cbn [orb].
  destruct (existsb (fun x => is_ident (attr_path x) n) r) eqn:E; [|reflexivity]. exfalso. apply existsb_exists in E. destruct E as (y & Y1 & Y2).
  assert (Z : In y (filter (fun x => is_ident (attr_path x) n) r)) by (apply filter_In; auto).
  destruct (filter (fun x => is_ident (attr_path x) n) r); [contradiction|discriminate].
Qed.
Lemma once_other n m a x a' : removes n a x a' -> n <> m -> once_of m a' = once_of m a.
Proof.
  intros (l & r & -> & -> & I & _) NE. unfold once_of. rewrite !filter_app. cbn [filter].
  destruct (is_ident (attr_path x) m) eqn:E; [|reflexivity]. destruct NE. eapply ident_one; eassumption.
Qed.
Lemma once_parts a : once a = true <-> once_of "auto_enum" a = true /\ once_of "nested" a = true /\ once_of "never" a = true.
Proof. unfold once. rewrite !andb_true_iff. tauto. Qed.
Lemma free_once a : free_of a = true -> once a = true.
Proof. rewrite free_parts, once_parts. intros (H1 & H2 & H3). auto using once_none. Qed.
Lemma free_un a : free_of a = true -> unannotated a = true.
Proof. rewrite free_parts, un_parts_of. tauto. Qed.
Lemma G_T d e : all G tt e = true -> all T d e = true.
Proof.
  apply (proj1 (all_impl G T (fun _ _ => True)
    ltac:(intros ? d0 x _; cbn; rewrite andb_true_iff; intros [F B]; rewrite (free_once _ F), (free_un _ F), B; reflexivity)
    ltac:(trivial)
    ltac:(intros ? d0 a _; cbn; intros F; rewrite (free_once _ F), (free_un _ F); apply free_parts in F; destruct F as [-> _]; reflexivity)
    ltac:(intros ? d0 a v _; cbn; intros F; rewrite (free_once _ F), (free_un _ F); reflexivity)
    ltac:(trivial) ltac:(trivial)) e tt d I).
Qed.
Lemma dealt_up a : dealt false a = true -> dealt true a = true.
Proof. unfold dealt. destruct (filter _ a) as [|x [|]]; auto. Qed.
Lemma T_up e : all T false e = true -> all T true e = true.
Proof.
  apply (proj1 (all_impl T T (fun c d => c = true -> d = true)
    ltac:(intros [|] [|] x K; try (exfalso; discriminate (K eq_refl)); auto; cbn; rewrite !andb_true_iff, !orb_true_iff, !andb_true_iff; intuition auto using dealt_up)
    ltac:(intros [|] [|] x K; try (exfalso; discriminate (K eq_refl)); cbn; auto using dealt_up)
    ltac:(intros [|] [|] x K; try (exfalso; discriminate (K eq_refl)); auto; cbn; rewrite orb_false_r, orb_true_r, !andb_true_iff; tauto)
    ltac:(intros [|] [|] x v K; try (exfalso; discriminate (K eq_refl)); auto; cbn; rewrite !andb_true_iff, !orb_true_iff; intuition discriminate)
    ltac:(intros [|] [|] x v y K; try (exfalso; discriminate (K eq_refl)); cbn; intros _; destruct (attr_named "auto_enum" x && closure_node y); auto using dealt_up)
    ltac:(intros [|] [|] x v K; try (exfalso; discriminate (K eq_refl)); cbn; intros _; rewrite ?andb_false_r; auto; discriminate)) e false true); discriminate.
Qed.
Lemma bare_eq e : bare e = free_of (e_attrs e) && (fold_expr andb true bare bare_stmt bare_arm e && bare_arguments e).
Proof. destruct e; reflexivity. Qed.
Lemma XA y : e_attrs (node_of y) = e_attrs y. Proof. destruct y; reflexivity. Qed.
Lemma XC y : closure_node (node_of y) = closure_node y. Proof. destruct y; reflexivity. Qed.
Lemma XB y : bare_arguments (node_of y) = bare_arguments y. Proof. destruct y; reflexivity. Qed.
Lemma G_eq e : all G tt e = free_of (e_attrs e) && bare_arguments e && below G tt e.
Proof. rewrite all_below. cbn [r_expr r_in gone]. rewrite XA, XB. reflexivity. Qed.
Lemma T_eq d e : all T d e = once (e_attrs e) && bare_arguments e
    && (unannotated (e_attrs e) || (dealt d (e_attrs e) && negb (closure_node e && attr_named "auto_enum" (e_attrs e)))) && below T (dealt d (e_attrs e)) e.
Proof. rewrite all_below. cbn [r_expr r_in tidy]. rewrite XA, XB, XC. reflexivity. Qed.
Lemma T_un d e : attr_named "auto_enum" (e_attrs e) = false ->
  all T d e = once (e_attrs e) && bare_arguments e && (unannotated (e_attrs e) || d) && below T d e.
Proof. intros N. rewrite T_eq, N, dealt_none by exact N. rewrite andb_false_r, andb_true_r. reflexivity. Qed.
Lemma G_arm_eq a p g b c : all_arm G tt (Arm a p g b c) = free_of a && (fold_opt true (all G tt) g && all G tt b).
Proof. reflexivity. Qed.
Lemma G_local_eq a p t i d : all_local G tt (Local a p t i d) = free_of a && (fold_opt true (all G tt) i && fold_opt true (all G tt) d).
Proof. reflexivity. Qed.
Lemma list_to {A} (f g : A -> bool) l : Forall (fun x => f x = true -> g x = true) l -> fold_list andb true f l = true -> fold_list andb true g l = true.
Proof.
  intros F. unfold fold_list. induction F as [|x l H F IH]; [reflexivity|]. cbn. rewrite !andb_true_iff. tauto.
Qed.
Lemma opt_to {A} (f g : A -> bool) l : opt_all (fun x => f x = true -> g x = true) l -> fold_opt true f l = true -> fold_opt true g l = true.
Proof. destruct l; auto. Qed.
Lemma bare_G :
  (forall e, bare e = true -> all G tt e = true) /\ (forall e, bare_stmt e = true -> all_stmt G tt e = true)
  /\ (forall e, bare_arm e = true -> all_arm G tt e = true) /\ (forall e, bare_local e = true -> all_local G tt e = true).
Proof.
  assert (X : forall e, kids (fun e => bare e = true -> all G tt e = true) (fun e => bare_stmt e = true -> all_stmt G tt e = true)
     (fun e => bare_arm e = true -> all_arm G tt e = true) e -> bare e = true -> all G tt e = true).
  { intros e K. rewrite bare_eq, G_eq. intros E. apply andb_true_iff in E. destruct E as [-> E]. apply andb_true_iff in E. destruct E as [E ->].
    cbn [andb]. unfold below. destruct e; cbn [kids fold_expr] in *; repeat match goal with H : _ /\ _ |- _ => destruct H end;
      repeat match goal with H : _ && _ = true |- _ => apply andb_true_iff in H; destruct H end; rewrite ?andb_true_iff; repeat split;
      eauto using list_to, opt_to. }
  apply ast_ind; intros; try (apply X; cbn [kids]; auto; fail); try reflexivity.
  - exact (H H0).
  - exact (H H0).
  - rewrite G_local_eq. change (free_of a && (fold_opt true bare i && fold_opt true bare d) = true) in H1.
    rewrite !andb_true_iff in *. destruct H1 as (H1 & H2 & H3). eauto using opt_to.
  - rewrite G_arm_eq. change (free_of a && (fold_opt true bare g && bare b) = true) in H1.
    rewrite !andb_true_iff in *. destruct H1 as (H1 & H2 & H3). eauto using opt_to.
Qed.
Lemma T_added c e : added e -> r_expr T c e = true /\ r_in T c e = c.
Proof. intros [->|[(p & ->)|[->|[->| ->]]]]; cbn; auto. Qed.
Lemma T_arm c : r_arm T c [] = true. Proof. reflexivity. Qed.
Lemma G_added c e : added e -> r_expr G c e = true /\ r_in G c e = c.
Proof. destruct c. intros [->|[(p & ->)|[->|[->| ->]]]]; cbn; auto. Qed.
Lemma G_arm c : r_arm G c [] = true. Proof. reflexivity. Qed.

(** ** Steps *)

Ltac ands := repeat match goal with H : _ && _ = true |- _ => apply andb_true_iff in H; destruct H end.
Lemma marker_G w e e1 : marker_step w e e1 -> all G tt e = true -> all G tt e1 = true.
Proof.
  destruct 1 as [v a p x I|]; [|auto]. rewrite !G_eq. cbn [e_attrs bare_arguments]. intros E. ands. rewrite H. unfold below.
  cbn [fold_expr fold_list fold_right andb]. rewrite (all_ctor G G_added), (proj1 bare_G) by assumption. reflexivity.
Qed.
Lemma marker_T d w e e1 : marker_step w e e1 -> attr_named "auto_enum" (e_attrs e) = false -> all T d e = true -> all T d e1 = true.
Proof.
  destruct 1 as [v a p x I|]; [|auto]. intros N. rewrite !T_un by exact N. cbn [e_attrs bare_arguments]. intros E. ands. rewrite H, H1. unfold below.
  cbn [fold_expr fold_list fold_right andb]. rewrite (all_ctor T T_added), G_T by (apply bare_G; assumption). reflexivity.
Qed.
Lemma marker_same w e e1 : marker_step w e e1 -> e_attrs e1 = e_attrs e /\ closure_node e1 = closure_node e.
Proof. destruct 1; auto. Qed.
Lemma attrs_free w a a' : w_foreign w = false -> attrs_step w a a' -> attr_named "auto_enum" a = false -> attr_named "nested" a = false -> once_of "never" a = true ->
  free_of a' = true.
Proof.
  intros F H A N O. apply free_parts. destruct H as [a K|a _ K1 K2|p a a' _ R K]; [congruence|auto|].
  rewrite (named_other _ "auto_enum" _ _ _ R), (named_other _ "nested" _ _ _ R) by discriminate. repeat split; try assumption. eapply once_removed; eassumption.
Qed.

Definition fwd (w : who) (f f' : bool -> bool) (g' : bool) : Prop :=
  (w_foreign w = true -> forall d, f d = true -> f' d = true /\ (d = false -> g' = true)) /\ (w_foreign w = false -> f true = true -> g' = true).
Lemma fwd_free w f f' g' : (forall d, f d = true -> g' = true) -> (g' = true -> forall d, f' d = true) -> fwd w f f' g'.
Proof. intros H1 H2. split; [|eauto]. intros _ d K. eauto. Qed.

Lemma forth_and (t1 t2 : list string) (a a' b b' : bool) : (a = true -> a' = true) -> (b = true -> b' = true) -> a && b = true -> a' && b' = true.
Proof. intros K1 K2 K. apply andb_true_iff in K. apply andb_true_iff. tauto. Qed.
Section Parts.
  Variables (Re : list string -> expr -> expr -> Prop) (Rs : list string -> stmt -> stmt -> Prop) (Ra : list string -> arm -> arm -> Prop) (w : who).
  Hypothesis He : forall t x x', Re t x x' -> fwd w (fun d => all T d x) (fun d => all T d x') (all G tt x').
  Hypothesis Hs : forall t x x', Rs t x x' -> fwd w (fun d => all_stmt T d x) (fun d => all_stmt T d x') (all_stmt G tt x').
  Hypothesis Ha : forall t x x', Ra t x x' -> fwd w (fun d => all_arm T d x) (fun d => all_arm T d x') (all_arm G tt x').
  Lemma parts_fwd t e e' : parts Re Rs Ra t e e' -> fwd w (fun d => below T d e) (fun d => below T d e') (below G tt e').
  Proof.
    intros H. split; [intros F d K; split; [revert K|intros ->; revert K]|intros F].
    - apply (parts_fold andb true andb true (fun _ a b => a = true -> b = true) (fun _ => eq_refl) forth_and _ _ _ _ _ _ Re Rs Ra t e e'); [|exact H].
      apply kids_all; intros x ? x' K; [apply He in K|apply Hs in K|apply Ha in K]; intros J; exact (proj1 (proj1 K F d J)).
    - apply (parts_fold andb true andb true (fun _ a b => a = true -> b = true) (fun _ => eq_refl) forth_and _ _ _ _ _ _ Re Rs Ra t e e'); [|exact H].
      apply kids_all; intros x ? x' K; [apply He in K|apply Hs in K|apply Ha in K]; intros J; exact (proj2 (proj1 K F false J) eq_refl).
    - apply (parts_fold andb true andb true (fun _ a b => a = true -> b = true) (fun _ => eq_refl) forth_and _ _ _ _ _ _ Re Rs Ra t e e'); [|exact H].
      apply kids_all; intros x ? x' K; [apply He in K|apply Hs in K|apply Ha in K]; exact (proj2 K F).
  Qed.
End Parts.
Lemma maybe_fwd (Re : list string -> expr -> expr -> Prop) w t o o' :
  (forall t x x', Re t x x' -> fwd w (fun d => all T d x) (fun d => all T d x') (all G tt x')) -> maybe2 Re t o o' ->
  fwd w (fun d => fold_opt true (all T d) o) (fun d => fold_opt true (all T d) o') (fold_opt true (all G tt) o').
Proof. intros H M. destruct M as [|t x x' K]; [split; auto|exact (H _ _ _ K)]. Qed.

Definition kept_kind (x x' : expr) : Prop := forall d, all T d x = true -> all G tt x' = true \/ closure_node x' = closure_node x.
Definition let_fwd (w : who) (x x' : local) : Prop :=
  match x, x' with
  | Local a _ _ i d, Local a' _ _ i' d' =>
      fwd w (fun d => fold_opt true (all T d) i) (fun d => fold_opt true (all T d) i') (fold_opt true (all G tt) i')
      /\ fwd w (fun z => fold_opt true (all T z) d) (fun z => fold_opt true (all T z) d') (fold_opt true (all G tt) d')
      /\ (w_foreign w = false -> attr_named "auto_enum" a = false -> once a = true -> free_of a' = true)
      /\ (w_foreign w = true -> a' = a /\ match i, i' with None, None => True | Some y, Some y' => kept_kind y y' | _, _ => False end)
  end.
Lemma T_local z a p t i d : attr_named "auto_enum" a = false -> all_local T z (Local a p t i d) =
  once a && (unannotated a || z) && (fold_opt true (all T z) i && fold_opt true (all T z) d).
Proof.
  intros N. rewrite all_local_eq. cbn [r_let r_value r_else tidy]. rewrite N. cbn [negb andb orb]. rewrite dealt_none, andb_true_r by exact N. reflexivity.
Qed.
Lemma T_local_named z a x a' p t i d : removes "auto_enum" a x a' -> all_local T z (Local a p t i d) = true -> free_of a' = true
  /\ fold_opt true (fun e => all T (if closure_node e then false else attr_gives x) e) i = true /\ fold_opt true (all T false) d = true.
Proof.
  intros R. rewrite all_local_eq. cbn [r_let r_value r_else tidy]. rewrite (removes_named _ _ _ _ R). cbn [negb andb orb]. rewrite andb_false_r, orb_false_r.
  intros E. ands. apply once_parts in H. destruct H as (H & _). pose proof (once_removed _ _ _ _ R H) as N. apply un_parts_of in H2. destruct H2 as [H2 H3].
  split; [|split; [|assumption]].
  - apply free_parts. rewrite (named_other _ "nested" _ _ _ R), (named_other _ "never" _ _ _ R) by discriminate. auto.
  - destruct i as [e|]; [|reflexivity]. cbn [fold_opt] in *. rewrite (dealt_one _ _ _ _ R), N, XC in H0. exact H0.
Qed.
Lemma let_stmt_fwd w a p t i d l' : attr_named "auto_enum" a = false -> let_fwd w (Local a p t i d) l' ->
  fwd w (fun z => all_stmt T z (SLocal (Local a p t i d))) (fun z => all_stmt T z (SLocal l')) (all_stmt G tt (SLocal l')).
Proof.
  intros N H. destruct l' as [a' p' t' i' d']. destruct H as ([I1 I2] & [D1 D2] & A & F).
  change (all_stmt G tt (SLocal (Local a' p' t' i' d'))) with (all_local G tt (Local a' p' t' i' d')). rewrite G_local_eq. split.
  - intros FW z. rewrite !all_let_eq, T_local by exact N. intros E. ands. destruct (F FW) as [-> _].
    destruct (I1 FW z H0) as [I3 I4], (D1 FW z H1) as [D3 D4]. rewrite T_local, H, H2, I3, D3 by exact N. split; [reflexivity|].
    intros ->. rewrite I4, D4, andb_true_r by reflexivity. apply free_parts. rewrite orb_false_r in H2. apply un_parts_of in H2. tauto.
  - intros FW. rewrite !all_let_eq, T_local by exact N. intros E. ands. rewrite (I2 FW H0), (D2 FW H1), (A FW N H). reflexivity.
Qed.
Lemma arm_fwd w a0 p g b0 c a g' b b' a' : nested_arm w (Arm a0 p g b0 c) (Arm a p g b c) ->
  fwd w (fun d => fold_opt true (all T d) g) (fun d => fold_opt true (all T d) g') (fold_opt true (all G tt) g') ->
  fwd w (fun d => all T d b) (fun d => all T d b') (all G tt b') -> attrs_step w a a' ->
  fwd w (fun d => all_arm T d (Arm a0 p g b0 c)) (fun d => all_arm T d (Arm a' p g' b' c)) (all_arm G tt (Arm a' p g' b' c)).
Proof.
  intros NA [G1 G2] [B1 B2] AS. rewrite G_arm_eq.
  assert (BA : forall d, all T d b0 = all T d b).
  { intros d. inversion NA as [|? ? ? ? ? ? ? ? n k F R BR]; subst; [reflexivity|]. symmetry. exact (branches_all T T_added _ _ _ _ BR d). }
  split.
  - intros F d. rewrite !all_arm_eq, BA. cbn [r_arm tidy]. intros E. ands.
    assert (a = a0) as -> by (inversion NA; congruence). assert (a' = a0) as -> by (inversion AS; congruence).
    destruct (G1 F d H0) as [G3 G4], (B1 F d H1) as [B3 B4]. rewrite H, H2, H3, G3, B3. split; [reflexivity|]. intros ->. rewrite G4, B4, andb_true_r by reflexivity.
    rewrite orb_false_r in H2. apply un_parts_of in H2. apply free_parts. apply negb_true_iff in H. tauto.
  - intros F. rewrite all_arm_eq, BA. cbn [r_arm tidy]. intros E. ands. rewrite (G2 F H0), (B2 F H1), andb_true_r.
    apply negb_true_iff in H. apply once_parts in H3. destruct H3 as (O1 & O2 & O3).
    inversion NA as [? ? ? ? ? [K|K]|q ? ? ? ? ? ? ? n k _ R BR]; subst; [congruence| |].
    + eapply attrs_free; eassumption.
    + eapply attrs_free; [exact F|exact AS|rewrite (named_other _ "auto_enum" _ _ _ R) by discriminate; exact H|eapply once_removed; eassumption|].
      rewrite (once_other _ "never" _ _ _ R) by discriminate. exact O3.
Qed.
Lemma local_fwd w x a p t i d i' d' a' : nested_local w x (Local a p t i d) ->
  fwd w (fun d => fold_opt true (all T d) i) (fun d => fold_opt true (all T d) i') (fold_opt true (all G tt) i') ->
  fwd w (fun z => fold_opt true (all T z) d) (fun z => fold_opt true (all T z) d') (fold_opt true (all G tt) d') ->
  (w_foreign w = true -> match i, i' with None, None => True | Some y, Some y' => kept_kind y y' | _, _ => False end) ->
  attrs_step w a a' -> let_fwd w x (Local a' p t i' d').
Proof.
  intros NL I D K AS. destruct (w_foreign w) eqn:F.
  - assert (x = Local a p t i d) as -> by (inversion NL; congruence). assert (a' = a) as -> by (inversion AS; congruence).
    cbn. split; [exact I|]. split; [exact D|]. split; [congruence|]. intros _. split; [reflexivity|exact (K eq_refl)].
  - inversion NL as [? ? ? ? ? [Z|Z]|y ? ? ? ? ? _ R|q ? ? ? ? j ? ? n k _ R BR]; subst; [congruence| | |]; cbn [let_fwd].
    + split; [exact I|]. split; [exact D|]. split; [|congruence]. intros _ N O. apply once_parts in O. destruct O as (_ & _ & O). eapply attrs_free; eassumption.
    + split; [exact I|]. split; [exact D|]. split; [|congruence]. intros _ N O. apply once_parts in O. destruct O as (_ & O1 & O).
      eapply attrs_free; [exact F|exact AS|rewrite (named_other _ "auto_enum" _ _ _ R) by discriminate; exact N|eapply once_removed; eassumption|].
      rewrite (once_other _ "never" _ _ _ R) by discriminate. exact O.
    + split; [|split; [exact D|split; [|congruence]]].
      * destruct I as [I1 I2]. split; [congruence|]. cbn [fold_opt] in *. rewrite <- (branches_all T T_added _ _ _ _ BR). exact I2.
      * intros _ N O. apply once_parts in O. destruct O as (_ & O1 & O).
        eapply attrs_free; [exact F|exact AS|rewrite (named_other _ "auto_enum" _ _ _ R) by discriminate; exact N|eapply once_removed; eassumption|].
        rewrite (once_other _ "never" _ _ _ R) by discriminate. exact O.
Qed.
(** The code of a nested attribute after the visit by the one around it. *)
Lemma child_T d e x a' e1 : removes "auto_enum" (e_attrs e) x a' ->
  (forall z, below T z (set_attrs e a') = true -> below T z e1 = true) -> node_of e1 = node_of (set_attrs e a') ->
  all T d e = true -> all T (attr_gives x) e1 = true /\ (closure_node e1 = true -> free_of (e_attrs e1) = true).
Proof.
  intros R B N. rewrite T_eq. intros E. ands.
  assert (EA : e_attrs e1 = a').
  { rewrite <- XA, N, XA. destruct (set_attrs_attrs e a') as [E|E]; [|exact E]. rewrite E in R. destruct R as ([|] & r & E1 & _); discriminate. }
  assert (EC : closure_node e1 = closure_node e) by (rewrite <- XC, N, XC; destruct e; reflexivity).
  assert (EB : bare_arguments e1 = bare_arguments e) by (rewrite <- XB, N, XB; destruct e; reflexivity).
  apply once_parts in H. destruct H as (O1 & O2 & O3). pose proof (once_removed _ _ _ _ R O1) as NA.
  assert (UA : unannotated a' = unannotated (e_attrs e)).
  { unfold unannotated. rewrite (named_other _ "nested" _ _ _ R), (named_other _ "never" _ _ _ R) by discriminate. reflexivity. }
  rewrite (dealt_one _ _ _ _ R), NA in *. rewrite (removes_named _ _ _ _ R), andb_true_r in H1.
  split.
  - rewrite T_un by (rewrite EA; exact NA). rewrite EA, EB, H2, UA. rewrite B; [|destruct e; exact H0]. rewrite !andb_true_r. apply andb_true_iff. split.
    + apply once_parts. rewrite (once_other _ "nested" _ _ _ R), (once_other _ "never" _ _ _ R) by discriminate. auto using once_none.
    + apply orb_true_iff in H1. apply orb_true_iff. destruct H1 as [H1|H1]; [auto|]. ands. auto.
  - rewrite EC, EA. intros CL. rewrite CL, andb_false_r, orb_false_r in H1. rewrite <- UA in H1. apply un_parts_of in H1. apply free_parts. tauto.
Qed.

(** ** The visit *)

Theorem visited_gone :
  (forall w semi e e', done w semi e e' -> fwd w (fun d => all T d e) (fun d => all T d e') (all G tt e'))
  /\ (forall w s s', done_stmt w s s' -> fwd w (fun d => all_stmt T d s) (fun d => all_stmt T d s') (all_stmt G tt s'))
  /\ (forall w e e', body w e e' -> w_foreign w = false -> all T (w_given w) e = true -> all G tt e' = true).
Proof.
  pose (Pd (w : who) (semi : bool) e e' := fwd w (fun d => all T d e) (fun d => all T d e') (all G tt e') /\ (w_foreign w = true -> kept_kind e e')).
  pose (Pu (w : who) (semi : bool) e e' :=
    if attr_named "auto_enum" (e_attrs e) then w_foreign w = true -> forall d, all T d e = true -> all G tt e' = true
    else fwd w (fun d => below T d e) (fun d => below T d e') (below G tt e') /\ node_of e' = node_of e).
  pose (Ps (w : who) s s' := fwd w (fun d => all_stmt T d s) (fun d => all_stmt T d s') (all_stmt G tt s')).
  pose (Pa (w : who) s s' := fwd w (fun d => all_arm T d s) (fun d => all_arm T d s') (all_arm G tt s')).
  pose (Pq (w : who) e e' := fwd nobody (fun d => all T d e) (fun d => all T d e') (all G tt e') /\ kept_kind e e').
  pose (Pqs (w : who) := Ps nobody).
  pose (Pqa (w : who) := Pa nobody).
  pose (Pql (w : who) := let_fwd nobody).
  pose (Pb (w : who) e (e' : expr) := w_foreign w = false -> all T (w_given w) e = true -> all G tt e' = true).
  pose (Px (w : who) e (e' : expr) := w_foreign w = false -> all T (w_given w) e = true ->
     (closure_node e = true -> free_of (e_attrs e) = true) -> all G tt e' = true).
  pose (Pxl (w : who) l (l' : local) := w_foreign w = false -> match l, l' with Local a p t i d, Local a2 _ _ i2 d2 =>
     a2 = a /\ (fold_opt true (all G tt) d = true -> fold_opt true (all G tt) d2 = true)
     /\ (match i with Some y => all T (w_given w) y = true /\ (closure_node y = true -> free_of (e_attrs y) = true) | None => True end ->
         fold_opt true (all G tt) i2 = true) end).
  assert (LC : forall w c a x toks a' p t i d l1 l', w_foreign w = true -> removes "auto_enum" a x a' ->
    let_fwd w (Local a' p t i d) l1 -> w_given c = attr_gives x -> w_foreign c = false -> Pxl c l1 l' -> toks = toks :> list token ->
    Ps w (SLocal (Local a p t i d)) (SLocal l') /\ Ps nobody (SLocal (Local a p t i d)) (SLocal l')
    /\ forall z, all_local T z (Local a p t i d) = true -> all_local G tt l' = true).
  { intros w c a x toks a' p t i d [a1 p1 t1 i1 d1] [a2 p2 t2 i2 d2] F R (I & D & _ & K) GC FC X _.
    assert (Z : forall z, all_local T z (Local a p t i d) = true -> all_local G tt (Local a2 p2 t2 i2 d2) = true).
    { intros z E. destruct (T_local_named _ _ _ _ _ _ _ _ R E) as (A & EI & ED). destruct (K F) as [-> KI]. destruct (X FC) as (-> & XD & XI).
      rewrite G_local_eq, A. cbn [andb]. apply andb_true_iff. split.
      - apply XI. destruct i as [y|], i1 as [y1|]; try contradiction; [|exact Logic.I]. cbn [fold_opt] in *. rewrite GC.
        destruct (KI _ EI) as [Y|Y].
        + split; [apply G_T; exact Y|]. intros _. rewrite G_eq in Y. ands. assumption.
        + destruct (closure_node y) eqn:CY.
          * pose proof (proj2 (proj1 I F _ EI) eq_refl) as Y2. split; [apply G_T; exact Y2|]. intros _. rewrite G_eq in Y2. ands. assumption.
          * split; [exact (proj1 (proj1 I F _ EI))|congruence].
      - apply XD. exact (proj2 (proj1 D F _ ED) eq_refl). }
    assert (ZT : all_local G tt (Local a2 p2 t2 i2 d2) = true -> forall z, all_local T z (Local a2 p2 t2 i2 d2) = true).
    { intros E z. rewrite G_local_eq in E. ands. rewrite T_local by (apply free_parts in H; tauto). rewrite (free_once _ H), (free_un _ H). cbn [orb andb].
      apply andb_true_iff. split; [destruct i2|destruct d2]; try reflexivity; apply G_T; assumption. }
    repeat split; try (intros; split; eauto); eauto. }
  assert (C : cases Pd Pu Ps Pqs Pa Pqa let_fwd Pql Pxl Pq Px Px Pb).
  { constructor.
    - (* an expression *)
      intros w semi e e1 e2 e3 e' H1 H2 HU0 HU H4. unfold Pu in HU. clear HU0.
      pose proof (enter_foreign e w) as EF. set (w1 := enter e w) in *. clearbody w1.
      destruct (exit_below T T_added T_arm _ _ _ H1) as [A1 B1].
      assert (BA : bare_arguments e1 = bare_arguments e) by (inversion H1; reflexivity).
      assert (C1 : closure_node e1 = closure_node e) by (inversion H1; reflexivity).
      assert (T1 : forall d, all T d e1 = all T d e) by (intros; rewrite !T_eq, A1, BA, C1, B1; reflexivity).
      destruct (attr_named "auto_enum" (e_attrs e)) eqn:NA.
      + rewrite orb_true_r in EF. assert (e2 = e1) as -> by (inversion H2; subst; congruence). rewrite A1, NA in HU.
        assert (X : forall d, all T d e = true -> all G tt e' = true).
        { intros d K. rewrite <- T1 in K. pose proof (HU EF d K) as K3.
          inversion H4 as [? _ M|? e4 a' _ MS AS]; subst; [exact K3|].
          assert (a' = e_attrs e4) as -> by (inversion AS; subst; congruence). rewrite set_attrs_same. eapply marker_G; eassumption. }
        split; [apply fwd_free; [exact X|intros K d; apply G_T; exact K]|]. intros _ d K. left. exact (X d K).
      + rewrite orb_false_r in EF. destruct (w_foreign w) eqn:F.
        * assert (e2 = e1) as -> by (inversion H2; subst; congruence). rewrite A1, NA in HU. destruct HU as [[U1 U2] U4].
          assert (E3 : e_attrs e3 = e_attrs e) by (rewrite <- XA, U4, XA; exact A1).
          assert (C3 : closure_node e3 = closure_node e) by (rewrite <- XC, U4, XC; exact C1).
          assert (B3 : bare_arguments e3 = bare_arguments e) by (rewrite <- XB, U4, XB; exact BA).
          assert (S : e' = e3 \/ exists wx, marker_step wx e3 e').
          { inversion H4 as [? _ M|? e4 a' _ MS AS]; subst; [auto|]. assert (a' = e_attrs e4) as -> by (inversion AS; subst; congruence).
            rewrite set_attrs_same. eauto. }
          split; [|intros _ d _; right; destruct S as [->|(wx & MS)]; [exact C3|rewrite <- C3; apply (marker_same _ _ _ MS)]].
          split; [|congruence]. intros _ d K. rewrite T_un in K by exact NA. ands.
          rewrite <- B1 in H0. destruct (U1 EF d H0) as [U5 U6].
          assert (K3 : all T d e3 = true) by (rewrite T_un by (rewrite E3; exact NA); rewrite E3, B3, H, H3, H5, U5; reflexivity).
          assert (K4 : d = false -> all G tt e3 = true).
          { intros ->. rewrite G_eq, E3, B3, H5, (U6 eq_refl), !andb_true_r. rewrite orb_false_r in H3. apply un_parts_of in H3. apply free_parts. tauto. }
          destruct S as [->|(wx & MS)]; [auto|]. split; [eapply marker_T; [exact MS|rewrite E3; exact NA|exact K3]|]. intros Z. eapply marker_G; [exact MS|auto].
        * split; [|congruence]. split; [congruence|]. intros _ K. rewrite T_un in K by exact NA. ands.
          apply once_parts in H. destruct H as (O1 & O2 & O3).
          assert (Q : attr_named "auto_enum" (e_attrs e2) = false /\ attr_named "nested" (e_attrs e2) = false /\ once_of "never" (e_attrs e2) = true
             /\ bare_arguments e2 = true /\ below T true e2 = true).
          { inversion H2 as [? [K|K]|? p a' n k ? K1 K2 K3]; subst.
            - congruence.
            - rewrite A1 in *. rewrite BA, B1. auto 10.
            - destruct (branches_below T T_added _ _ _ _ K3) as [N1 N2].
              assert (E2 : e_attrs e2 = a').
              { rewrite <- XA, N1, XA. destruct (set_attrs_attrs e1 a') as [E|E]; [|exact E]. rewrite E in K2. destruct K2 as ([|] & r & E1 & _); discriminate. }
              rewrite A1 in K2. rewrite E2, (named_other _ "auto_enum" _ _ _ K2), (once_other _ "never" _ _ _ K2) by discriminate.
              repeat split; [exact NA|eapply once_removed; eassumption|exact O3| |].
              + rewrite <- XB, N1, XB. transitivity (bare_arguments e1); [destruct e1; reflexivity|]. rewrite BA. exact H5.
              + rewrite N2. transitivity (below T true e1); [destruct e1; reflexivity|]. rewrite B1. exact H0. }
          destruct Q as (Q1 & Q2 & Q3 & Q4 & Q5). rewrite Q1 in HU. destruct HU as [[_ U2] U4]. specialize (U2 EF Q5).
          assert (E3 : e_attrs e3 = e_attrs e2) by (rewrite <- XA, U4, XA; reflexivity).
          assert (B3 : bare_arguments e3 = true) by (rewrite <- XB, U4, XB; exact Q4).
          inversion H4 as [? K|? e4 a' _ MS AS]; subst; [congruence|].
          assert (E4 : e_attrs e4 = e_attrs e3) by (inversion MS; reflexivity). rewrite E4, E3 in AS.
          pose proof (attrs_free _ _ _ EF AS Q1 Q2 Q3) as FR.
          assert (K4 : bare_arguments e4 = true /\ below G tt e4 = true).
          { destruct MS as [v a p x I|]; [|auto]. split; [reflexivity|]. cbn [bare_arguments] in B3. unfold below. cbn [fold_expr fold_list fold_right].
            rewrite (all_ctor G G_added), (proj1 bare_G) by exact B3. reflexivity. }
          destruct K4 as [K4 K5]. rewrite G_eq. apply andb_true_iff. split; [apply andb_true_iff; split|].
          -- destruct (set_attrs_attrs e4 a') as [E|E]; [rewrite E; reflexivity|rewrite E; exact FR].
          -- transitivity (bare_arguments e4); [destruct e4; reflexivity|exact K4].
          -- transitivity (below G tt e4); [destruct e4; reflexivity|exact K5].
    - intros w semi e e' N H. unfold Pu. rewrite N. split; [|eapply node_parts; exact H].
      eapply parts_fwd; [| | |exact H]; intros t x x' [_ K]; try apply K; exact K.
    - (* a nested attribute *)
      intros w semi e p toks a' e1 c e' R H CH _ X. unfold Pu. rewrite (removes_named _ _ _ _ R). intros F d K.
      pose proof (node_parts _ _ _ _ _ _ H) as NO.
      apply parts_fwd with (w := lent w) in H; [|intros t x x' [_ J]; try apply J; exact J..]. destruct H as [U1 _].
      destruct (child_given _ _ _ semi CH) as [GC F']. unfold Px in X. specialize (X F'). rewrite GC in X.
      destruct (child_T d e _ a' e1 R (fun z J => proj1 (U1 F z J)) NO K) as [K1 K2]. exact (X K1 K2).
    - intros w e e' semi _ H. apply H.
    - intros. split; auto.
    - intros. split; auto.
    - intros w a p t i d l' N _ H. apply let_stmt_fwd; assumption.
    - (* let with an attribute *)
      intros w a x toks a' p t i d l1 c l' R X _ H CH _ HX. destruct (child_gives _ _ _ CH) as [_ F].
      assert (FW : w_foreign (lent (past a w)) = true) by (cbn; rewrite (removes_named _ _ _ _ R); apply orb_true_r).
      destruct (LC _ _ _ _ toks _ _ _ _ _ _ _ FW R H (gives_of _ _ _ _ X CH) F HX eq_refl) as (S1 & S2 & S3).
      unfold Ps. split; [intros _; apply (proj1 S2 eq_refl)|intros _; exact (S3 true)].
    - (* arm *)
      intros w x a p g b c g' b' a' NA GG _ B AS. assert (X : exists a0 b0, x = Arm a0 p g b0 c) by (inversion NA; eauto). destruct X as (a0 & b0 & ->).
      eapply arm_fwd; [exact NA| |apply B|exact AS]. eapply maybe_fwd; [|exact GG]. intros t y y' [_ K]. apply K.
    - (* parts of a let *)
      intros w x a p t i d i' d' a' NA I D AS. eapply local_fwd; [exact NA| | | |exact AS].
      + eapply maybe_fwd; [|exact I]. intros t0 y y' [_ K]. apply K.
      + eapply maybe_fwd; [|exact D]. intros t0 y y' [_ K]. apply K.
      + intros F. destruct I as [|t0 y y' [_ K]]; [exact Logic.I|]. exact (proj2 K F).
    - (* quiet *)
      intros w e e' N H. pose proof (node_parts _ _ _ _ _ _ H) as NO.
      apply parts_fwd with (w := nobody) in H; [|intros t x x' [_ J]; try apply J; exact J..]. destruct H as [U1 _].
      assert (E3 : e_attrs e' = e_attrs e) by (rewrite <- XA, NO, XA; reflexivity).
      assert (B3 : bare_arguments e' = bare_arguments e) by (rewrite <- XB, NO, XB; reflexivity).
      split; [|intros d _; right; rewrite <- XC, NO, XC; reflexivity]. split; [|discriminate]. intros _ d K. rewrite T_un in K by exact N. ands.
      destruct (U1 eq_refl d H0) as [U5 U6]. split.
      + rewrite T_un by (rewrite E3; exact N). rewrite E3, B3, H, H1, H2, U5. reflexivity.
      + intros ->. rewrite G_eq, E3, B3, H2, (U6 eq_refl), !andb_true_r. rewrite orb_false_r in H1. apply un_parts_of in H1. apply free_parts. tauto.
    - intros w e p toks a' e1 c e' R H CH _ X. pose proof (node_parts _ _ _ _ _ _ H) as NO.
      apply parts_fwd with (w := nobody) in H; [|intros t x x' [_ J]; try apply J; exact J..]. destruct H as [U1 _].
      destruct (child_gives _ _ _ CH) as [GC F']. specialize (X F'). rewrite GC in X.
      assert (Z : forall d, all T d e = true -> all G tt e' = true).
      { intros d K. destruct (child_T d e _ a' e1 R (fun z J => proj1 (U1 eq_refl z J)) NO K) as [K1 K2]. exact (X K1 K2). }
      split; [apply fwd_free; [exact Z|intros K d; apply G_T; exact K]|]. intros d K. left. exact (Z d K).
    - intros w e e' semi _ _ H. apply H.
    - intros w e p toks a' e1 c e' semi R H CH _ X. pose proof (node_parts _ _ _ _ _ _ H) as NO.
      apply parts_fwd with (w := nobody) in H; [|intros t x x' [_ J]; try apply J; exact J..]. destruct H as [U1 _].
      destruct (child_given _ _ _ semi CH) as [GC F']. specialize (X F'). rewrite GC in X.
      apply fwd_free; [|intros K d; apply G_T; exact K].
      intros d K. destruct (child_T d e _ a' e1 R (fun z J => proj1 (U1 eq_refl z J)) NO K) as [K1 K2]. exact (X K1 K2).
    - intros. split; auto.
    - intros. split; auto.
    - intros w a p t i d l' N _ H. apply let_stmt_fwd; assumption.
    - intros w a x toks a' p t i d l1 c l' R X _ H CH _ HX. destruct (child_gives _ _ _ CH) as [_ F].
      exact (proj1 (LC nobody _ _ _ toks _ _ _ _ _ _ _ eq_refl R H (gives_of _ _ _ _ X CH) F HX eq_refl)).
    - intros w a p g b c g' b' GG _ B. eapply (arm_fwd nobody); [apply na_none; left; reflexivity| |apply B|apply at_foreign; reflexivity].
      eapply maybe_fwd; [|exact GG]. intros t y y' [_ K]. apply K.
    - intros w a p t i d i' d' I D. eapply (local_fwd nobody); [apply nl_none; left; reflexivity| | | |apply at_foreign; reflexivity].
      + eapply maybe_fwd; [|exact I]. intros t0 y y' [_ K]. apply K.
      + eapply maybe_fwd; [|exact D]. intros t0 y y' [_ K]. apply K.
      + intros F. destruct I as [|t0 y y' [_ K]]; [exact Logic.I|]. apply K.
    - (* the attribute itself *)
      intros w e e' GW _ [[U1 _] _] F K _. rewrite GW in K. exact (proj2 (U1 eq_refl false K) eq_refl).
    - intros w e e1 e' GW _ H D F K CL. rewrite (all_declared G G_added _ _ _ _ D). exact (H F K CL).
    - intros w a p t t' i d i' d' GW _ I D F. split; [reflexivity|]. split.
      + destruct D as [|t0 y y' [_ [[K _] _]]]; [auto|]. intros J. exact (proj2 (K eq_refl false (G_T false _ J)) eq_refl).
      + destruct I as [|t0 y y' [_ [[K _] _]]]; [reflexivity|]. intros [J _]. rewrite GW in J. exact (proj2 (K eq_refl false J) eq_refl).
    - intros w a p t t' e e1 e' d _ _ H D F. split; [reflexivity|]. split; [auto|]. intros [J CL]. cbn [fold_opt].
      rewrite (all_declared G G_added _ _ _ _ D). exact (H F J CL).
    - intros w a ps b b' x _ _ _ H F K CL. specialize (CL eq_refl). cbn [e_attrs] in CL. rewrite T_un in K by (apply free_parts in CL; apply CL). ands.
      rewrite G_eq. cbn [e_attrs bare_arguments]. rewrite CL. cbn [andb]. exact (H F H1).
    - intros w e e' _ _ H F K _. exact (H F K).
    - intros w e e1 k e' B _ [[_ U2] _] F K. apply (U2 F). rewrite (branches_all T T_added _ _ _ _ B). destruct (w_given w); [exact K|apply T_up; exact K].
    - intros w e e1 e' GW _ B _ [[U1 _] _] F K. rewrite <- (branches_all T T_added _ _ _ _ B), GW in K. exact (proj2 (U1 eq_refl false K) eq_refl). }
  split; [|split]; intros w.
  - intros semi e e' H. apply (ind_done _ _ _ _ _ _ _ _ _ _ _ _ _ C w semi e e' H).
  - exact (ind_stmt _ _ _ _ _ _ _ _ _ _ _ _ _ C w).
  - exact (ind_body _ _ _ _ _ _ _ _ _ _ _ _ _ C w).
Qed.

(** ** The outermost attribute *)

Lemma stmts_gone w t b b' : seq2 (fun _ => done_stmt w) t b b' -> w_foreign w = false -> all_block T true b = true -> all_block G tt b' = true.
Proof.
  intros H F. induction H as [|t1 t2 s s' b b' H1 H2 IH]; [reflexivity|]. cbn. fold (all_block T true b) (all_block G tt b'). rewrite !andb_true_iff. intros [K1 K2].
  split; [|exact (IH K2)]. exact (proj2 (proj1 (proj2 visited_gone) _ _ _ H1) F K1).
Qed.
Lemma code_gone own m e e' : code own m e e' -> all T true e = true -> closure_node e = false \/ free_of (e_attrs e) = true -> all G tt e' = true.
Proof.
  destruct 1 as [a ps b b' B|e e' N B]; intros K CL; pose proof (proj2 (proj2 visited_gone) _ _ _ B eq_refl) as Z; cbn in Z.
  - destruct CL as [CL|CL]; [discriminate|]. cbn in CL. rewrite T_un in K by (apply free_parts in CL; apply CL). ands. rewrite G_eq. cbn [e_attrs bare_arguments].
    rewrite CL. exact (Z H0).
  - exact (Z K).
Qed.
Theorem expanded_gone own m i i' : expanded own m i i' -> tidy_code i = true -> gone_code i' = true.
Proof.
  unfold tidy_code, gone_code.
  assert (X : forall e e1 e', code own m e e1 -> declared own e1 e' -> all T true e && (negb (closure_node e) || free_of (e_attrs e)) = true -> all G tt e' = true).
  { intros e e1 e' H D K. ands. rewrite (all_declared G G_added _ _ _ _ D). eapply code_gone; [exact H|assumption|].
    apply orb_true_iff in H1. destruct H1 as [H1|H1]; [left; apply negb_true_iff; exact H1|auto]. }
  destruct 1; cbn [in_input]; try (eapply X; eassumption); try (intros; reflexivity).
  - intros K. rewrite (all_declared G G_added _ _ _ _ H0). exact (proj2 (proj2 visited_gone) _ _ _ H eq_refl K).
  - rewrite <- (body_all T T_added _ _ _ _ H1), (all_declared_in G _ _ _ _ H3). eapply stmts_gone; [eassumption|reflexivity].
Qed.
