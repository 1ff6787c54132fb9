(** Proof: accepted code has well-formed annotations (Annotations.v). *)

Require Import Coq.Strings.String Coq.Lists.List Coq.Bool.Bool.
Require Import Verif.Syntax Verif.Context Verif.ExprModel Verif.Edits Verif.NoValueSpec Verif.Tails Verif.TwinEdits Verif.ArgsSpec Verif.ArgsRun.
Require Import Verif.Changes Verif.ChangesInd Verif.ChangesTop Verif.LoopsRun Verif.Branches Verif.BranchesRun Verif.Nodes Verif.Annotations.
Import ListNotations.
Open Scope string_scope.
Open Scope list_scope.

(** ** Attributes *)

Lemma ident_one p a b : is_ident p a = true -> is_ident p b = true -> a = b.
Proof.
  unfold is_ident. destruct p as [[|] [|[s []] [|]]]; try discriminate. intros A B. apply String.eqb_eq in A, B. congruence.
Qed.
Lemma first_none n a : attr_named n a = false <-> first_named n a = None.
Proof.
  unfold attr_named, first_named. induction a as [|x a IH]; cbn; [tauto|]. destruct (is_ident (attr_path x) n); cbn; [|exact IH].
  split; discriminate.
Qed.
Lemma find_skip {A} (f : A -> bool) l x r : f x = false -> find f (l ++ x :: r) = find f (l ++ r).
Proof. intros H. induction l as [|y l IH]; cbn; [rewrite H; reflexivity|]. rewrite IH. reflexivity. Qed.
Lemma removes_first n a x a' : removes n a x a' -> first_named n a = Some x.
Proof.
  intros (l & r & -> & _ & I & N). unfold first_named, attr_named in *. induction l as [|y l IH]; cbn in *; [rewrite I; reflexivity|].
  apply orb_false_iff in N. destruct N as [-> N]. auto.
Qed.
Lemma removes_ident n a x a' : removes n a x a' -> is_ident (attr_path x) n = true.
Proof. intros (l & r & _ & _ & I & _). exact I. Qed.
Lemma removes_other n m a x a' : removes n a x a' -> n <> m -> first_named m a' = first_named m a.
Proof.
  intros (l & r & -> & -> & I & _) NE. unfold first_named. symmetry. apply find_skip.
  destruct (is_ident (attr_path x) m) eqn:E; [|reflexivity]. destruct NE. eapply ident_one; eassumption.
Qed.
Lemma named_other n m a x a' : removes n a x a' -> n <> m -> attr_named m a' = attr_named m a.
Proof.
  intros R NE. pose proof (removes_other _ _ _ _ _ R NE) as E.
  destruct (attr_named m a) eqn:X; [|apply first_none in X; rewrite X in E; apply first_none; exact E].
  destruct (attr_named m a') eqn:Y; [reflexivity|]. apply first_none in Y. rewrite Y in E. symmetry in E. apply first_none in E. congruence.
Qed.
Lemma plain_other n m a x a' : removes n a x a' -> n <> m -> first_plain m a' = first_plain m a.
Proof. intros R NE. unfold first_plain. rewrite (removes_other _ _ _ _ _ R NE). reflexivity. Qed.
Lemma plain_none n a : attr_named n a = false -> first_plain n a = true.
Proof. intros H. apply first_none in H. unfold first_plain. rewrite H. reflexivity. Qed.
Lemma plain_kept n a p a' : removes n a (MPath p) a' -> first_plain n a = true.
Proof. intros H. unfold first_plain. rewrite (removes_first _ _ _ _ H). reflexivity. Qed.
Lemma good_child a x a' : removes "auto_enum" a x a' -> good a' = good a.
Proof.
  intros R. unfold good. rewrite (plain_other _ "nested" _ _ _ R), (plain_other _ "never" _ _ _ R), (named_other _ "rec" _ _ _ R) by discriminate.
  reflexivity.
Qed.
Lemma dealt_none d a : attr_named "auto_enum" a = false -> dealt d a = d.
Proof.
  unfold dealt, attr_named. induction a as [|x a IH]; [reflexivity|]. cbn. intros H. apply orb_false_iff in H. destruct H as [-> H]. exact (IH H).
Qed.
Lemma dealt_one d a x a' : removes "auto_enum" a x a' -> dealt d a = if attr_named "auto_enum" a' then false else attr_gives x.
Proof.
  intros (l & r & -> & -> & I & N). unfold dealt, attr_named in *. rewrite filter_app, existsb_app, N. cbn [filter]. rewrite I.
  assert (E : filter (fun x => is_ident (attr_path x) "auto_enum") l = []).
  { clear -N. induction l as [|y l IH]; [reflexivity|]. cbn in *. apply orb_false_iff in N. destruct N as [-> N]. auto. }
  rewrite E. cbn [app orb].
  assert (Q : existsb (fun x => is_ident (attr_path x) "auto_enum") r
              = match filter (fun x => is_ident (attr_path x) "auto_enum") r with [] => false | _ => true end).
  { clear. induction r as [|y r IH]; [reflexivity|]. cbn. destruct (is_ident (attr_path y) "auto_enum"); [reflexivity|exact IH]. }
  rewrite Q. destruct (filter (fun x => is_ident (attr_path x) "auto_enum") r); reflexivity.
Qed.
Lemma child_gives w toks c : child w toks c -> w_given c = gives toks /\ w_foreign c = false.
Proof.
  intros (_ & _ & _ & _ & F & _ & l & AL & G & M). split; [|exact F]. unfold gives.
  assert (P : exists m, parse_args toks = inr (traits_of l, m)).
  { destruct (markers_of l) as [|m [|]] eqn:E; [exists None|exists (Some m)|contradiction]; apply parse_args_grammar; exists l; auto. }
  destruct P as [m ->]. destruct (traits_of l), (w_given c); try reflexivity.
  - exfalso. destruct G as [G _]. apply G; reflexivity.
  - destruct G as [_ G]. apply G. discriminate.
Qed.

(** ** The visit *)

Notation W := well_annotated.
Lemma W_added c e : added e -> r_expr W c e = true /\ r_in W c e = c.
Proof.
  intros [->|[(p & ->)|[->|[->| ->]]]]; cbn; (split; [apply orb_true_iff; right; reflexivity|reflexivity]).
Qed.
Lemma W_arm c : r_arm W c [] = true.
Proof. cbn. apply orb_true_r. Qed.
Lemma W_all d e : attr_named "auto_enum" (e_attrs e) = false -> all W d e = (negb d || good (e_attrs e)) && below W d e.
Proof.
  intros N. rewrite all_below. assert (E : e_attrs (node_of e) = e_attrs e) by (destruct e; reflexivity).
  cbn [r_expr r_in well_annotated]. rewrite E, N, dealt_none, andb_false_r by exact N. reflexivity.
Qed.
Lemma set_attrs_attrs e a : e = EVerbatim (match e with EVerbatim s => s | _ => "" end) \/ e_attrs (set_attrs e a) = a.
Proof. destruct e; auto. Qed.
Lemma below_attrs d e a : below W d (set_attrs e a) = below W d e.
Proof. destruct e; reflexivity. Qed.

Definition three (w : who) (f : bool -> bool) (f' : bool -> bool) : Prop :=
  f false = true /\ (w_foreign w = false -> f true = true) /\ (w_foreign w = true -> f' true = true -> f true = true).

Lemma back_and (t1 t2 : list string) (a a' b b' : bool) : (a' = true -> a = true) -> (b' = true -> b = true) -> a' && b' = true -> a && b = true.
Proof. intros K1 K2 K. apply andb_true_iff in K. apply andb_true_iff. tauto. Qed.
Section Parts.
  Variables (Re : list string -> expr -> expr -> Prop) (Rs : list string -> stmt -> stmt -> Prop) (Ra : list string -> arm -> arm -> Prop) (w : who).
  Hypothesis He : forall t x x', Re t x x' -> three w (fun d => all W d x) (fun d => all W d x').
  Hypothesis Hs : forall t x x', Rs t x x' -> three w (fun d => all_stmt W d x) (fun d => all_stmt W d x').
  Hypothesis Ha : forall t x x', Ra t x x' -> three w (fun d => all_arm W d x) (fun d => all_arm W d x').
  Lemma parts_three t e e' : parts Re Rs Ra t e e' -> three w (fun d => below W d e) (fun d => below W d e').
  Proof.
    intros H. split; [|split].
    - apply (parts_fold andb true andb true (fun _ a _ => a = true) eq_refl ltac:(intros ? ? ? ? ? ? -> ->; reflexivity)
        _ _ _ (fun _ => true) (fun _ => true) (fun _ => true) Re Rs Ra t e e'); [|exact H].
      apply kids_all; intros x ? x' K; [apply He in K|apply Hs in K|apply Ha in K]; exact (proj1 K).
    - intros F. apply (parts_fold andb true andb true (fun _ a _ => a = true) eq_refl ltac:(intros ? ? ? ? ? ? -> ->; reflexivity)
        _ _ _ (fun _ => true) (fun _ => true) (fun _ => true) Re Rs Ra t e e'); [|exact H].
      apply kids_all; intros x ? x' K; [apply He in K|apply Hs in K|apply Ha in K]; exact (proj1 (proj2 K) F).
    - intros F. apply (parts_fold andb true andb true (fun _ a b => b = true -> a = true) (fun _ => eq_refl)
        back_and _ _ _ _ _ _ Re Rs Ra t e e'); [|exact H].
      apply kids_all; intros x ? x' K; [apply He in K|apply Hs in K|apply Ha in K]; exact (proj2 (proj2 K) F).
  Qed.
End Parts.
Lemma maybe_three (Re : list string -> expr -> expr -> Prop) w t o o' : (forall t x x', Re t x x' -> three w (fun d => all W d x) (fun d => all W d x')) -> maybe2 Re t o o' ->
  three w (fun d => fold_opt true (all W d) o) (fun d => fold_opt true (all W d) o').
Proof. intros H M. destruct M as [|t x x' K]; [repeat split|exact (H _ _ _ K)]. Qed.

Definition same_kind (x x' : expr) : Prop :=
  attr_named "auto_enum" (e_attrs x) = false -> e_attrs x' = e_attrs x /\ closure_node x' = closure_node x.
Definition let_three (w : who) (x x' : local) : Prop :=
  match x, x' with
  | Local a _ _ i d, Local a' _ _ i' d' =>
      three w (fun d => fold_opt true (all W d) i) (fun d => fold_opt true (all W d) i')
      /\ three w (fun z => fold_opt true (all W z) d) (fun z => fold_opt true (all W z) d')
      /\ (w_foreign w = false -> (match i with Some _ => first_plain "nested" a | None => true end) && first_plain "never" a && negb (attr_named "rec" a) = true)
      /\ (w_foreign w = true -> a' = a /\ match i, i' with None, None => True | Some y, Some y' => same_kind y y' | _, _ => False end)
  end.
Lemma W_local z a p t i d : attr_named "auto_enum" a = false -> all_local W z (Local a p t i d) =
  (negb z || (if match i with Some _ => true | None => false end then good a else first_plain "never" a && negb (attr_named "rec" a)))
  && (fold_opt true (all W z) i && fold_opt true (all W z) d).
Proof.
  intros N. rewrite all_local_eq. cbn [r_let r_value r_else well_annotated]. rewrite N. cbn [negb andb orb]. rewrite dealt_none by exact N.
  destruct i; reflexivity.
Qed.
Lemma W_local_named z a x a' p t i d : removes "auto_enum" a x a' -> all_local W z (Local a p t i d) =
  fold_opt true (fun e => all W (if closure_node e || attr_named "auto_enum" a' then false else attr_gives x) e) i && fold_opt true (all W false) d.
Proof.
  intros R. rewrite all_local_eq. cbn [r_let r_value r_else well_annotated]. rewrite (removes_named _ _ _ _ R). cbn [negb andb orb].
  f_equal. destruct i as [e|]; [|reflexivity]. cbn [fold_opt]. rewrite (dealt_one _ _ _ _ R). f_equal. destruct e; cbn; try reflexivity.
Qed.
Lemma dealt_named z z' a : attr_named "auto_enum" a = true -> dealt z a = dealt z' a.
Proof.
  intros N. unfold dealt, attr_named in *. induction a as [|x a IH]; [discriminate|]. cbn [filter existsb] in *.
  destruct (is_ident (attr_path x) "auto_enum"); [reflexivity|]. exact (IH N).
Qed.
Lemma W_named z z' e : attr_named "auto_enum" (e_attrs e) = true -> all W z e = all W z' e.
Proof.
  intros N. rewrite !all_below. assert (X : e_attrs (node_of e) = e_attrs e) by (destruct e; reflexivity).
  cbn [r_expr r_in well_annotated]. rewrite X, (dealt_named z z') by exact N. reflexivity.
Qed.
Lemma child_all e x a' e1 : removes "auto_enum" (e_attrs e) x a' -> below W false (set_attrs e a') = true ->
  (below W true e1 = true -> below W true (set_attrs e a') = true) -> node_of e1 = node_of (set_attrs e a') ->
  (attr_named "auto_enum" (e_attrs e1) = false ->
     closure_node e1 || negb (attr_gives x) || good (e_attrs e1) = true /\ below W (attr_gives x) e1 = true) ->
  forall d, all W d e = true.
Proof.
  intros R U B N H d. rewrite below_attrs in U, B.
  assert (X : forall y, e_attrs (node_of y) = e_attrs y) by (intros []; reflexivity).
  assert (EA : e_attrs e1 = a').
  { rewrite <- X, N, X. destruct (set_attrs_attrs e a') as [E|E]; [|exact E]. rewrite E in R. destruct R as ([|] & r & E1 & _); discriminate. }
  assert (EC : closure_node e1 = closure_node e).
  { assert (Y : forall y, closure_node (node_of y) = closure_node y) by (intros []; reflexivity). rewrite <- Y, N, Y. destruct e; reflexivity. }
  rewrite all_below. cbn [r_expr r_in well_annotated]. rewrite X, (dealt_one _ _ _ _ R), (removes_named _ _ _ _ R), andb_true_r. rewrite EA, EC in H.
  assert (Y : closure_node (node_of e) = closure_node e) by (destruct e; reflexivity). rewrite Y.
  destruct (attr_named "auto_enum" a') eqn:NA.
  - cbn [negb]. rewrite orb_true_r. exact U.
  - destruct (H eq_refl) as [H1 H2]. rewrite (good_child _ _ _ R) in H1. rewrite H1. cbn [andb].
    destruct (attr_gives x); [exact (B H2)|exact U].
Qed.
Lemma let_child w a x a' p t i d i1 d1 a1 : w_foreign w = true -> removes "auto_enum" a x a' ->
  let_three w (Local a' p t i d) (Local a1 p t i1 d1) ->
  match i1 with Some y => attr_named "auto_enum" (e_attrs y) = false -> closure_node y = false -> all W (attr_gives x) y = true | None => True end ->
  forall z, all_local W z (Local a p t i d) = true.
Proof.
  intros F R ((I1 & _ & I3) & (D1 & _) & _ & K) H z. rewrite (W_local_named _ _ _ _ _ _ _ _ R). apply andb_true_iff. split; [|exact D1].
  destruct (K F) as [_ K2]. destruct i as [y|], i1 as [y1|]; try contradiction; [|reflexivity]. cbn [fold_opt] in *.
  destruct (closure_node y || attr_named "auto_enum" a') eqn:E; [exact I1|]. apply orb_false_iff in E. destruct E as [E1 E2].
  destruct (attr_named "auto_enum" (e_attrs y)) eqn:NY; [rewrite (W_named _ false) by exact NY; exact I1|].
  destruct (K2 NY) as [A C]. rewrite A, C in H. specialize (H NY E1). destruct (attr_gives x); [exact (I3 F H)|exact I1].
Qed.

Lemma nested_tail e e' w t a : branches w t (set_attrs e a) e' -> (e = EVerbatim (match e with EVerbatim s => s | _ => "" end) \/ e_attrs e' = a)
  /\ forall d, below W d e' = below W d e.
Proof.
  intros H. destruct (branches_below W W_added _ _ _ _ H) as [N B]. split.
  - destruct (set_attrs_attrs e a) as [E|E]; [auto|]. right. rewrite <- E.
    assert (X : forall y, e_attrs (node_of y) = e_attrs y) by (intros []; reflexivity). rewrite <- (X e'), <- (X (set_attrs e a)), N. reflexivity.
  - intros d. rewrite B. apply below_attrs.
Qed.
Lemma enter_foreign e w : w_foreign (enter e w) = w_foreign w || attr_named "auto_enum" (e_attrs e).
Proof. unfold enter. destruct e; try reflexivity. destruct k; try reflexivity. destruct (w_exits w); reflexivity. Qed.
Lemma attrs_good w a a' : w_foreign w = false -> attrs_step w a a' -> first_plain "never" a = true /\ attr_named "rec" a = false.
Proof.
  intros F H. destruct H as [a K|a _ K1 K2|p a a' _ R K]; [congruence|auto using plain_none|].
  split; [eapply plain_kept; exact R|]. rewrite <- (named_other _ "rec" _ _ _ R) by discriminate. exact K.
Qed.

Definition nobody : who := Who "" "" [] false false false TakesNone true.
Lemma gives_of w x toks c : x = MPath (attr_path x) /\ toks = [] \/ x = MList (attr_path x) toks -> child w toks c -> w_given c = attr_gives x.
Proof. intros X CH. destruct (child_gives _ _ _ CH) as [-> _]. destruct X as [[-> ->]| ->]; reflexivity. Qed.
Lemma three_const w f f' : (forall d, f d = true) -> three w f f'.
Proof. intros H. repeat split; auto. Qed.
Lemma child_given w toks c (semi : bool) : child w toks c ->
  w_given (if semi then set_branches false c else c) = gives toks /\ w_foreign (if semi then set_branches false c else c) = false.
Proof. intros H. apply child_gives in H. destruct semi; exact H. Qed.
Lemma arm_three w a0 p g b0 c a g' b b' a' : nested_arm w (Arm a0 p g b0 c) (Arm a p g b c) ->
  three w (fun d => fold_opt true (all W d) g) (fun d => fold_opt true (all W d) g') -> three w (fun d => all W d b) (fun d => all W d b') -> attrs_step w a a' ->
  three w (fun d => all_arm W d (Arm a0 p g b0 c)) (fun d => all_arm W d (Arm a' p g' b' c)).
Proof.
  intros NA (G1 & G2 & G3) (B1 & B2 & B3) AS. unfold three. rewrite !all_arm_eq. cbn [r_arm well_annotated negb orb andb].
  assert (BA : forall d, all W d b0 = all W d b).
  { intros d. inversion NA as [|? ? ? ? ? ? ? ? n k F R BR]; subst; [reflexivity|]. symmetry. exact (branches_all W W_added _ _ _ _ BR d). }
  rewrite !BA. split; [rewrite G1, B1; reflexivity|]. split.
  - intros F. rewrite (G2 F), (B2 F), andb_true_r. destruct (attrs_good _ _ _ F AS) as [A1 A2]. unfold good.
    inversion NA as [? ? ? ? ? [K|K]|q ? ? ? ? ? ? ? n k _ R BR]; subst; [congruence| |].
    + rewrite (plain_none _ _ K), A1, A2. reflexivity.
    + rewrite (plain_kept _ _ _ _ R). rewrite (plain_other _ "never" _ _ _ R) in A1 by discriminate.
      rewrite (named_other _ "rec" _ _ _ R) in A2 by discriminate. rewrite A1, A2. reflexivity.
  - intros F K. assert (a = a0) as -> by (inversion NA; congruence). assert (a' = a0) as -> by (inversion AS; congruence).
    apply andb_true_iff in K. destruct K as [K1 K2]. apply andb_true_iff in K2. destruct K2 as [K2 K3]. rewrite K1, (G3 F K2), (B3 F K3). reflexivity.
Qed.
Lemma local_three w x a p t i d i' d' a' : nested_local w x (Local a p t i d) ->
  three w (fun d => fold_opt true (all W d) i) (fun d => fold_opt true (all W d) i') ->
  three w (fun z => fold_opt true (all W z) d) (fun z => fold_opt true (all W z) d') ->
  (w_foreign w = true -> match i, i' with None, None => True | Some y, Some y' => same_kind y y' | _, _ => False end) ->
  attrs_step w a a' -> let_three w x (Local a' p t i' d').
Proof.
  intros NL I D K AS. destruct (w_foreign w) eqn:F.
  - assert (x = Local a p t i d) as -> by (inversion NL; congruence). assert (a' = a) as -> by (inversion AS; congruence).
    cbn. split; [exact I|]. split; [exact D|]. split; [congruence|]. intros _. split; [reflexivity|exact (K eq_refl)].
  - destruct (attrs_good _ _ _ F AS) as [A1 A2].
    inversion NL as [? ? ? ? ? [Z|Z]|y ? ? ? ? ? _ R|q ? ? ? ? j ? ? n k _ R BR]; subst; [congruence| | |]; cbn.
    + split; [exact I|]. split; [exact D|]. split; [|congruence]. intros _. rewrite A1, A2. destruct i; [rewrite (plain_none _ _ Z)|]; reflexivity.
    + split; [exact I|]. split; [exact D|]. split; [|congruence]. intros _. rewrite (plain_other _ "never" _ _ _ R) in A1 by discriminate.
      rewrite (named_other _ "rec" _ _ _ R) in A2 by discriminate. rewrite A1, A2. reflexivity.
    + split; [|split; [exact D|split; [|congruence]]].
      * destruct I as (I1 & I2 & I3). unfold three. cbn [fold_opt] in *.
        pose proof (branches_all W W_added _ _ _ _ BR) as Y. rewrite <- !Y. repeat split; [exact I1|exact I2|congruence].
      * intros _. rewrite (plain_kept _ _ _ _ R). rewrite (plain_other _ "never" _ _ _ R) in A1 by discriminate.
        rewrite (named_other _ "rec" _ _ _ R) in A2 by discriminate. rewrite A1, A2. reflexivity.
Qed.
Lemma let_stmt_three w a p t i d l' : attr_named "auto_enum" a = false -> let_three w (Local a p t i d) l' ->
  three w (fun z => all_stmt W z (SLocal (Local a p t i d))) (fun z => all_stmt W z (SLocal l')).
Proof.
  intros N H. destruct l' as [a' p' t' i' d']. destruct H as (I & D & G & F). unfold three. rewrite !all_let_eq, !(W_local _ _ _ _ _ _ N). cbn [negb orb andb].
  destruct I as (I1 & I2 & I3), D as (D1 & D2 & D3). rewrite I1, D1. split; [reflexivity|]. split.
  - intros NF. rewrite (I2 NF), (D2 NF). specialize (G NF). unfold good. destruct i; rewrite ?G; [reflexivity|]. rewrite andb_true_r. exact G.
  - intros NF K. destruct (F NF) as [-> FI]. rewrite (W_local _ _ _ _ _ _ N) in K. cbn [negb orb andb] in K.
    apply andb_true_iff in K. destruct K as [K1 K2]. apply andb_true_iff in K2. destruct K2 as [K2 K3]. rewrite (I3 NF K2), (D3 NF K3), andb_true_r.
    destruct i, i'; try contradiction; exact K1.
Qed.

Theorem accepted_well :
  (forall w semi e e', done w semi e e' -> three w (fun d => all W d e) (fun d => all W d e'))
  /\ (forall w s s', done_stmt w s s' -> three w (fun d => all_stmt W d s) (fun d => all_stmt W d s'))
  /\ (forall w e e', body w e e' -> w_foreign w = false -> all W (w_given w) e = true).
Proof.
  pose (Pd (w : who) (semi : bool) e e' := three w (fun d => all W d e) (fun d => all W d e') /\ (w_foreign w = true -> same_kind e e')).
  pose (Pu (w : who) (semi : bool) e e' :=
    if attr_named "auto_enum" (e_attrs e) then forall d, w_foreign w = true -> all W d e = true
    else three w (fun d => below W d e) (fun d => below W d e') /\ node_of e' = node_of e).
  pose (Ps (w : who) s s' := three w (fun d => all_stmt W d s) (fun d => all_stmt W d s')).
  pose (Pa (w : who) s s' := three w (fun d => all_arm W d s) (fun d => all_arm W d s')).
  pose (Pq (w : who) e e' := three nobody (fun d => all W d e) (fun d => all W d e') /\ same_kind e e').
  pose (Pqs (w : who) s s' := three nobody (fun d => all_stmt W d s) (fun d => all_stmt W d s')).
  pose (Pqa (w : who) s s' := three nobody (fun d => all_arm W d s) (fun d => all_arm W d s')).
  pose (Pql (w : who) := let_three nobody).
  pose (Pb (w : who) e (e' : expr) := w_foreign w = false -> all W (w_given w) e = true).
  pose (Px (w : who) e (e' : expr) := w_foreign w = false -> attr_named "auto_enum" (e_attrs e) = false ->
     (closure_node e || negb (w_given w) || good (e_attrs e) = true) /\ below W (w_given w) e = true).
  pose (Pxl (w : who) l (l' : local) := w_foreign w = false -> match l with Local a p t (Some y) d =>
     attr_named "auto_enum" (e_attrs y) = false -> closure_node y = false -> all W (w_given w) y = true | _ => True end).
  assert (XA : forall y, e_attrs (node_of y) = e_attrs y) by (intros []; reflexivity).
  assert (XC : forall y, closure_node (node_of y) = closure_node y) by (intros []; reflexivity).
  assert (ALL : forall w e e', w_foreign w = true -> attr_named "auto_enum" (e_attrs e) = false -> node_of e' = node_of e ->
    three w (fun d => below W d e) (fun d => below W d e') -> three w (fun d => all W d e) (fun d => all W d e')).
  { intros w e e' F N NO (U1 & U2 & U3). assert (EA : e_attrs e' = e_attrs e) by (rewrite <- XA, NO, XA; reflexivity).
    unfold three. rewrite !(W_all _ e) by exact N. rewrite (W_all _ e') by (rewrite EA; exact N). rewrite EA. split; [exact U1|]. split; [congruence|].
    intros _ K. apply andb_true_iff in K. destruct K as [K1 K2]. rewrite K1. exact (U3 F K2). }
  assert (C : cases Pd Pu Ps Pqs Pa Pqa let_three Pql Pxl Pq Px Px Pb).
  { constructor.
    - (* an expression *)
      intros w semi e e1 e2 e3 e' H1 H2 HU0 HU H4. unfold Pu in HU. clear HU0.
      pose proof (enter_foreign e w) as EF. set (w1 := enter e w) in *. clearbody w1.
      destruct (exit_below W W_added W_arm _ _ _ H1) as [A1 B1].
      destruct (attr_named "auto_enum" (e_attrs e)) eqn:NA.
      + rewrite orb_true_r in EF. assert (e2 = e1) as -> by (inversion H2; subst; congruence). rewrite A1, NA in HU.
        assert (X : forall d, all W d e = true).
        { intros d. specialize (HU d EF). rewrite all_below in HU. rewrite all_below.
          assert (X : forall y, e_attrs (node_of y) = e_attrs y) by (intros []; reflexivity).
          apply andb_true_iff in HU. apply andb_true_iff. cbn [r_expr r_in well_annotated] in *. rewrite !X in *. rewrite A1, B1 in HU.
          destruct HU as [U1 U2]. split; [|exact U2].
          inversion H1; subst; cbn [node_of closure_node e_attrs] in *; exact U1. }
        split; [apply three_const; exact X|]. intros _ K. congruence.
      + rewrite orb_false_r in EF.
        destruct (w_foreign w) eqn:F.
        * assert (e2 = e1) as -> by (inversion H2; subst; congruence). rewrite A1, NA in HU. destruct HU as [(U1 & U2 & U3) U4].
          assert (SK : same_kind e e').
          { intros _. assert (E3 : e_attrs e3 = e_attrs e) by (rewrite <- XA, U4, XA; exact A1).
            assert (C3 : closure_node e3 = closure_node e) by (rewrite <- XC, U4, XC; inversion H1; reflexivity).
            inversion H4 as [? _ M|? e4 a' _ MS AS]; subst; [auto|].
            assert (a' = e_attrs e4) as -> by (inversion AS; subst; congruence). rewrite set_attrs_same. inversion MS; subst; auto. }
          split; [|intros _; exact SK].
          unfold three. rewrite !(W_all _ _ NA). rewrite <- !B1. cbn [negb orb andb]. split; [exact U1|]. split; [congruence|]. intros _ K.
          cbv beta in *. apply andb_true_iff.
          inversion H4 as [? _ M|? e4 a' _ MS AS]; subst.
          -- assert (X : forall y, e_attrs (node_of y) = e_attrs y) by (intros []; reflexivity).
             assert (EA : e_attrs e' = e_attrs e) by (rewrite <- X, U4, X; exact A1).
             rewrite (W_all true e') in K by (rewrite EA; exact NA). apply andb_true_iff in K. destruct K as [K1 K2]. rewrite EA in K1. split; [exact K1|exact (U3 EF K2)].
          -- assert (a' = e_attrs e4) as -> by (inversion AS; subst; congruence). rewrite set_attrs_same in K.
             assert (X : forall y, e_attrs (node_of y) = e_attrs y) by (intros []; reflexivity).
             assert (EA : e_attrs e4 = e_attrs e).
             { transitivity (e_attrs e3); [inversion MS; reflexivity|]. rewrite <- X, U4, X. exact A1. }
             rewrite (W_all true e4) in K by (rewrite EA; exact NA). apply andb_true_iff in K. destruct K as [K1 K2]. rewrite EA in K1.
             split; [exact K1|]. apply (U3 EF). inversion MS; subst; [reflexivity|exact K2].
        * assert (Q : (e2 = EVerbatim (match e2 with EVerbatim s => s | _ => "" end) \/ exists a2, e_attrs e2 = a2 /\ attr_named "auto_enum" a2 = false
              /\ first_plain "nested" (e_attrs e) = true /\ first_plain "never" a2 = first_plain "never" (e_attrs e)
              /\ attr_named "rec" a2 = attr_named "rec" (e_attrs e)) /\ forall d, below W d e2 = below W d e).
          { inversion H2 as [? [K|K]|? p a' n k ? K1 K2 K3]; subst.
            - congruence.
            - split; [|exact B1]. right. exists (e_attrs e2). rewrite A1 in *. repeat split; [exact NA|apply plain_none; exact K].
            - destruct (nested_tail _ _ _ _ _ K3) as [N1 N2]. split; [|intros; rewrite N2; apply B1].
              destruct N1 as [N1|N1].
              + destruct e1; try discriminate. cbn in K2. destruct K2 as (l & r & E & _). destruct l; discriminate.
              + right. exists a'. rewrite A1 in K2. repeat split; [exact N1|rewrite (named_other _ "auto_enum" _ _ _ K2) by discriminate; exact NA
                  |eapply plain_kept; exact K2|apply (plain_other _ _ _ _ _ K2); discriminate|apply (named_other _ _ _ _ _ K2); discriminate]. }
          destruct Q as [Q B2].
          assert (G : good (e_attrs e) = true /\ three w1 (fun d => below W d e2) (fun d => below W d e3)).
          { destruct Q as [Q|(a2 & Q1 & Q2 & Q3 & Q4 & Q5)].
            - rewrite Q in HU. cbn [e_attrs attr_named existsb] in HU. rewrite <- Q in HU. destruct HU as [U1 U4]. split; [|exact U1].
              assert (E : e_attrs e = []).
              { inversion H2 as [? K|? p a' n k ? K1 K2 K3]; subst.
                - rewrite <- A1. rewrite Q. reflexivity.
                - destruct (branches_below W W_added _ _ _ _ K3) as [N _]. rewrite Q in N. destruct e1; try discriminate. rewrite <- A1. reflexivity. }
              rewrite E. reflexivity.
            - rewrite Q1, Q2 in HU. destruct HU as [U1 U4]. split; [|exact U1].
              assert (X : forall y, e_attrs (node_of y) = e_attrs y) by (intros []; reflexivity).
              assert (EA : e_attrs e3 = a2) by (rewrite <- X, U4, X; exact Q1).
              inversion H4 as [? K|? e4 a' K MS AS]; subst; [congruence|].
              assert (E4 : e_attrs e4 = e_attrs e3) by (inversion MS; reflexivity). rewrite E4, EA in AS.
              destruct (attrs_good _ _ _ EF AS) as [G1 G2]. unfold good. rewrite Q3, <- Q4, <- Q5, G1, G2. reflexivity. }
          destruct G as (G & U1 & U2 & U3). split; [|congruence]. unfold three. rewrite !(W_all _ _ NA), <- !B2, G. cbn [negb orb andb].
          split; [exact U1|]. split; [intros _; exact (U2 EF)|congruence].
    - intros w semi e e' N H. unfold Pu. rewrite N. split; [|eapply node_parts; exact H].
      eapply parts_three; [| | |exact H]; intros t x x' [_ K]; try apply K; exact K.
    - (* a nested attribute *)
      intros w semi e p toks a' e1 c e' R H CH _ X. unfold Pu. rewrite (removes_named _ _ _ _ R). intros d F.
      pose proof (node_parts _ _ _ _ _ _ H) as NO.
      apply parts_three with (w := lent w) in H; [|intros t x x' [_ K]; try apply K; exact K..]. destruct H as (U1 & _ & U3). cbn in U1, U3. rewrite F in U3.
      destruct (child_given _ _ _ semi CH) as [G F']. unfold Px in X. specialize (X F'). rewrite G in X.
      exact (child_all e _ a' e1 R U1 (U3 eq_refl) NO X d).
    - intros w e e' semi _ H. apply H.
    - intros. apply three_const. reflexivity.
    - intros. apply three_const. reflexivity.
    - intros w a p t i d l' N _ H. apply let_stmt_three; assumption.
    - (* let with an attribute *)
      intros w a x toks a' p t i d l1 c l' R X _ H CH _ HX. destruct l1 as [a1 p1 t1 i1 d1].
      apply three_const. intros z. rewrite all_let_eq. destruct (child_gives _ _ _ CH) as [_ F]. unfold Pxl in HX. specialize (HX F).
      rewrite (gives_of _ _ _ _ X CH) in HX.
      apply (let_child (lent (past a w)) a x a' p t i d i1 d1 a1); [cbn; rewrite (removes_named _ _ _ _ R); apply orb_true_r|exact R|exact H|].
      destruct i1; [exact HX|exact I].
    - (* arm *)
      intros w x a p g b c g' b' a' NA G _ B AS. assert (X : exists a0 b0, x = Arm a0 p g b0 c) by (inversion NA; eauto). destruct X as (a0 & b0 & ->).
      eapply arm_three; [exact NA| |apply B|exact AS]. eapply maybe_three; [|exact G]. intros t y y' [_ K]. apply K.
    - (* parts of a let *)
      intros w x a p t i d i' d' a' NA I D AS. eapply local_three; [exact NA| | | |exact AS].
      + eapply maybe_three; [|exact I]. intros t0 y y' [_ K]. apply K.
      + eapply maybe_three; [|exact D]. intros t0 y y' [_ K]. apply K.
      + intros F. destruct I as [|t0 y y' [_ K]]; [exact Logic.I|]. exact (proj2 K F).
    - (* quiet *)
      intros w e e' N H. pose proof (node_parts _ _ _ _ _ _ H) as NO. split.
      + apply ALL; [reflexivity|exact N|exact NO|]. eapply parts_three; [| | |exact H]; intros t x x' [_ K]; try apply K; exact K.
      + intros _. split; [rewrite <- XA, NO, XA|rewrite <- XC, NO, XC]; reflexivity.
    - intros w e p toks a' e1 c e' R H CH _ X. split; [|intros K; rewrite (removes_named _ _ _ _ R) in K; discriminate].
      apply three_const. pose proof (node_parts _ _ _ _ _ _ H) as NO.
      apply parts_three with (w := nobody) in H; [|intros t x x' [_ K]; try apply K; exact K..]. destruct H as (U1 & _ & U3).
      destruct (child_gives _ _ _ CH) as [G F']. specialize (X F'). rewrite G in X.
      exact (child_all e _ a' e1 R U1 (U3 eq_refl) NO X).
    - intros w e e' semi _ _ H. apply H.
    - intros w e p toks a' e1 c e' semi R H CH _ X. apply three_const. pose proof (node_parts _ _ _ _ _ _ H) as NO.
      apply parts_three with (w := nobody) in H; [|intros t x x' [_ K]; try apply K; exact K..]. destruct H as (U1 & _ & U3).
      destruct (child_given _ _ _ semi CH) as [G F']. specialize (X F'). rewrite G in X.
      exact (child_all e _ a' e1 R U1 (U3 eq_refl) NO X).
    - intros. apply three_const. reflexivity.
    - intros. apply three_const. reflexivity.
    - intros w a p t i d l' N _ H. apply let_stmt_three; assumption.
    - intros w a x toks a' p t i d l1 c l' R X _ H CH _ HX. destruct l1 as [a1 p1 t1 i1 d1].
      apply three_const. intros z. rewrite all_let_eq. destruct (child_gives _ _ _ CH) as [_ F]. unfold Pxl in HX. specialize (HX F).
      rewrite (gives_of _ _ _ _ X CH) in HX.
      apply (let_child nobody a x a' p t i d i1 d1 a1); [reflexivity|exact R|exact H|]. destruct i1; [exact HX|exact I].
    - intros w a p g b c g' b' G _ B. eapply (arm_three nobody); [apply na_none; left; reflexivity| |apply B|apply at_foreign; reflexivity].
      eapply maybe_three; [|exact G]. intros t y y' [_ K]. apply K.
    - intros w a p t i d i' d' I D. eapply (local_three nobody); [apply nl_none; left; reflexivity| | | |apply at_foreign; reflexivity].
      + eapply maybe_three; [|exact I]. intros t0 y y' [_ K]. apply K.
      + eapply maybe_three; [|exact D]. intros t0 y y' [_ K]. apply K.
      + intros F. destruct I as [|t0 y y' [_ K]]; [exact Logic.I|]. apply K.
    - (* the attribute itself *)
      intros w e e' G _ [(U1 & _) _] F N. rewrite G. cbn [negb]. rewrite orb_true_r. split; [reflexivity|]. rewrite (W_all _ _ N) in U1. exact U1.
    - intros w e e1 e' G _ H _. exact H.
    - intros w a p t t' i d i' d' G _ I D F. rewrite G. destruct I as [|t0 y y' [_ [(K & _) _]]]; [exact Logic.I|]. intros _ _. exact K.
    - intros w a p t t' e e1 e' d _ _ H _ F N CN. destruct (H F N) as [H1 H2]. rewrite CN in H1. rewrite (W_all _ _ N), H2, andb_true_r. exact H1.
    - intros w a ps b b' x _ _ _ H F N. split; [reflexivity|]. exact (H F).
    - intros w e e' _ _ H F N. specialize (H F). rewrite (W_all _ _ N) in H. apply andb_true_iff in H. destruct H as [H1 H2].
      split; [|exact H2]. rewrite <- orb_assoc, H1. apply orb_true_r.
    - intros w e e1 k e' B _ [(U1 & U2 & _) _] F. rewrite <- (branches_all W W_added _ _ _ _ B). destruct (w_given w); [exact (U2 F)|exact U1].
    - intros w e e1 e' G _ B _ [(U1 & _) _] F. rewrite <- (branches_all W W_added _ _ _ _ B), G. exact U1. }
  split; [|split]; intros w.
  - intros semi e e' H. apply (ind_done _ _ _ _ _ _ _ _ _ _ _ _ _ C w semi e e' H).
  - exact (ind_stmt _ _ _ _ _ _ _ _ _ _ _ _ _ C w).
  - exact (ind_body _ _ _ _ _ _ _ _ _ _ _ _ _ C w).
Qed.

(** ** The outermost attribute *)

Lemma stmts_well w t b b' : seq2 (fun _ => done_stmt w) t b b' -> w_foreign w = false -> all_block W true b = true.
Proof.
  intros H F. induction H as [|t1 t2 s s' b b' H1 H2 IH]; [reflexivity|]. cbn. fold (all_block W true b). rewrite IH, andb_true_r.
  exact (proj1 (proj2 (proj1 (proj2 accepted_well) _ _ _ H1)) F).
Qed.
Lemma code_well own m e e' : code own m e e' -> below_closure (all W true) e = true.
Proof.
  destruct 1 as [a ps b b' B|e e' N B]; pose proof (proj2 (proj2 accepted_well) _ _ _ B eq_refl) as K; cbn in K.
  - exact K.
  - destruct e; try contradiction; exact K.
Qed.
Theorem expanded_well own m i i' : expanded own m i i' -> in_code W true i = true.
Proof.
  destruct 1; cbn; try (eapply code_well; eassumption).
  - exact (proj2 (proj2 accepted_well) _ _ _ H eq_refl).
  - rewrite <- (body_all W W_added _ _ _ _ H1). eapply stmts_well; [eassumption|reflexivity].
  - reflexivity.
Qed.
