(** Proof: the branches that Steady.v counts get a variant each. *)

Require Import Coq.Strings.String Coq.Lists.List Coq.Bool.Bool Coq.Arith.Arith Lia.
Require Import Verif.Syntax Verif.Context Verif.ExprModel Verif.AstInd Verif.AttrFold Verif.RunLemmas Verif.EditsRun Verif.Tails Verif.Steady.
Import ListNotations.
Open Scope string_scope.
Open Scope list_scope.

Lemma plain_named n a : attr_named n a = false -> any_empty_attr a n = false.
Proof.
  unfold attr_named, any_empty_attr. induction a as [|x l IH]; cbn; [reflexivity|]. rewrite !orb_false_iff. intros [A B].
  split; [|auto]. destruct x; auto.
Qed.

Lemma no_nested :
  (forall e, nested_below e = false -> find_nested_expr e = false)
  /\ (forall s, af_stmt orb false (attr_named "nested") s = false -> find_nested_stmt s = false)
  /\ (forall x, nested_below_arm x = false -> find_nested_arm x = false)
  /\ (forall l, af_local orb false (attr_named "nested") l = false -> find_nested_local l = false).
Proof.
  assert (L : forall A (f g : A -> bool) l, Forall (fun x => f x = false -> g x = false) l -> fold_list orb false f l = false -> fold_list orb false g l = false).
  { intros A f g l F. unfold fold_list. induction F; cbn [fold_right]; auto. rewrite !orb_false_iff. intros [X Y]. auto. }
  assert (O : forall (f g : expr -> bool) o, opt_all (fun x => f x = false -> g x = false) o -> fold_opt false f o = false -> fold_opt false g o = false).
  { intros f g [x|]; cbn; auto. }
  assert (W : forall a (x : bool), attr_named "nested" a = false -> x = false -> (if any_attr a NAME then false else if any_empty_attr a NESTED then true else x) = false).
  { intros a x A ->. rewrite (plain_named NESTED a A). destruct (any_attr a NAME); reflexivity. }
  assert (W' : forall a (x : bool), attr_named "nested" a = false -> x = false -> (if any_empty_attr a NESTED then true else x) = false).
  { intros a x A ->. rewrite (plain_named NESTED a A). reflexivity. }
  apply ast_ind; intros; unfold nested_below, nested_below_arm in *;
    cbn [af_expr af_stmt af_arm af_local fold_expr fold_stmt fold_arm fold_local find_nested_expr find_nested_stmt find_nested_arm find_nested_local e_attrs] in *;
    repeat match goal with H : _ || _ = false |- _ => apply orb_false_elim in H; destruct H end;
    try (apply W; [assumption|]); try (apply W'; [assumption|]); repeat (apply orb_false_intro);
    try solve [auto | eapply L; eauto | eapply O; eauto].
Qed.

Lemma no_nested_block b : nested_below_stmts b = false -> find_nested_block b = false.
Proof.
  unfold nested_below_stmts, find_nested_block, fold_list. induction b as [|s b IH]; cbn [fold_right]; [auto|]. rewrite !orb_false_iff. intros [A B].
  split; [apply (proj1 (proj2 no_nested)); exact A|auto].
Qed.

Lemma on_last_imp (f g : stmt -> bool) b : Forall (fun s => f s = true -> g s = false) b -> on_last f false b = true -> on_last g false b = false.
Proof. induction 1; cbn [on_last]; [discriminate|]. destruct l; auto. Qed.

Lemma sure_reached cx :
  (forall e, sure e = true -> is_unreachable cx e = false)
  /\ (forall s, sure_last s = true -> is_unreachable_stmt cx s = false)
  /\ (forall x, sure_arm x = true -> skip_arm cx x = false)
  /\ (forall l : local, True).
Proof.
  assert (W : forall a (y x : bool), open a && y = true -> (y = true -> x = false) -> (if any_empty_attr a NEVER || any_attr a NAME then true else x) = false).
  { intros a y x H Q. apply andb_prop in H. destruct H as [A B]. unfold open in A. apply negb_true_iff in A.
    change (any_empty_attr a NEVER || any_attr a NAME) with (attr_plain "never" a || attr_named "auto_enum" a). rewrite A. auto. }
  apply ast_ind; intros; auto.
  all: try (cbn [sure] in *; cbn [is_unreachable e_attrs] in *; eapply W; [eassumption|]; intros; try discriminate; try reflexivity; auto; fail).
  - cbn [is_unreachable]. eapply W; [exact H0|]. intros X. eapply on_last_imp; [exact H|exact X].
  - cbn [is_unreachable]. destruct k; try (eapply W; [exact H0|]; reflexivity). eapply W; [exact H0|]. intros X. eapply on_last_imp; [exact H|exact X].
  - cbn [is_unreachable]. eapply W; [exact H1|]. intros X. apply existsb_exists in X. destruct X as (x & I & X).
    change (sure_arm x = true) in X. pose proof (proj1 (Forall_forall _ _) H0 x I X) as S. destruct (forallb _ _) eqn:F; [|reflexivity].
    rewrite forallb_forall in F. specialize (F x I). destruct x as [a0 p g b c]. unfold skip_arm in S.
    destruct (any_empty_attr a0 NEVER), (is_unreachable cx b); cbn in F, S; try discriminate; destruct (any_empty_attr a0 NESTED); discriminate.
  - discriminate.
  - discriminate.
  - cbn [sure_arm] in H1. apply andb_prop in H1. destruct H1 as [A B]. apply andb_prop in A. destruct A as [A C].
    apply negb_true_iff in A, B. apply orb_false_iff in A. destruct A as [A D]. cbn [skip_arm].
    change (any_empty_attr a NEVER) with (attr_plain "never" a). rewrite A, (plain_named NESTED a D), (H0 C), (proj1 (proj2 (proj2 no_nested)) _ B). reflexivity.
Qed.

Lemma sure_taken cx b : sure_block b = true -> skip_block cx b = false.
Proof.
  unfold sure_block, skip_block. intros H. apply andb_prop in H. destruct H as [A B]. apply negb_true_iff in B.
  pose proof (no_nested_block _ B) as NB. revert A NB. generalize (find_nested_block b) as w. intros w A ->.
  revert B A. induction b as [|s r IH]; [discriminate|]. intros B A.
  unfold nested_below_stmts, fold_list in B. cbn [fold_right] in B. apply orb_false_iff in B. destruct B as [B1 B2].
  destruct r as [|s2 r]; [|apply IH; assumption]. cbn [on_last] in *.
  destruct s as [l|i|e semi|]; try discriminate. cbn [sure_last] in A. pose proof (proj1 (sure_reached cx) e A) as U.
  destruct semi; [exact U|]. rewrite U. cbn [af_stmt fold_stmt] in B1.
  assert (N : attr_named "nested" (e_attrs e) = false) by (destruct e; cbn [af_expr e_attrs] in *; apply orb_false_iff in B1; apply B1).
  rewrite (plain_named NESTED _ N). reflexivity.
Qed.

Lemma sure_else_block ea l b : sure_else (EBlock ea l b) = true -> sure_block b = true.
Proof.
  unfold sure_else, sure_block. intros H. apply andb_prop in H. destruct H as [H _]. apply andb_prop in H. destruct H as [A B].
  change (open ea && on_last sure_last false b = true) in A. apply andb_prop in A. destruct A as [_ A]. rewrite A.
  apply negb_true_iff in B. change (attr_named "nested" ea || nested_below_stmts b = false) in B. apply orb_false_iff in B. destruct B as [_ ->]. reflexivity.
Qed.

Notation adds cx cx' k := (length (cx_variants cx) + k <= length (cx_variants cx')).

Lemma block_adds b cx b' cx' : visit_last_block b cx = ROk (b', cx') -> sure_block b = true -> adds cx cx' 1.
Proof.
  intros H S. unfold visit_last_block in H. minv. rewrite (sure_taken _ _ S) in H. minv.
  match goal with HN : next_expr _ _ = _ |- _ => apply next_expr_ok in HN; destruct HN; subst end. cbn. rewrite app_length. cbn. lia.
Qed.

Lemma block_grows b cx b' cx' : visit_last_block b cx = ROk (b', cx') -> adds cx cx' 0.
Proof.
  intros H. apply visit_last_block_ok in H. destruct H as [(_ & _ & ->)|(_ & _ & ->)]; cbn; rewrite ?app_length; lia.
Qed.

Lemma if_grows : forall e cx e' cx', visit_last_expr_if e cx = ROk (e', cx') -> adds cx cx' 0.
Proof.
  refine (proj1 (ast_ind (fun e => forall cx e' cx', visit_last_expr_if e cx = ROk (e', cx') -> adds cx cx' 0)
                   (fun _ => True) (fun _ => True) (fun _ => True) _ _ _ _ _ _ _ _ _ _ _ _ _ _ _ _ _ _ _ _ _ _ _ _ _ _));
    intros; try exact I;
    match goal with H : visit_last_expr_if _ _ = _ |- _ => cbn [visit_last_expr_if] in H; rename H into HH end;
    try (minv; lia).
  apply bind_ok in HH. destruct HH as (t' & cx1 & HA & HH). apply block_grows in HA.
  apply bind_ok in HH. destruct HH as (o' & cx2 & HB & HH). minv.
  destruct els as [els|].
  - destruct els; try discriminate HB.
    + minv. match goal with HC : visit_last_block _ _ = _ |- _ => apply block_grows in HC end. lia.
    + apply bind_ok in HB. destruct HB as (y & cy & HB & HC). minv. cbn in H1. apply H1 in HB. lia.
  - minv. cbn. lia.
Qed.

Lemma arms_add arms : forall cx arms' cx', mapM visit_last_arm arms cx = ROk (arms', cx') -> adds cx cx' (length (filter sure_arm arms)).
Proof.
  induction arms as [|x r IH]; intros cx arms' cx' H; apply mapM_inv in H.
  - destruct H as [_ ->]. cbn. lia.
  - destruct H as (y & cx1 & ys & H1 & H2 & ->). apply IH in H2. unfold visit_last_arm in H1. minv. cbn [filter].
    destruct (skip_arm cx x) eqn:K.
    + minv. destruct (sure_arm x) eqn:S; [|lia]. rewrite (proj1 (proj2 (proj2 (sure_reached _))) x S) in K. discriminate.
    + destruct x. minv. match goal with HN : next_expr _ _ = _ |- _ => apply next_expr_ok in HN; destruct HN; subst end.
      cbn [cx_variants set_variants] in H2. rewrite app_length in H2. cbn [length] in H2. destruct (sure_arm _); cbn [length]; lia.
Qed.

Lemma two_reached cx : forall e, two e = true -> is_unreachable cx e = false.
Proof.
  refine (proj1 (ast_ind (fun e => two e = true -> is_unreachable cx e = false)
                   (fun s => match s with SExpr e false => two e = true -> is_unreachable cx e = false | _ => True end) (fun _ => True) (fun _ => True) _ _ _ _ _ _ _ _ _ _ _ _ _ _ _ _ _ _ _ _ _ _ _ _ _ _));
    intros; try exact I; try (destruct semi; auto; fail).
  all: try (cbn [two] in *; rewrite andb_false_r in *; discriminate).
  all: match goal with H : two ?e = true |- _ =>
         assert (OP : open (e_attrs e) = true) by (cbn [two] in H; apply andb_prop in H; apply H) end.
  all: cbn [is_unreachable e_attrs] in *; unfold open in OP; apply negb_true_iff in OP;
       change (any_empty_attr a NEVER || any_attr a NAME) with (attr_plain "never" a || attr_named "auto_enum" a); rewrite OP;
       cbn [two] in *; match goal with H : _ && _ = true |- _ => apply andb_prop in H; destruct H as [_ T] end; auto.
  - eapply on_last_imp; [|exact T]. eapply Forall_impl; [|exact H]. intros []; try discriminate; auto. destruct semi; [discriminate|]. cbn [is_unreachable_stmt]. auto.
  - destruct k; try discriminate. eapply on_last_imp; [|exact T]. eapply Forall_impl; [|exact H]. intros []; try discriminate; auto. destruct semi; [discriminate|]. cbn [is_unreachable_stmt]. auto.
  - apply Nat.leb_le in T. destruct (filter sure_arm arms) as [|x l] eqn:F; [cbn in T; lia|].
    assert (I : In x (filter sure_arm arms)) by (rewrite F; left; reflexivity). apply filter_In in I. destruct I as [I X].
    destruct (forallb _ _) eqn:FB; [|reflexivity]. rewrite forallb_forall in FB. specialize (FB x I).
    pose proof (proj1 (proj2 (proj2 (sure_reached cx))) x X) as S. destruct x as [a0 p g b c]. unfold skip_arm in S.
    destruct (any_empty_attr a0 NEVER), (is_unreachable cx b); cbn in FB, S; try discriminate; destruct (any_empty_attr a0 NESTED); discriminate.
Qed.

Lemma last_adds f b :
  Forall (fun s => match s with
    | SExpr e false => forall cx e' cx', f e cx = ROk (e', cx') -> visit_last cx = true -> two e = true -> adds cx cx' 2
    | _ => True end) b ->
  forall cx b' cx', map_last_expr f b cx = ROk (b', cx') -> visit_last cx = true ->
    on_last (fun s => match s with SExpr x false => two x | _ => false end) false b = true -> adds cx cx' 2.
Proof.
  induction b as [|s r IH]; intros HF cx b' cx' H V T; [discriminate|].
  inversion HF as [|? ? F1 F2]; subst. destruct r as [|s2 r].
  - cbn [map_last_expr] in H. destruct s as [l|i|e semi|]; try discriminate T. destruct semi; [discriminate T|]. minv. eapply F1; eauto.
  - change (map_last_expr f (s :: s2 :: r)) with (r' <- map_last_expr f (s2 :: r) ;; ret (s :: r')) in H.
    minv. eapply IH; [exact F2|eassumption|exact V|exact T].
Qed.

Lemma child_adds : forall e cx e' cx', child_expr e cx = ROk (e', cx') -> visit_last cx = true -> two e = true -> adds cx cx' 2.
Proof.
  refine (proj1 (ast_ind (fun e => forall cx e' cx', child_expr e cx = ROk (e', cx') -> visit_last cx = true -> two e = true -> adds cx cx' 2)
                   (fun s => match s with SExpr e false => forall cx e' cx', child_expr e cx = ROk (e', cx') -> visit_last cx = true -> two e = true -> adds cx cx' 2 | _ => True end)
                   (fun _ => True) (fun _ => True) _ _ _ _ _ _ _ _ _ _ _ _ _ _ _ _ _ _ _ _ _ _ _ _ _ _));
    intros; try exact I; try (destruct semi; auto; fail).
  all: try (match goal with H : two _ = true |- _ => cbn [two] in H; rewrite andb_false_r in H; discriminate end).
  all: match goal with H : child_expr ?e ?cx = _, T0 : two ?e = true, V : visit_last ?cx = true |- _ =>
         pose proof (two_reached cx e T0) as U; cbn [child_expr] in H; minv; rewrite V, U in H; cbn [negb orb] in H;
         cbn [two] in T0; apply andb_prop in T0; destruct T0 as [_ T] end.
  - minv. eapply last_adds; [exact H| |eassumption|exact T]. eassumption.
  - destruct k; try discriminate. minv. eapply last_adds; [exact H| |eassumption|exact T]. eassumption.
  - minv. match goal with HM : mapM _ _ _ = _ |- _ => apply arms_add in HM end. apply Nat.leb_le in T. lia.
  - match goal with HH : visit_last_expr_if _ _ = _ |- _ => cbn [visit_last_expr_if] in HH end.
    apply andb_prop in T. destruct T as [T1 T2]. destruct els as [x|]; [|discriminate].
    match goal with HH : (_ <- visit_last_block _ ;; _) _ = _ |- _ => apply bind_ok in HH; destruct HH as (t' & cx1 & HA & HH); 
      apply bind_ok in HH; destruct HH as (o' & cx2 & HB & HH) end. minv.
    pose proof (block_adds _ _ _ _ HA T1) as A1. destruct x; try (unfold sure_else in T2; rewrite andb_false_r in T2; discriminate).
    + minv. match goal with HC : visit_last_block _ _ = _ |- _ => pose proof (block_adds _ _ _ _ HC (sure_else_block _ _ _ T2)) end. lia.
    + apply bind_ok in HB. destruct HB as (y & cy & HB & HC). minv. cbn [visit_last_expr_if] in HB.
      apply bind_ok in HB. destruct HB as (t2 & cx2 & HD & HB). apply bind_ok in HB. destruct HB as (o2 & cx3 & HE & HB). minv.
      unfold sure_else in T2. apply andb_prop in T2. destruct T2 as [_ T2]. pose proof (block_adds _ _ _ _ HD T2).
      assert (adds cx2 cx3 0); [|lia].
      destruct els as [els|]; [|minv; cbn; lia]. destruct els; try discriminate HE.
      * minv. match goal with HC : visit_last_block _ _ = _ |- _ => apply block_grows in HC; exact HC end.
      * apply bind_ok in HE. destruct HE as (z & cz & HE & HF). minv. apply if_grows in HE. exact HE.
  - minv. eapply H; eassumption.
  - minv. eapply H; eassumption.
Qed.
