(** Proof: edits do not bring in annotations or markers, and such code is left alone by [child_expr]. *)

Require Import Coq.Strings.String Coq.Lists.List Coq.Bool.Bool Coq.Arith.Arith Lia.
Require Import Verif.Syntax Verif.Context Verif.ExprModel Verif.AstInd Verif.Edits Verif.RunLemmas Verif.Tails
  Verif.SteadyEdits Verif.Spare.
Import ListNotations.
Open Scope string_scope.
Open Scope list_scope.

Lemma notes_drop a a' : drops_attr a a' -> no_notes a = true -> no_notes a' = true.
Proof.
  intros D. unfold no_notes. rewrite !negb_true_iff, !orb_false_iff. intros (A & B & C).
  repeat split; eapply le_false; eauto using named_drop.
Qed.

Lemma spare_attrs k e : spare k e = true -> no_notes (e_attrs e) = true.
Proof. destruct e; cbn [spare]; intros H; apply andb_prop in H; tauto. Qed.

Lemma spare_below k e : spare k e = true ->
  match e with EMacro _ _ => true | _ => fold_expr andb true (spare k) (spare_stmt k) (spare_arm k) e end = true.
Proof.
  destruct e; cbn [spare]; intros H; apply andb_prop in H; destruct H as [_ H]; try exact H; try reflexivity;
    apply andb_prop in H; tauto.
Qed.

Lemma spare_set k e a : no_notes a = true -> spare k e = true -> spare k (set_attrs e a) = true.
Proof.
  intros N. destruct e; cbn [spare set_attrs e_attrs fold_expr]; intros H; apply andb_prop in H; destruct H as [_ H];
    try (rewrite N; exact H). exact H.
Qed.

Lemma named_nil n : attr_named n [] = false. Proof. reflexivity. Qed.

Lemma spare_edit k mk :
    (forall t e e', ed_expr mk t e e' -> spare k e = true -> spare k e' = true)
    /\ (forall t l l', ed_exprs mk t l l' -> fold_list andb true (spare k) l = true -> fold_list andb true (spare k) l' = true)
    /\ (forall t o o', ed_opt mk t o o' -> fold_opt true (spare k) o = true -> fold_opt true (spare k) o' = true)
    /\ (forall t s s', ed_stmt mk t s s' -> spare_stmt k s = true -> spare_stmt k s' = true)
    /\ (forall t l l', ed_stmts mk t l l' -> spare_block k l = true -> spare_block k l' = true)
    /\ (forall t x x', ed_arm mk t x x' -> spare_arm k x = true -> spare_arm k x' = true)
    /\ (forall t l l', ed_arms mk t l l' -> fold_list andb true (spare_arm k) l = true -> fold_list andb true (spare_arm k) l' = true)
    /\ (forall t x x', ed_local mk t x x' -> spare_let k x = true -> spare_let k x' = true).
Proof.
  assert (W : forall i v e, spare k (wrap i v e) = spare k e).
  { intros. unfold wrap, ctor, plain_path. cbn. rewrite andb_true_r. reflexivity. }
  assert (B : forall i v b, spare_block k (wrap_branch i v b) = spare_block k b).
  { intros. unfold spare_block, wrap_branch, wrap, ctor, plain_path. cbn. rewrite !andb_true_r. reflexivity. }
  unfold spare_block in *.
  apply (ed_ind mk); intros; try assumption; try reflexivity;
    try solve [ eauto ];
    try solve [ cbn [spare spare_stmt spare_arm spare_let e_attrs fold_expr fold_stmt fold_arm fold_local fold_opt fold_list fold_right] in *;
                rewrite ?andb_true_iff in *; intuition (eauto; congruence) ].
  - apply spare_set; [|assumption]. eapply notes_drop; [eassumption|]. eapply spare_attrs. eassumption.
  - cbn [spare e_attrs fold_expr fold_opt] in *. rewrite W. destruct o; assumption.
  - cbn [spare e_attrs fold_expr fold_opt] in *. rewrite W. destruct o; assumption.
  - cbn [spare e_attrs fold_expr fold_opt question_arms] in *. rewrite !andb_true_iff in *.
    split; [tauto|]. split; [tauto|]. destruct H as (_ & -> & _). reflexivity.
  - cbn [spare_arm fold_arm] in *. rewrite !andb_true_iff in *. split; [eapply notes_drop; [eassumption|tauto]|tauto].
  - cbn [spare_let fold_local] in *. rewrite !andb_true_iff in *. split; [eapply notes_drop; [eassumption|tauto]|tauto].
Qed.

(** ** The value *)

Lemma named_auto cx e : attr_named "auto_enum" (e_attrs e) = true -> is_unreachable cx e = true.
Proof. intros H. destruct e; cbn [is_unreachable e_attrs] in *; try discriminate; change (any_attr ?a NAME) with (attr_named "auto_enum" a); rewrite H, orb_true_r; reflexivity. Qed.

Lemma bare_last_map b : Forall (fun s => match s with SExpr x _ => forall cx, bare x = true -> child_expr x cx = ROk (x, cx) | _ => True end) b ->
  on_last bare_last true b = true -> forall cx, map_last_expr child_expr b cx = ROk (b, cx).
Proof.
  induction b as [|s r IH]; intros F H cx; [reflexivity|]. inversion F as [|? ? F1 F2]; subst. destruct r as [|s2 r].
  - cbn [map_last_expr on_last] in *. destruct s as [| |x []|]; try reflexivity. unfold bind. rewrite (F1 cx H). reflexivity.
  - change (on_last bare_last true (s2 :: r) = true) in H. specialize (IH F2 H cx).
    change (map_last_expr child_expr (s :: s2 :: r)) with (r' <- map_last_expr child_expr (s2 :: r) ;; ret (s :: r')).
    unfold bind. rewrite IH. reflexivity.
Qed.

Lemma child_split e cx : attr_named "auto_enum" (e_attrs e) = true
  \/ (attr_named "auto_enum" (e_attrs e) = false /\ (negb (visit_last cx) || is_unreachable cx e = true \/ negb (visit_last cx) || is_unreachable cx e = false)).
Proof. destruct (attr_named _ _); [left; reflexivity|right]. destruct (_ || _); auto. Qed.

Lemma bare_child : forall e cx, bare e = true -> child_expr e cx = ROk (e, cx).
Proof.
  refine (proj1 (ast_ind (fun e => forall cx, bare e = true -> child_expr e cx = ROk (e, cx))
    (fun s => match s with SExpr x _ => forall cx, bare x = true -> child_expr x cx = ROk (x, cx) | _ => True end)
    (fun _ => True) (fun _ => True) _ _ _ _ _ _ _ _ _ _ _ _ _ _ _ _ _ _ _ _ _ _ _ _ _ _)); intros; auto;
    match goal with H : bare ?e = true |- child_expr ?e ?cx = _ => rename H into BE;
      destruct (child_split e cx) as [C|[C [S|S]]];
      [ pose proof (named_auto cx _ C) as U; cbn [child_expr]; unfold bind, gets; rewrite U, orb_true_r; reflexivity
      | cbn [child_expr]; unfold bind, gets; rewrite S; reflexivity
      | cbn [bare] in BE; rewrite C in BE; cbn [orb] in BE; try discriminate BE; cbn [child_expr]; unfold bind, gets; rewrite S; try reflexivity ]
    end.
  - rewrite (bare_last_map b H BE). reflexivity.
  - destruct k; try reflexivity. rewrite (bare_last_map b H BE). reflexivity.
  - rewrite (H cx BE). reflexivity.
  - rewrite (H cx BE). reflexivity.
Qed.
