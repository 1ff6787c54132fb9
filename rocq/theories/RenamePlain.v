(** Edits add no attributes [auto_enum]. *)

Require Import Coq.Strings.String Coq.Lists.List Coq.Bool.Bool Coq.Arith.Arith.
Require Import Verif.Syntax Verif.Context Verif.ExprModel Verif.TypeAnalysis Verif.AutoEnum.
Require Import Verif.AstInd Verif.RunLemmas Verif.Outside Verif.OutsideRun.
Import ListNotations.
Open Scope string_scope.
Open Scope list_scope.

(** All results have a property. *)
Definition keeps {A} (P : A -> Prop) (m : M A) : Prop := forall cx a cx', m cx = ROk (a, cx') -> P a.

Notation ok P := (fun z => P z = true).
Notation all P := (fun z => fold_list andb true P z = true).
Notation opt P := (fun z => fold_opt true P z = true).

Lemma keeps_ret {A} (P : A -> Prop) a : P a -> keeps P (ret a).
Proof. intros H cx b c E. unfold ret in E. congruence. Qed.
Lemma keeps_bind {A B} (P : A -> Prop) (Q : B -> Prop) m k : keeps P m -> (forall a, P a -> keeps Q (k a)) -> keeps Q (bind m k).
Proof. intros H K cx b c E. apply bind_ok in E. destruct E as (a & c1 & E1 & E2). eapply K; [|exact E2]. eapply H. exact E1. Qed.
Lemma keeps_any {A B} (Q : B -> Prop) (m : M A) k : (forall a, keeps Q (k a)) -> keeps Q (bind m k).
Proof. intros K. apply (keeps_bind (fun _ => True)); [intros cx a c _; exact I|auto]. Qed.

Lemma all_cons {A} (P : A -> bool) a l : fold_list andb true P (a :: l) = P a && fold_list andb true P l.
Proof. reflexivity. Qed.

Lemma keeps_mapM {A} (P : A -> bool) f l : Forall (fun z => P z = true -> keeps (ok P) (f z)) l -> fold_list andb true P l = true ->
  keeps (all P) (mapM f l).
Proof.
  induction l as [|z l IH]; intros H W; [apply keeps_ret; reflexivity|]. inversion H; subst. rewrite all_cons in W. apply andb_true_iff in W.
  destruct W as [W1 W2]. cbn [mapM]. apply (keeps_bind (ok P)); [auto|]. intros a Ha. apply (keeps_bind (all P)); [auto|]. intros r Hr.
  apply keeps_ret. rewrite all_cons, Ha, Hr. reflexivity.
Qed.
Lemma keeps_optM {A} (P : A -> bool) f o : opt_all (fun z => P z = true -> keeps (ok P) (f z)) o -> fold_opt true P o = true ->
  keeps (opt P) (optM f o).
Proof.
  destruct o; cbn [opt_all fold_opt optM]; intros H W; [|apply keeps_ret; reflexivity]. apply (keeps_bind (ok P)); [auto|]. intros; apply keeps_ret; assumption.
Qed.

Definition vis_keeps (V : vis) (e : expr) : Prop :=
  let E := fun z => plain_expr z = true -> keeps (ok plain_expr) (on_expr V z) in
  let S := fun z => plain_stmt z = true -> keeps (ok plain_stmt) (on_stmt V z) in
  let Ar := fun z => plain_arm z = true -> keeps (ok plain_arm) (on_arm V z) in
  match e with
  | EBlock _ _ b | EBlk _ _ b | ELoop _ _ b => Forall S b
  | EMatch _ s arms => E s /\ Forall Ar arms
  | EIf _ c t els => E c /\ Forall S t /\ opt_all E els
  | EWhile _ _ c b => E c /\ Forall S b
  | EFor _ _ _ c b => E c /\ Forall S b
  | EBreak _ _ o | EReturn _ o => opt_all E o
  | ELet _ _ e | ETry _ e | EParen _ e | EClosure _ _ e => E e
  | EMethodCall _ r _ args | ECall _ r args => E r /\ Forall E args
  | EOther _ _ es => Forall E es
  | EContinue _ _ | EMacro _ _ | EPath _ _ _ | EVerbatim _ => True
  end.
Ltac split_and := repeat match goal with
  | H : _ /\ _ |- _ => let X := fresh "Z" in destruct H as [H X]
  | H : _ && _ = true |- _ => let X := fresh "Z" in apply andb_true_iff in H; destruct H as [H X] end.
Ltac finish := rewrite ?plain_expr_eq; cbn [e_attrs fold_expr]; repeat match goal with H : _ = true |- _ => rewrite H end; reflexivity.

Lemma keeps_walk V e : vis_keeps V e -> plain_expr e = true -> keeps (ok plain_expr) (walk_expr V e).
Proof.
  intros H W. rewrite plain_expr_eq in W.
  destruct e; cbn [vis_keeps walk_expr e_attrs fold_expr] in *; split_and;
    repeat first [ apply keeps_ret; finish
                 | eapply keeps_bind; [first [apply keeps_mapM; eassumption | apply keeps_optM; eassumption | match goal with H : _ -> keeps _ ?m |- keeps _ ?m => apply H; assumption end]|intros; cbv beta in *] ].
Qed.
Lemma keeps_walk_arm f a p g b c : opt_all (fun z => plain_expr z = true -> keeps (ok plain_expr) (f z)) g ->
  (plain_expr b = true -> keeps (ok plain_expr) (f b)) -> plain_arm (Arm a p g b c) = true -> keeps (ok plain_arm) (walk_arm f (Arm a p g b c)).
Proof.
  intros Hg Hb W. change (fold_opt true plain_expr g && plain_expr b = true) in W. split_and. cbn [walk_arm].
  eapply keeps_bind; [apply keeps_optM; eassumption|intros g' Wg]. eapply keeps_bind; [apply Hb; assumption|intros b' Wb]. apply keeps_ret.
  change (fold_opt true plain_expr g' && plain_expr b' = true). cbv beta in *. rewrite Wg, Wb. reflexivity.
Qed.
Lemma keeps_walk_local f a p t i d : opt_all (fun z => plain_expr z = true -> keeps (ok plain_expr) (f z)) i ->
  opt_all (fun z => plain_expr z = true -> keeps (ok plain_expr) (f z)) d -> plain_local (Local a p t i d) = true ->
  keeps (ok plain_local) (walk_local f (Local a p t i d)).
Proof.
  intros Hg Hb W. change (free_of a && (fold_opt true plain_expr i && fold_opt true plain_expr d) = true) in W. split_and. cbn [walk_local].
  eapply keeps_bind; [apply keeps_optM; eassumption|intros g' Wg]. eapply keeps_bind; [apply keeps_optM; eassumption|intros b' Wb]. apply keeps_ret.
  change (free_of a && (fold_opt true plain_expr g' && fold_opt true plain_expr b') = true). cbv beta in *. rewrite Wg, Wb, andb_true_iff. auto.
Qed.

Lemma keeps_next e : plain_expr e = true -> keeps (ok plain_expr) (next_expr e).
Proof. intros W cx a c E. unfold next_expr, next_expr_with_attrs in E. injection E as <- _. cbn. rewrite W. reflexivity. Qed.
Lemma keeps_replace o : fold_opt true plain_expr o = true -> keeps (opt plain_expr) (replace_boxed_expr o).
Proof.
  intros W cx a c E. unfold replace_boxed_expr in E. set (e := match o with Some e => e | None => unit_expr end) in *.
  assert (We : plain_expr e = true) by (subst e; destruct o; [exact W|reflexivity]).
  destruct (is_marker_expr cx e); [injection E as <- _; exact We|]. apply bind_ok in E. destruct E as (z & c1 & E1 & E2).
  apply keeps_next in E1; [|exact We]. unfold ret in E2. injection E2 as <- _. exact E1.
Qed.

Lemma keeps_loop :
  (forall e la n, plain_expr e = true -> keeps (ok plain_expr) (loop_expr la n e))
  /\ (forall s la n, plain_stmt s = true -> keeps (ok plain_stmt) (loop_stmt la n s))
  /\ (forall z la n, plain_arm z = true -> keeps (ok plain_arm) (loop_arm la n z))
  /\ (forall z la n, plain_local z = true -> keeps (ok plain_local) (loop_local la n z)).
Proof.
  assert (L : forall A (P : A -> bool) (f : option string -> bool -> A -> M A) l la n,
           Forall (fun z => forall la n, P z = true -> keeps (ok P) (f la n z)) l -> Forall (fun z => P z = true -> keeps (ok P) (f la n z)) l).
  { intros. eapply Forall_impl; [|eassumption]. cbn. auto. }
  assert (O : forall A (P : A -> bool) (f : option string -> bool -> A -> M A) l la n,
           opt_all (fun z => forall la n, P z = true -> keeps (ok P) (f la n z)) l -> opt_all (fun z => P z = true -> keeps (ok P) (f la n z)) l).
  { intros. destruct l; cbn in *; auto. }
  assert (K : forall e la n, vis_keeps (Vis (loop_expr la n) (loop_stmt la n) (loop_arm la n) (loop_local la n)) e -> plain_expr e = true ->
           keeps (ok plain_expr) (walk_expr (Vis (loop_expr la n) (loop_stmt la n) (loop_arm la n) (loop_local la n)) e))
    by (intros; apply keeps_walk; assumption).
  apply ast_ind; intros;
    try match goal with |- keeps _ (loop_expr _ _ ?e) => pose proof (K e) as Ke end;
    cbn [loop_expr loop_stmt loop_arm loop_local e_attrs];
    try (destruct (any_empty_attr a NEVER); [apply keeps_ret; assumption|]);
    try (apply keeps_ret; assumption);
    try (apply Ke; cbn [vis_keeps on_expr on_stmt on_arm]; auto; fail).
  - destruct k; try (apply Ke; cbn [vis_keeps on_expr on_stmt on_arm]; auto; fail). apply keeps_ret; assumption.
  - destruct la; [apply Ke; cbn [vis_keeps on_expr on_stmt on_arm]; auto|apply keeps_ret; assumption].
  - destruct la; [apply Ke; cbn [vis_keeps on_expr on_stmt on_arm]; auto|apply keeps_ret; assumption].
  - destruct la; [apply Ke; cbn [vis_keeps on_expr on_stmt on_arm]; auto|apply keeps_ret; assumption].
  - rewrite plain_expr_eq in H0. cbn [e_attrs fold_expr] in H0. split_and.
    destruct (_ || _).
    + destruct e as [z|]; cbn [opt_all fold_opt] in *.
      * apply keeps_any. intros [].
        -- eapply keeps_bind; [apply H; assumption|]. intros z' W. apply keeps_ret. cbn [fold_opt]; rewrite plain_expr_eq. cbn [e_attrs fold_expr fold_opt].
           rewrite H0. exact W.
        -- eapply keeps_bind; [apply keeps_next; eassumption|]. intros call Wc. eapply keeps_bind; [apply H; assumption|]. intros z' W. apply keeps_ret.
           rewrite plain_expr_eq. cbn [e_attrs fold_expr fold_opt]. rewrite H0. cbv beta in *. destruct call; try exact Wc.
           rewrite plain_expr_eq in Wc |- *. cbn [e_attrs fold_expr] in *. split_and. rewrite all_cons. cbn. repeat match goal with H : _ = true |- _ => rewrite H end. reflexivity.
      * eapply keeps_bind; [apply (keeps_replace None); reflexivity|]. intros z' W. apply keeps_ret. rewrite plain_expr_eq. cbn [e_attrs fold_expr]. cbv beta in W. rewrite H0, W. reflexivity.
    + eapply keeps_bind; [apply keeps_optM; [apply O, H|assumption]|]. intros z' W. apply keeps_ret. rewrite plain_expr_eq. cbn [e_attrs fold_expr]. cbv beta in W. rewrite H0, W. reflexivity.
  - cbn [walk_stmt]. eapply keeps_bind; [apply H; exact H0|]. intros. apply keeps_ret. assumption.
  - cbn [walk_stmt]. eapply keeps_bind; [apply H; exact H0|]. intros. apply keeps_ret. assumption.
  - apply keeps_walk_local; auto.
  - apply keeps_walk_arm; auto.
Qed.

Notation plain_body := (fold_list andb true plain_stmt).
Lemma keeps_last_block b : plain_body b = true -> keeps (ok plain_body) (visit_last_block b).
Proof.
  intros W. unfold visit_last_block. apply keeps_any. intros []; [apply keeps_ret; exact W|].
  eapply keeps_bind; [apply (keeps_next (expr_block b)); exact W|]. intros z Wz. apply keeps_ret. cbn. cbv beta in Wz. rewrite Wz. reflexivity.
Qed.

Lemma plain_block a l b : plain_expr (EBlock a l b) = free_of a && plain_body b.
Proof. reflexivity. Qed.
Lemma plain_if a c t o : plain_expr (EIf a c t o) = free_of a && (plain_expr c && (plain_body t && fold_opt true plain_expr o)).
Proof. reflexivity. Qed.

Lemma keeps_last_if : forall e, plain_expr e = true -> keeps (ok plain_expr) (visit_last_expr_if e).
Proof.
  refine (proj1 (ast_ind (fun e => plain_expr e = true -> keeps (ok plain_expr) (visit_last_expr_if e)) (fun _ => True)
                 (fun _ => True) (fun _ => True) _ _ _ _ _ _ _ _ _ _ _ _ _ _ _ _ _ _ _ _ _ _ _ _ _ _));
    intros; try exact I; cbn [visit_last_expr_if]; try (apply keeps_ret; assumption).
  rewrite plain_if in H2. split_and.
  eapply keeps_bind; [apply keeps_last_block; eassumption|intros t' Wt]. apply (keeps_bind (opt plain_expr)).
  - destruct els as [els|]; [|apply keeps_any; intro; apply keeps_ret; reflexivity]. cbn [opt_all fold_opt] in *.
    destruct els; try (intros ? ? ? E; discriminate E).
    + rewrite plain_block in *. split_and. eapply keeps_bind; [apply keeps_last_block; assumption|]. intros b' Wb. apply keeps_ret. cbn [fold_opt]. rewrite plain_block. cbv beta in Wb. repeat match goal with H : _ = true |- _ => rewrite H end. reflexivity.
    + eapply keeps_bind; [apply H1; assumption|]. intros b' Wb. apply keeps_ret. exact Wb.
  - intros o Wo. apply keeps_ret. rewrite plain_if. cbv beta in *. repeat match goal with H : _ = true |- _ => rewrite H end. reflexivity.
Qed.

Lemma keeps_map_last f b :
  Forall (fun s => match s with SExpr e _ => plain_expr e = true -> keeps (ok plain_expr) (f e) | _ => True end) b -> plain_body b = true ->
  keeps (ok plain_body) (map_last_expr f b).
Proof.
  induction b as [|s r IH]; intros H W; [apply keeps_ret; reflexivity|]. inversion H; subst. 
  rewrite all_cons in W. split_and.
  destruct r as [|s2 r].
  - assert (W1 : plain_body [s] = true) by (cbn; repeat match goal with H : _ = true |- _ => rewrite H end; reflexivity).
    cbn [map_last_expr]. destruct s as [| |e []|]; try (apply keeps_ret; exact W1).
    eapply keeps_bind; [apply H2; assumption|]. intros e' We. apply keeps_ret. cbv beta in We. cbn. rewrite We. reflexivity.
  - change (map_last_expr f (s :: s2 :: r)) with (r' <- map_last_expr f (s2 :: r) ;; ret (s :: r')).
    eapply keeps_bind; [apply IH; assumption|]. intros r' Wr. apply keeps_ret. rewrite all_cons. cbv beta in Wr. repeat match goal with H : _ = true |- _ => rewrite H end. reflexivity.
Qed.

Lemma keeps_child : forall e, plain_expr e = true -> keeps (ok plain_expr) (child_expr e).
Proof.
  refine (proj1 (ast_ind (fun e => plain_expr e = true -> keeps (ok plain_expr) (child_expr e))
                 (fun s => match s with SExpr e _ => plain_expr e = true -> keeps (ok plain_expr) (child_expr e) | _ => True end)
                 (fun _ => True) (fun _ => True)
                 _ _ _ _ _ _ _ _ _ _ _ _ _ _ _ _ _ _ _ _ _ _ _ _ _ _));
    intros; try exact I; try (match goal with H : _ -> keeps _ ?m |- keeps _ ?m => apply H; assumption end);
    match goal with |- keeps _ (child_expr ?e) => pose proof (keeps_last_if e) as LI end;
    cbn [child_expr]; (apply keeps_any; intros []; [apply keeps_ret; assumption|]); try (apply keeps_ret; assumption);
    try (apply LI; assumption);
    match goal with H : plain_expr _ = true |- _ => rewrite plain_expr_eq in H; cbn [e_attrs fold_expr] in H; split_and; rename H into W0 end.
  - eapply keeps_bind; [apply keeps_map_last; eassumption|]. intros. apply keeps_ret. cbv beta in *. finish.
  - destruct k; try (apply keeps_ret; finish). eapply keeps_bind; [apply keeps_map_last; eassumption|]. intros. apply keeps_ret. cbv beta in *. finish.
  - eapply keeps_bind; [apply (keeps_mapM plain_arm); [|eassumption]|intros; apply keeps_ret; cbv beta in *; finish].
    apply Forall_forall. intros z _ Wz. unfold visit_last_arm. apply keeps_any. intros []; [apply keeps_ret; assumption|].
    destruct z as [a0 p g b c]. change (fold_opt true plain_expr g && plain_expr b = true) in Wz. split_and.
    eapply keeps_bind; [apply (keeps_next b); assumption|]. intros b' Wb. apply keeps_ret. change (fold_opt true plain_expr g && plain_expr b' = true).
    cbv beta in *. rewrite Wz, Wb. reflexivity.
  - apply (keeps_bind (ok plain_body)); [|intros; apply keeps_ret; cbv beta in *; finish]. unfold visit_last_expr_loop.
    apply keeps_mapM; [|assumption]. apply Forall_forall. intros s _. apply keeps_loop.
  - eapply keeps_bind; [apply H; assumption|]. intros. apply keeps_ret. cbv beta in *. finish.
  - eapply keeps_bind; [apply H; assumption|]. intros. apply keeps_ret. cbv beta in *. finish.
Qed.
Lemma keeps_child_body b : plain_body b = true -> keeps (ok plain_body) (map_last_expr child_expr b).
Proof. apply keeps_map_last, Forall_forall. intros [] _; auto. apply keeps_child. Qed.

Lemma keeps_return sc e : plain_expr e = true -> keeps (ok plain_expr) (visit_return sc e).
Proof.
  intros W. unfold visit_return. destruct (_ && _); [|apply keeps_ret; exact W]. destruct e; try (apply keeps_ret; exact W).
  apply keeps_any. intros []; [apply keeps_ret; exact W|]. rewrite plain_expr_eq in W. cbn [e_attrs fold_expr] in W. split_and.
  eapply keeps_bind; [apply keeps_replace; eassumption|]. intros. apply keeps_ret. cbv beta in *. finish.
Qed.
Lemma keeps_try sc e : plain_expr e = true -> keeps (ok plain_expr) (visit_try sc e).
Proof.
  intros W. unfold visit_try. destruct (_ && _); [|apply keeps_ret; exact W]. destruct e; try (apply keeps_ret; exact W).
  apply keeps_any. intros []; [apply keeps_ret; exact W|]. rewrite plain_expr_eq in W. cbn [e_attrs fold_expr] in W. split_and.
  eapply keeps_bind; [apply keeps_next; reflexivity|]. intros z Wz. apply keeps_ret. cbv beta in *.
  rewrite plain_expr_eq. cbn [e_attrs fold_expr]. repeat match goal with H : _ = true |- _ => rewrite H end. cbn. rewrite Wz. reflexivity.
Qed.
Lemma keeps_nested sc e a : plain_expr e = true -> keeps (ok plain_expr) (visit_nested sc e a).
Proof.
  intros W. unfold visit_nested. apply keeps_any. intros _. destruct (is_path_only a); [apply keeps_child; exact W|].
  apply keeps_any. intros. apply keeps_ret. exact W.
Qed.

Lemma free_remove s a r : find_remove_attr a s = Some r -> free_of a = true -> free_of (snd r) = true.
Proof.
  unfold find_remove_attr, free_of. revert r. induction a as [|z a IH]; cbn [find_remove]; intros r H F; [discriminate|].
  cbn [existsb] in F. apply negb_true_iff, orb_false_iff in F. destruct F as [F1 F2].
  destruct (is_ident (attr_path z) s); [injection H as <-; cbn [snd]; rewrite F2; reflexivity|].
  destruct (find_remove _ a) as [[q l]|]; [|discriminate]. injection H as <-. cbn [snd existsb]. rewrite F1. apply (IH _ eq_refl). rewrite F2. reflexivity.
Qed.
Lemma plain_set e a : plain_expr e = true -> free_of a = true -> plain_expr (set_attrs e a) = true.
Proof. rewrite !plain_expr_eq. intros W F. split_and. destruct e; cbn [set_attrs e_attrs fold_expr] in *; rewrite ?F; try assumption; reflexivity. Qed.
