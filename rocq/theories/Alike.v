(** Runs in two contexts that differ only in the names of the markers in use and in whether the
    context is the outermost one do the same. *)

Require Import Coq.Strings.String Coq.Lists.List Coq.Bool.Bool Coq.Arith.Arith Coq.NArith.NArith Lia.
Require Import Verif.Syntax Verif.Context Verif.ExprModel Verif.TypeAnalysis Verif.AutoEnum.
Require Import Verif.AstInd Verif.RunLemmas Verif.Frame.
Import ListNotations.
Open Scope string_scope.
Open Scope list_scope.

(** The context with other markers and another root flag. *)
Definition mr (ms : list string) (r : bool) (cx : ctx) : ctx :=
  Ctx (cx_ident cx) (cx_variants cx) (cx_marker cx) ms r (cx_has_child cx)
      (cx_mode cx) (cx_last cx) (cx_errs cx) (cx_args cx) (cx_traits cx).

(** The two lists of markers contain the same names. *)
Definition even (P P' : list string) : Prop := forall f : string -> bool, existsb f P = existsb f P'.

Lemma even_snoc P P' x : even P P' -> even (P ++ [x]) (P' ++ [x]).
Proof. intros H f. rewrite !existsb_app, H. reflexivity. Qed.

(** The contexts agree, and their markers are [P] and [P'] (or taken out of both). *)
Definition lk (P P' : list string) (cx cx' : ctx) : Prop :=
  exists ms r, cx' = mr ms r cx
    /\ ((cx_markers cx = P /\ ms = P') \/ (cx_markers cx = [] /\ ms = []))
    /\ (r = cx_root cx
        \/ (cx_root cx = true /\ r = false /\ Forall (eq (cx_marker cx)) P')).

(** Two runs do the same in such contexts. *)
Definition same_res {A} (P P' : list string) (r r' : res (A * ctx)) : Prop :=
  match r, r' with
  | ROk (a, c), ROk (a', c') => a' = a /\ lk P P' c c'
  | RFuel, RFuel => True
  | RPanic s, RPanic s' => s' = s
  | _, _ => False
  end.
Definition sm {A} (P P' : list string) (m : M A) : Prop :=
  forall cx cx', lk P P' cx cx' -> same_res P P' (m cx) (m cx').

Lemma lk_macro P P' cx cx' m : even P P' -> lk P P' cx cx' -> is_marker_macro cx' m = is_marker_macro cx m.
Proof.
  intros E (ms & r & -> & M & R). unfold is_marker_macro, is_marker_macro_exact.
  cbn [mr cx_marker cx_root cx_markers].
  destruct (is_ident (mac_path m) (cx_marker cx)) eqn:X; [reflexivity|]. cbn [orb].
  assert (S : existsb (fun mk => is_ident (mac_path m) mk) ms
              = existsb (fun mk => is_ident (mac_path m) mk) (cx_markers cx)).
  { destruct M as [[-> ->]|[-> ->]]; [symmetry; apply E|reflexivity]. }
  destruct R as [->|(R1 & -> & F)]; [rewrite S; reflexivity|]. rewrite R1.
  assert (F' : Forall (eq (cx_marker cx)) ms) by (destruct M as [[_ ->]|[_ ->]]; [assumption|constructor]).
  clear - F' X. induction F' as [|y l H _ IH]; [reflexivity|]. cbn [existsb]. rewrite <- H, X. exact IH.
Qed.

Section Sim.
  Variables P P' : list string.
  Hypothesis E : even P P'.
  Local Notation lk := (lk P P').
  Local Notation sm := (sm P P').

  Lemma sm_ret {A} (a : A) : sm (ret a).
  Proof. intros cx cx' L. split; [reflexivity|exact L]. Qed.

  Lemma sm_bind {A B} (m : M A) (k : A -> M B) : sm m -> (forall a, sm (k a)) -> sm (bind m k).
  Proof.
    intros Hm Hk cx cx' L. specialize (Hm _ _ L). unfold bind.
    destruct (m cx) as [[a c]| |], (m cx') as [[a' c']| |]; try contradiction; try exact Hm.
    destruct Hm as [-> L']. apply Hk. exact L'.
  Qed.

  Lemma sm_gets {A} (f : ctx -> A) : (forall cx cx', lk cx cx' -> f cx' = f cx) -> sm (gets f).
  Proof. intros H cx cx' L. split; [apply H; exact L|exact L]. Qed.

  Lemma sm_panic {A} s : sm (@panic A s).
  Proof. intros cx cx' L. reflexivity. Qed.

  Lemma sm_fuel {A} : sm (@out_of_fuel A).
  Proof. intros cx cx' L. exact I. Qed.

  Lemma sm_massert f s : (forall cx cx', lk cx cx' -> f cx' = f cx) -> sm (massert f s).
  Proof. intros H cx cx' L. unfold massert. rewrite (H _ _ L). destruct (f cx); [split; auto|reflexivity]. Qed.

  Lemma sm_modify f : (forall cx cx', lk cx cx' -> lk (f cx) (f cx')) -> sm (modify f).
  Proof. intros H cx cx' L. split; auto. Qed.

  (** Changes of the other fields keep the contexts alike. *)
  Lemma lk_same f cx cx' :
    (forall ms r c, f (mr ms r c) = mr ms r (f c)) -> cx_markers (f cx) = cx_markers cx ->
    cx_root (f cx) = cx_root cx -> cx_marker (f cx) = cx_marker cx -> lk cx cx' -> lk (f cx) (f cx').
  Proof.
    intros F A B C (ms & r & -> & M & R). exists ms, r. rewrite F, A, B, C. auto.
  Qed.

  Lemma lk_read {A} (f : ctx -> A) cx cx' : (forall ms r c, f (mr ms r c) = f c) -> lk cx cx' -> f cx' = f cx.
  Proof. intros F (ms & r & -> & _). apply F. Qed.

  Ltac rd := intros ? ? L; destruct L as (? & ? & -> & _); reflexivity.

  Lemma sm_error e : sm (error e).
  Proof. apply sm_modify. intros cx cx'. apply (lk_same (fun cx => set_errs (cx_errs cx ++ [e]) cx)); reflexivity. Qed.

  Lemma sm_mapM {A B} (f : A -> M B) l : Forall (fun x => sm (f x)) l -> sm (mapM f l).
  Proof.
    induction l; cbn [mapM]; intros H; [apply sm_ret|]. inversion H; subst.
    apply sm_bind; [assumption|intros; apply sm_bind; [auto|intros; apply sm_ret]].
  Qed.

  Lemma sm_optM {A B} (f : A -> M B) o : opt_all (fun x => sm (f x)) o -> sm (optM f o).
  Proof. destruct o; cbn; intros H; [apply sm_bind; [assumption|]; intros|]; apply sm_ret. Qed.

  Lemma sm_mapM_all {A B} (f : A -> M B) l : (forall x, sm (f x)) -> sm (mapM f l).
  Proof. intros H. apply sm_mapM. apply Forall_forall. auto. Qed.

  Lemma sm_optM_all {A B} (f : A -> M B) o : (forall x, sm (f x)) -> sm (optM f o).
  Proof. intros H. apply sm_optM. destruct o; cbn; auto. Qed.

  Lemma walk_arm_sm f x : (forall e, sm (f e)) -> sm (walk_arm f x).
  Proof.
    intros H. destruct x. cbn [walk_arm].
    apply sm_bind; [apply sm_optM_all; auto|]. intros. apply sm_bind; auto. intros; apply sm_ret.
  Qed.

  Lemma walk_local_sm f x : (forall e, sm (f e)) -> sm (walk_local f x).
  Proof.
    intros H. destruct x as [a p t i d]. cbn [walk_local].
    apply sm_bind; [apply sm_optM_all; auto|]. intros.
    apply sm_bind; [apply sm_optM_all; auto|]. intros; apply sm_ret.
  Qed.

  Lemma walk_stmt_sm fe fl s : (forall e, sm (fe e)) -> (forall e, sm (fl e)) -> sm (walk_stmt fe fl s).
  Proof.
    intros He Hl. destruct s; cbn [walk_stmt]; try apply sm_ret;
      (apply sm_bind; [auto|intros; apply sm_ret]).
  Qed.

  Lemma walk_expr_sm V e :
    (forall x, sm (on_expr V x)) -> (forall x, sm (on_stmt V x)) -> (forall x, sm (on_arm V x)) ->
    sm (walk_expr V e).
  Proof.
    intros He Hs Ha.
    destruct e; cbn [walk_expr]; try apply sm_ret;
      repeat first [ apply sm_bind | intros; apply sm_ret
                   | apply sm_mapM_all; assumption | apply sm_optM_all; assumption
                   | apply He | match goal with |- forall _, _ => intro end ].
  Qed.

  Lemma sm_next a e : sm (next_expr_with_attrs a e).
  Proof.
    intros cx cx' L. unfold next_expr_with_attrs.
    assert (V : cx_variants cx' = cx_variants cx) by (revert L; apply lk_read; reflexivity).
    assert (I : cx_ident cx' = cx_ident cx) by (revert L; apply lk_read; reflexivity).
    rewrite V, I. split; [reflexivity|].
    apply (lk_same (set_variants (cx_variants cx ++ [variant_name (length (cx_variants cx))]))); auto.
  Qed.

  Lemma lk_marker_expr cx cx' e : lk cx cx' -> is_marker_expr cx' e = is_marker_expr cx e.
  Proof. intros L. destruct e; try reflexivity. cbn [is_marker_expr]. eapply lk_macro; eassumption. Qed.

  Lemma sm_replace o : sm (replace_boxed_expr o).
  Proof.
    intros cx cx' L. unfold replace_boxed_expr. rewrite (lk_marker_expr _ _ _ L).
    destruct (is_marker_expr cx _); [split; [reflexivity|exact L]|].
    assert (H : forall e, sm (e' <- next_expr e ;; ret (Some e'))) by (intros e; apply sm_bind; [apply sm_next|intros; apply sm_ret]).
    apply H. exact L.
  Qed.

  (** What is read about the code only involves the test for markers. *)
  Section Reads.
    Variables cx cx' : ctx.
    Hypothesis L : lk cx cx'.

    Lemma lk_on_last {A} (f g : stmt -> A) d b : Forall (fun s => f s = g s) b -> on_last f d b = on_last g d b.
    Proof. induction 1 as [|x l H F IH]; [reflexivity|]. cbn [on_last]. destruct l; [exact H|exact IH]. Qed.

    Lemma lk_unreachable_macro m : is_unreachable_macro cx' m = is_unreachable_macro cx m.
    Proof. unfold is_unreachable_macro. rewrite (lk_macro _ _ _ _ m E L). reflexivity. Qed.

    Lemma lk_unreachable_both :
      (forall e, is_unreachable cx' e = is_unreachable cx e)
      /\ (forall s, is_unreachable_stmt cx' s = is_unreachable_stmt cx s)
      /\ (forall x, match x with Arm _ _ _ b _ => is_unreachable cx' b = is_unreachable cx b end)
      /\ (forall x, match x with Local _ _ _ (Some e) _ => is_unreachable cx' e = is_unreachable cx e | _ => True end).
    Proof.
      apply ast_ind; intros; cbn [is_unreachable is_unreachable_stmt e_attrs]; try reflexivity; try assumption;
        try (destruct (any_empty_attr a NEVER || any_attr a NAME); [reflexivity|]);
        try reflexivity; try assumption; try (f_equal; assumption); try apply lk_unreachable_macro.
      - apply lk_on_last. assumption.
      - destruct k; try reflexivity. apply lk_on_last. assumption.
      - induction H0 as [|[]]; [reflexivity|]. cbn [forallb]. congruence.
      - destruct l as [? ? ? [] ?]; assumption || reflexivity.
    Qed.
    Lemma lk_unreachable e : is_unreachable cx' e = is_unreachable cx e.
    Proof. apply lk_unreachable_both. Qed.
    Lemma lk_unreachable_stmt e : is_unreachable_stmt cx' e = is_unreachable_stmt cx e.
    Proof. apply lk_unreachable_both. Qed.

    Lemma lk_skip_arm x : skip_arm cx' x = skip_arm cx x.
    Proof. destruct x. unfold skip_arm. rewrite lk_unreachable. reflexivity. Qed.
    Lemma lk_skip_block b : skip_block cx' b = skip_block cx b.
    Proof.
      unfold skip_block. apply lk_on_last. apply Forall_forall. intros s _.
      destruct s as [| |? []|]; rewrite ?lk_unreachable, ?lk_unreachable_stmt; reflexivity.
    Qed.

    Lemma lk_fold_list {A B} (plus : A -> A -> A) z (f g : B -> A) l :
      Forall (fun s => f s = g s) l -> fold_list plus z f l = fold_list plus z g l.
    Proof. induction 1 as [|x l H F IH]; [reflexivity|]. cbn. rewrite H. unfold fold_list in IH. rewrite IH. reflexivity. Qed.
    Lemma lk_fold_opt {A B} (z : A) (f g : B -> A) o :
      opt_all (fun s => f s = g s) o -> fold_opt z f o = fold_opt z g o.
    Proof. destruct o; auto. Qed.

    Lemma lk_count_node e : fn_count_node cx' e = fn_count_node cx e.
    Proof.
      unfold fn_count_node. destruct e; try reflexivity; [destruct e|]; rewrite ?(lk_marker_expr _ _ _ L); reflexivity.
    Qed.

    Lemma lk_count_both :
      (forall e, fn_count_expr cx' e = fn_count_expr cx e)
      /\ (forall s, fn_count_stmt cx' s = fn_count_stmt cx s)
      /\ (forall x, fn_count_arm cx' x = fn_count_arm cx x)
      /\ (forall x, fn_count_local cx' x = fn_count_local cx x).
    Proof.
      apply ast_ind; intros; cbn [fn_count_expr fn_count_stmt fn_count_arm fn_count_local enters_closure
          fold_expr fold_stmt fold_arm fold_local]; rewrite ?lk_count_node; try reflexivity; try assumption;
        repeat match goal with
               | H : Forall _ _ |- _ => apply (lk_fold_list fc_plus fc_zero) in H; rewrite H; clear H
               | H : opt_all _ _ |- _ => apply (lk_fold_opt fc_zero) in H; rewrite H; clear H
               | H : fn_count_expr cx' _ = _ |- _ => rewrite H; clear H
               | H : fn_count_local cx' _ = _ |- _ => rewrite H; clear H
               end; reflexivity.
    Qed.
    Lemma lk_count_expr e : visit_fn_expr cx' e = visit_fn_expr cx e.
    Proof. apply lk_count_both. Qed.
    Lemma lk_count_block b : visit_fn_block cx' b = visit_fn_block cx b.
    Proof. unfold visit_fn_block. apply lk_fold_list. apply Forall_forall. intros; apply lk_count_both. Qed.
  End Reads.

  Ltac pp := repeat first
    [ apply sm_bind | apply sm_ret | apply sm_gets; rd | apply sm_massert; rd | apply sm_error
    | apply sm_gets; intros; apply lk_marker_expr; assumption
    | apply sm_next | apply sm_replace | apply sm_panic | assumption
    | match goal with |- Alike.sm _ _ (match ?x with _ => _ end) => destruct x end
    | match goal with |- forall _, _ => intro end ].

  Lemma loop_sm :
    (forall e label nested, sm (loop_expr label nested e))
    /\ (forall s label nested, sm (loop_stmt label nested s))
    /\ (forall x label nested, sm (loop_arm label nested x))
    /\ (forall x label nested, sm (loop_local label nested x)).
  Proof.
    assert (L : forall A (f : option string -> bool -> A -> M A) l label nested,
               Forall (fun x => forall la n, sm (f la n x)) l -> sm (mapM (f label nested) l)).
    { intros. apply sm_mapM. eapply Forall_impl; [|eassumption]. cbn. auto. }
    assert (O : forall A (f : option string -> bool -> A -> M A) o label nested,
               opt_all (fun x => forall la n, sm (f la n x)) o -> sm (optM (f label nested) o)).
    { intros. apply sm_optM. destruct o; cbn in *; auto. }
    apply ast_ind; intros; cbn [loop_expr loop_stmt loop_arm loop_local e_attrs];
      try (destruct (any_empty_attr a NEVER); [apply sm_ret|]);
      cbn [walk_expr walk_stmt walk_arm walk_local on_expr on_stmt on_arm on_local];
      try (destruct k); try (destruct label); cbn [walk_expr on_expr on_stmt on_arm on_local];
      try solve [ repeat first [ apply sm_bind | apply sm_ret | apply L; assumption | apply O; assumption
                   | match goal with H : _ |- _ => apply H end
                   | match goal with |- forall _, _ => intro end ] ].
    - destruct (_ || _); [|apply sm_bind; [apply O; assumption|intros; apply sm_ret]].
      destruct e as [y|]; pp; try (apply H).
    - destruct (_ || _); [|apply sm_bind; [apply O; assumption|intros; apply sm_ret]].
      destruct e as [y|]; pp; try (apply H).
  Qed.

  Lemma visit_last_block_sm b : sm (visit_last_block b).
  Proof. unfold visit_last_block, next_expr. apply sm_bind; [apply sm_gets; intros; apply lk_skip_block; assumption|]. pp. Qed.

  Lemma visit_last_if_sm : forall e, sm (visit_last_expr_if e).
  Proof.
    refine (proj1 (ast_ind (fun e => sm (visit_last_expr_if e)) (fun _ => True)
                     (fun _ => True) (fun _ => True) _ _ _ _ _ _ _ _ _ _ _ _ _ _ _ _ _ _ _ _ _ _ _ _ _ _));
      intros; try exact I; cbn [visit_last_expr_if]; try apply sm_ret.
    apply sm_bind; [apply visit_last_block_sm|intros].
    apply sm_bind; [|intros; apply sm_ret].
    destruct els as [els|]; [|pp]. cbn in H1.
    destruct els; try apply sm_panic.
    - apply sm_bind; [apply visit_last_block_sm|intros; apply sm_ret].
    - apply sm_bind; [exact H1|intros; apply sm_ret].
  Qed.

  Lemma map_last_sm f b :
    Forall (fun s => match s with SExpr e _ => sm (f e) | _ => True end) b ->
    sm (map_last_expr f b).
  Proof.
    induction b as [|s r IH]; intros H; [apply sm_ret|]. inversion H; subst.
    destruct r as [|s2 r].
    - cbn [map_last_expr]. destruct s; try apply sm_ret. destruct semi; pp.
    - change (map_last_expr f (s :: s2 :: r)) with
          (r' <- map_last_expr f (s2 :: r) ;; ret (s :: r')).
      apply sm_bind; [auto|intros; apply sm_ret].
  Qed.

  Lemma child_expr_sm : forall e, sm (child_expr e).
  Proof.
    refine (proj1 (ast_ind (fun e => sm (child_expr e))
                     (fun s => match s with SExpr e _ => sm (child_expr e) | _ => True end)
                     (fun _ => True) (fun _ => True)
                     _ _ _ _ _ _ _ _ _ _ _ _ _ _ _ _ _ _ _ _ _ _ _ _ _ _));
      intros; try exact I; try assumption; cbn [child_expr];
      (apply sm_bind; [apply sm_gets; intros ? ? L; rewrite (lk_unreachable _ _ L);
                       rewrite (lk_read visit_last _ _ ltac:(reflexivity) L); reflexivity|]; intros []; [apply sm_ret|]);
      try apply sm_ret.
    - apply sm_bind; [apply map_last_sm; assumption|intros; apply sm_ret].
    - destruct k; try apply sm_ret.
      apply sm_bind; [apply map_last_sm; assumption|intros; apply sm_ret].
    - apply sm_bind; [|intros; apply sm_ret]. apply sm_mapM_all. intros x.
      unfold visit_last_arm, next_expr. destruct x. apply sm_bind; [apply sm_gets; intros; apply lk_skip_arm; assumption|]. pp.
    - apply visit_last_if_sm.
    - apply sm_bind; [|intros; apply sm_ret]. unfold visit_last_expr_loop.
      apply sm_mapM_all. intros s. apply loop_sm.
    - pp.
    - pp.
  Qed.

  Lemma child_block_sm b : sm (map_last_expr child_expr b).
  Proof. apply map_last_sm. apply Forall_forall. intros [] _; auto. apply child_expr_sm. Qed.

  Lemma find_remove_attrs_sm sc a : sm (find_remove_attrs sc a).
  Proof.
    unfold find_remove_attrs. destruct (sc_foreign sc); [apply sm_ret|].
    apply sm_bind.
    - destruct (find_remove_attr a NEVER) as [[x a']|]; pp.
    - intros a2. destruct (find_remove_attr a2 REC) as [[x a']|]; pp.
  Qed.

  Lemma visit_nested_sm sc e a : sm (visit_nested sc e a).
  Proof.
    unfold visit_nested. apply sm_bind; [apply sm_massert; reflexivity|intros].
    destruct (is_path_only a); [apply child_expr_sm|pp].
  Qed.

  Lemma note_child_sm a : sm (note_child a).
  Proof.
    unfold note_child. destruct any_attr; [|apply sm_ret]. apply sm_modify. intros cx cx'. apply lk_same; reflexivity.
  Qed.

  Lemma unless_error_sm {A} (x : A) m : sm m -> sm (unless_error x m).
  Proof.
    intros H. unfold unless_error. apply sm_bind; [apply sm_gets; rd|].
    intros []; [apply sm_ret|assumption].
  Qed.

  Lemma build_sm {A} (f : genum -> A -> A) x : sm (build f x).
  Proof.
    intros cx cx' L. unfold build.
    rewrite (lk_read has_error _ _ ltac:(reflexivity) L), (lk_read cx_variants _ _ ltac:(reflexivity) L),
      (lk_read cx_has_child _ _ ltac:(reflexivity) L), (lk_read builder_build _ _ ltac:(reflexivity) L),
      (lk_read variant_is_empty _ _ ltac:(reflexivity) L), (lk_read cx_last _ _ ltac:(reflexivity) L).
    assert (F : forall e, sm (error e ;;; ret x)) by (intros; pp).
    destruct (has_error cx); [split; auto|].
    destruct (length (cx_variants cx)) as [|[|k]].
    - destruct (cx_has_child cx); [split; auto|]. apply F. exact L.
    - apply F. exact L.
    - split; auto.
  Qed.

  (** The expansion, given the visitors. *)
  Section Parent.
    Variable ta : bool.
    Variable R : engine_t.
    Hypothesis Re : forall sc b e, sm (r_vexpr R sc b e).
    Hypothesis Rs : forall sc s, sm (r_vstmt R sc s).
    Hypothesis De : forall e, sm (r_dexpr R e).
    Hypothesis Ds : forall s, sm (r_dstmt R s).

    Lemma expand_body_sm e : sm (expand_body ta R e).
    Proof.
      unfold expand_body. apply sm_bind; [apply child_expr_sm|intros e1].
      apply sm_bind; [apply sm_gets; rd|]. intros []; auto.
    Qed.

    Lemma expand_expr_sm e : sm (expand_expr ta R e).
    Proof.
      unfold expand_expr. apply sm_bind; [apply sm_gets; rd|]. intros vl.
      destruct e; try apply expand_body_sm. destruct vl; [|apply expand_body_sm].
      apply sm_bind; [apply sm_gets; intros; apply lk_count_expr; assumption|]. intros c.
      apply sm_bind; [apply sm_modify; intros cx cx'; apply lk_same; reflexivity|intros _].
      apply sm_bind; [apply expand_body_sm|intros; apply sm_ret].
    Qed.

    Lemma parent_expr_sm e b : sm (expand_parent_expr ta R e b).
    Proof.
      unfold expand_parent_expr.
      apply sm_bind; [destruct b; [apply sm_modify; intros cx cx'; apply lk_same; reflexivity|apply sm_ret]|intros _].
      apply sm_bind; [apply sm_gets; rd|]. intros [].
      - apply sm_bind; [apply sm_massert; rd|intros _; apply De].
      - apply sm_bind; [apply expand_expr_sm|intros; apply build_sm].
    Qed.

    Lemma set_traits_sm t : sm (modify (set_traits t)).
    Proof. apply sm_modify. intros cx cx'. apply lk_same; reflexivity. Qed.

    Lemma local_ty_sm t : sm (local_ty ta t).
    Proof.
      unfold local_ty. destruct ta; [|apply sm_ret]. destruct t as [t|]; [|apply sm_ret].
      apply sm_bind; [apply sm_gets; rd|]. intros [tr fd].
      apply sm_bind; [apply set_traits_sm|intros; apply sm_ret].
    Qed.

    Lemma parent_local_sm l : sm (expand_parent_local ta R l).
    Proof.
      destruct l as [a p t i d]. unfold expand_parent_local.
      apply sm_bind; [apply local_ty_sm|intros t1]. apply sm_bind; [apply sm_gets; rd|]. intros [].
      - apply sm_bind; [apply sm_massert; rd|intros _]. apply walk_local_sm. exact De.
      - destruct i as [e|]; [|pp]. apply sm_bind; [apply expand_expr_sm|intros e1].
        apply sm_bind; [apply build_sm|intros; apply sm_ret].
    Qed.

    Lemma parent_fn_sm o b : sm (expand_parent_item_fn ta R o b).
    Proof.
      assert (MD : forall m, sm (modify (set_mode m)))
        by (intros; apply sm_modify; intros cx cx'; apply lk_same; reflexivity).
      assert (CB : sm (gets (fun cx => visit_fn_block cx b)))
        by (apply sm_gets; intros; apply lk_count_block; assumption).
      unfold expand_parent_item_fn. apply sm_bind.
      { unfold fn_mode. apply sm_bind; [apply sm_gets; rd|]. intros []; [|apply sm_ret].
        destruct o as [t|]; [|apply sm_ret].
        destruct t; try (destruct (is_result_impl _); [|apply sm_ret]; apply sm_bind; [exact CB|];
                         intros c; destruct (2 <=? fst c)%nat; [apply MD|apply sm_ret]);
          apply sm_bind; [exact CB|intros; apply MD]. }
      intros _. apply sm_bind.
      { unfold fn_collect. destruct ta; [|apply sm_ret]. destruct o as [t|]; [|apply sm_ret].
        apply sm_bind; [apply sm_gets; rd|]. intros [tr fd]. apply set_traits_sm. }
      intros _. apply sm_bind; [apply sm_gets; rd|]. intros [].
      - apply sm_bind; [apply sm_massert; rd|intros _]. apply sm_mapM_all. exact Ds.
      - apply sm_bind.
        { destruct b; [pp|apply child_block_sm]. }
        intros b1. apply sm_bind; [apply sm_gets; rd|]. intros []; [apply sm_mapM_all; exact Ds|].
        apply sm_bind; [apply sm_mapM_all; apply Rs|intros; apply build_sm].
    Qed.

    Lemma parent_stmt_sm s : sm (expand_parent_stmt ta R s).
    Proof.
      destruct s as [l|[]|e semi|a m semi]; cbn [expand_parent_stmt].
      - apply sm_bind; [apply parent_local_sm|intros; apply sm_ret].
      - apply sm_bind; [apply parent_fn_sm|intros; apply sm_ret].
      - pp.
      - pp.
      - apply sm_bind; [apply parent_expr_sm|intros; apply sm_ret].
      - apply sm_ret.
    Qed.
  End Parent.
End Sim.

(** A nested expansion does the same. *)
Lemma even_nil P P' : even P P' -> (P = [] <-> P' = []).
Proof.
  intros E. specialize (E (fun _ => true)). destruct P, P'; cbn in E; split; intros; congruence.
Qed.

Lemma join_sm P P' Q Q' c c' cx cx' :
  even P P' -> lk Q Q' c c' -> (removelast Q = P /\ removelast Q' = P') \/ (removelast Q = [] /\ removelast Q' = []) ->
  lk P P' cx cx' -> same_res P P' (join_child c cx) (join_child c' cx').
Proof.
  intros E L J L2. unfold join_child.
  assert (Z : match cx_markers cx' with [] => true | _ => false end
              = match cx_markers cx with [] => true | _ => false end).
  { destruct L2 as (ms & r & -> & [[M ->]|[M ->]] & _); cbn [mr cx_markers]; rewrite M; [|reflexivity].
    apply even_nil in E. destruct P, P'; try reflexivity; exfalso; [destruct E as [E _]|destruct E as [_ E]];
      specialize (E eq_refl); discriminate. }
  unfold bind, massert. rewrite Z. destruct (cx_markers cx); [|reflexivity].
  unfold modify. split; [reflexivity|].
  destruct L as (ms & r & -> & M & _), L2 as (ms2 & r2 & -> & _ & R).
  exists (removelast ms), r2. split; [reflexivity|]. split; [|exact R]. cbn [set_errs set_markers cx_markers mr].
  destruct M as [[-> ->]|[-> ->]]; [|right; split; reflexivity]. destruct J as [J|J]; [left|right]; exact J.
Qed.

Lemma in_child_sm {A} P P' Q Q' child child' (f : M A) :
  even P P' -> lk Q Q' child child' -> sm Q Q' f ->
  (removelast Q = P /\ removelast Q' = P') \/ (removelast Q = [] /\ removelast Q' = []) ->
  forall cx cx', lk P P' cx cx' -> same_res P P' (in_child child f cx) (in_child child' f cx').
Proof.
  intros E L F J cx cx' L2. specialize (F _ _ L). unfold in_child.
  destruct (f child) as [[x c]| |], (f child') as [[x' c']| |]; try contradiction; try exact F.
  destruct F as [-> L3]. pose proof (join_sm P P' Q Q' c c' cx cx' E L3 J L2) as H.
  unfold bind. destruct (join_child c cx) as [[u k]| |], (join_child c' cx') as [[u' k']| |];
    try contradiction; try exact H. destruct H as [-> H]. split; [reflexivity|exact H].
Qed.

Lemma child_alike P P' i toks ms ms' diag :
  even P P' -> (ms = P /\ ms' = P') \/ (ms = [] /\ ms' = []) ->
  match ctx_new i toks false ms diag, ctx_new i toks false ms' diag with
  | inl e, inl e' => e' = e
  | inr c, inr c' => exists Q Q', even Q Q' /\ lk Q Q' c c'
      /\ ((removelast Q = P /\ removelast Q' = P') \/ (removelast Q = [] /\ removelast Q' = []))
  | _, _ => False
  end.
Proof.
  intros E H. assert (E2 : even ms ms') by (destruct H as [[-> ->]|[-> ->]]; [exact E|intros f; reflexivity]).
  unfold ctx_new. destruct (parse_args toks) as [e|[args m]]; [reflexivity|].
  assert (X : forall cur, exists Q Q', even Q Q'
    /\ lk Q Q' (Ctx i [] cur (ms ++ [cur]) false false VDefault LDefault diag args [])
              (Ctx i [] cur (ms' ++ [cur]) false false VDefault LDefault diag args [])
    /\ ((removelast Q = P /\ removelast Q' = P') \/ (removelast Q = [] /\ removelast Q' = []))).
  { intros cur. exists (ms ++ [cur]), (ms' ++ [cur]). split; [apply even_snoc; exact E2|]. split.
    - exists (ms' ++ [cur]), false. split; [reflexivity|]. split; [left; auto|left; reflexivity].
    - rewrite !removelast_last. exact H. }
  destruct m as [m|]; [|apply X]. rewrite <- (E2 (String.eqb m)). destruct (existsb _ ms); [reflexivity|apply X].
Qed.

Lemma make_child_eq i toks cx :
  make_child i toks cx
  = if cx_has_child cx then ROk (ctx_new i toks false (cx_markers cx) (cx_errs cx), set_errs [] (set_markers [] cx))
    else RPanic "make_child: has_child".
Proof. unfold make_child, bind, massert, gets, modify, ret. destruct (cx_has_child cx); reflexivity. Qed.

Lemma nested_sm {A} P P' i toks (w : M A) (g : A -> M A) :
  even P P' -> sm P P' w -> (forall Q Q' x, even Q Q' -> sm Q Q' (g x)) -> sm P P' (nested_run i toks w g).
Proof.
  intros E W G cx cx' L. unfold nested_run.
  assert (HC : cx_has_child cx' = cx_has_child cx) by (destruct L as (? & ? & -> & _); reflexivity).
  assert (HE : cx_errs cx' = cx_errs cx) by (destruct L as (? & ? & -> & _); reflexivity).
  assert (HM : (cx_markers cx = P /\ cx_markers cx' = P') \/ (cx_markers cx = [] /\ cx_markers cx' = []))
    by (destruct L as (? & ? & -> & M & _); exact M).
  assert (L1 : lk P P' (set_errs [] (set_markers [] cx)) (set_errs [] (set_markers [] cx'))).
  { destruct L as (ms & r & -> & _ & R). exists [], r. split; [reflexivity|]. split; [right; auto|exact R]. }
  pose proof (make_child_eq i toks cx) as K1. pose proof (make_child_eq i toks cx') as K2.
  rewrite HC, HE in K2. unfold bind at 1. rewrite K1. clear K1.
  cut (same_res P P'
    match (if cx_has_child cx then ROk (ctx_new i toks false (cx_markers cx) (cx_errs cx), set_errs [] (set_markers [] cx))
           else RPanic "make_child: has_child")
    with
    | ROk (a, cx2) => (x <- w ;; match a with inl er => error er ;;; ret x | inr child => in_child child (g x) end) cx2
    | RFuel => RFuel | RPanic s => RPanic s end
    match make_child i toks cx'
    with
    | ROk (a, cx2) => (x <- w ;; match a with inl er => error er ;;; ret x | inr child => in_child child (g x) end) cx2
    | RFuel => RFuel | RPanic s => RPanic s end); [intros X; exact X|].
  rewrite K2. clear K2. destruct (cx_has_child cx); [|reflexivity].
  pose proof (child_alike P P' i toks _ _ (cx_errs cx) E HM) as C.
  specialize (W _ _ L1). unfold bind at 1. unfold bind at 2.
  destruct (w (set_errs [] (set_markers [] cx))) as [[x c]| |], (w (set_errs [] (set_markers [] cx'))) as [[x' c']| |];
    try contradiction; try exact W.
  destruct W as [-> L2].
  destruct (ctx_new i toks false (cx_markers cx) _) as [e|ch], (ctx_new i toks false (cx_markers cx') _) as [e'|ch'];
    try contradiction.
  - subst e'. apply (sm_bind P P'); [apply sm_error|intros; apply sm_ret|exact L2].
  - destruct C as (Q & Q' & EQ & LQ & J). eapply in_child_sm; eauto.
Qed.

Section Engine.
  Variable hash : node -> N.
  Variable ta : bool.

  Lemma vs_visit_expr_sm P P' R V e b :
    even P P' -> (forall Q Q' x, even Q Q' -> sm Q Q' (expand_parent_expr ta R x b)) ->
    (forall x, sm P P' (on_expr V x)) -> (forall x, sm P P' (on_stmt V x)) -> (forall x, sm P P' (on_arm V x)) ->
    sm P P' (vs_visit_expr hash ta R V e b).
  Proof.
    intros E G He Hs Ha. unfold vs_visit_expr.
    destruct (find_remove_attr (e_attrs e) NAME) as [[at_ a']|]; [|apply walk_expr_sm; auto].
    assert (W : sm P P' (walk_expr V (set_attrs e a'))) by (apply walk_expr_sm; auto).
    assert (B : sm P P' (r <- ret (@inl err ctx ErrExpectedList) ;;
                         x <- walk_expr V (set_attrs e a') ;;
                         match r with inl er => error er ;;; ret x
                         | inr child => in_child child (expand_parent_expr ta R x b) end)).
    { apply (sm_bind P P' (walk_expr V (set_attrs e a')) (fun x => error ErrExpectedList ;;; ret x)); [exact W|].
      intros x. apply sm_bind; [apply sm_error|intros; apply sm_ret]. }
    destruct at_; try exact B.
    apply (nested_sm P P' _ _ (walk_expr V (set_attrs e a')) (fun x => expand_parent_expr ta R x b)); auto.
  Qed.

  Lemma vs_visit_stmt_sm P P' R V s :
    even P P' -> (forall Q Q' x b, even Q Q' -> sm Q Q' (expand_parent_expr ta R x b)) ->
    (forall Q Q' x, even Q Q' -> sm Q Q' (expand_parent_stmt ta R x)) ->
    (forall x, sm P P' (on_expr V x)) -> (forall x, sm P P' (on_stmt V x)) -> (forall x, sm P P' (on_arm V x)) ->
    (forall x, sm P P' (on_local V x)) -> sm P P' (vs_visit_stmt hash ta R V s).
  Proof.
    intros E G G2 He Hs Ha Hl. destruct s as [[a p t i d]| | |]; cbn [vs_visit_stmt].
    - destruct (find_remove_attr a NAME) as [[at_ a']|]; [|apply walk_stmt_sm; auto].
      set (s := SLocal (Local a' p t i d)).
      assert (W : sm P P' (walk_stmt (on_expr V) (on_local V) s)) by (apply walk_stmt_sm; auto).
      destruct at_; cbn zeta.
      + apply (nested_sm P P' _ _ (walk_stmt (on_expr V) (on_local V) s) (expand_parent_stmt ta R)); auto.
      + apply (nested_sm P P' _ _ (walk_stmt (on_expr V) (on_local V) s) (expand_parent_stmt ta R)); auto.
      + apply (sm_bind P P' (walk_stmt (on_expr V) (on_local V) s) (fun x => error ErrExpectedList ;;; ret x)); [exact W|].
        intros x. apply sm_bind; [apply sm_error|intros; apply sm_ret].
    - apply sm_ret.
    - apply sm_bind; [apply vs_visit_expr_sm; auto|intros; apply sm_ret].
    - apply walk_stmt_sm; auto.
  Qed.

  Ltac rd := intros ? ? L; destruct L as (? & ? & -> & _); reflexivity.
  Ltac pp E := repeat first
    [ apply sm_bind | apply sm_ret | apply sm_gets; rd | apply sm_massert; rd | apply sm_error
    | apply sm_gets; intros; eapply lk_marker_expr; eassumption
    | apply sm_next | apply sm_replace; exact E | apply sm_panic | assumption
    | match goal with |- sm _ _ (match ?x with _ => _ end) => destruct x end
    | match goal with |- forall _, _ => intro end ].

  Lemma engine_sm n :
    forall P P', even P P' ->
    (forall sc b e, sm P P' (r_vexpr (engine hash ta n) sc b e))
    /\ (forall sc s, sm P P' (r_vstmt (engine hash ta n) sc s))
    /\ (forall sc x, sm P P' (r_varm (engine hash ta n) sc x))
    /\ (forall sc x, sm P P' (r_vlocal (engine hash ta n) sc x))
    /\ (forall e, sm P P' (r_dexpr (engine hash ta n) e))
    /\ (forall s, sm P P' (r_dstmt (engine hash ta n) s)).
  Proof.
    induction n as [|n IH]; intros P P' E; cbn [engine r_vexpr r_vstmt r_varm r_vlocal r_dexpr r_dstmt step].
    { repeat split; intros; apply sm_fuel. }
    assert (G : forall Q Q' x b, even Q Q' -> sm Q Q' (expand_parent_expr ta (engine hash ta n) x b)).
    { intros Q Q' x b EQ. destruct (IH Q Q' EQ) as (I1 & I2 & I3 & I4 & I5 & I6). apply parent_expr_sm; auto. }
    assert (G2 : forall Q Q' x, even Q Q' -> sm Q Q' (expand_parent_stmt ta (engine hash ta n) x)).
    { intros Q Q' x EQ. destruct (IH Q Q' EQ) as (I1 & I2 & I3 & I4 & I5 & I6). apply parent_stmt_sm; auto. }
    destruct (IH P P' E) as (IHe & IHs & IHa & IHl & IHde & IHds).
    repeat split; intros; apply unless_error_sm; try assumption.
    + unfold visit_expr. apply sm_bind; [apply sm_massert; rd|intros _].
      apply sm_bind; [apply note_child_sm|intros _]. cbn zeta.
      apply sm_bind; [apply sm_gets; rd|intros mode].
      apply sm_bind.
      { destruct mode; [apply sm_ret| |].
        - unfold visit_return. destruct (_ && _); [|apply sm_ret]. destruct e; try apply sm_ret.
          apply sm_bind.
          + apply sm_gets. intros. destruct e; [eapply lk_marker_expr; eassumption|reflexivity].
          + pp E.
        - unfold visit_try, next_expr. destruct (_ && _); [|apply sm_ret]. destruct e; pp E. }
      intros e1. apply sm_bind.
      { destruct (sc_foreign _); [apply sm_ret|].
        destruct (find_remove_attr (e_attrs e1) NESTED) as [[x a']|]; [|apply sm_ret].
        apply visit_nested_sm; exact E. }
      intros e2. apply sm_bind.
      { apply vs_visit_expr_sm; cbn [v_vis on_expr on_stmt on_arm]; auto.
        intros; apply IHe. }
      intros e3. apply sm_bind; [apply sm_gets; rd|intros cur].
      destruct (_ || _); [|apply sm_ret]. apply sm_bind.
      * unfold visit_marker_macro. apply sm_bind; [apply sm_massert; rd|intros _].
        apply sm_bind; [apply sm_gets; rd|intros ex].
        destruct e3; try apply sm_ret. destruct m as [p x]. destruct ex; pp E.
      * intros e4. unfold find_remove_attrs_expr. apply sm_bind; [apply find_remove_attrs_sm|].
        intros; apply sm_ret.
    + unfold visit_stmt. destruct s;
        try (apply sm_bind; [apply note_child_sm|intros _];
             apply vs_visit_stmt_sm; cbn [v_vis on_expr on_stmt on_arm on_local]; auto; intros; apply IHe).
      apply sm_bind; [apply IHe|intros; apply sm_ret].
    + unfold visit_arm. destruct x as [a p g b c]. apply sm_bind.
      * destruct (sc_foreign sc); [apply sm_ret|].
        destruct (find_remove_attr a NESTED) as [[y a']|]; [|apply sm_ret].
        apply sm_bind; [apply visit_nested_sm; exact E|intros; apply sm_ret].
      * intros x1. apply sm_bind; [apply walk_arm_sm; intros; apply IHe|].
        intros []. apply sm_bind; [apply find_remove_attrs_sm|intros; apply sm_ret].
    + unfold visit_local. destruct x as [a p t i d]. apply sm_bind.
      * destruct (sc_foreign sc); [apply sm_ret|].
        destruct (find_remove_attr a NESTED) as [[y a']|]; [|apply sm_ret].
        apply sm_bind; [apply sm_optM_all; intros; apply visit_nested_sm; exact E|].
        intros; apply sm_ret.
      * intros x1. apply sm_bind; [apply walk_local_sm; intros; apply IHe|].
        intros []. apply sm_bind; [apply find_remove_attrs_sm|intros; apply sm_ret].
    + apply sm_bind; [apply note_child_sm|intros].
      apply vs_visit_expr_sm; cbn [d_vis on_expr on_stmt on_arm]; auto.
      intros; apply walk_arm_sm; auto.
    + apply sm_bind; [apply note_child_sm|intros].
      apply vs_visit_stmt_sm; cbn [d_vis on_expr on_stmt on_arm on_local]; auto;
        intros; [apply walk_arm_sm|apply walk_local_sm]; auto.
  Qed.

  Lemma expand_expr_alike n P P' e b : even P P' -> sm P P' (expand_parent_expr ta (engine hash ta n) e b).
  Proof. intros E. destruct (engine_sm n P P' E) as (I1 & I2 & I3 & I4 & I5 & I6). apply parent_expr_sm; auto. Qed.
  Lemma expand_stmt_alike n P P' s : even P P' -> sm P P' (expand_parent_stmt ta (engine hash ta n) s).
  Proof. intros E. destruct (engine_sm n P P' E) as (I1 & I2 & I3 & I4 & I5 & I6). apply parent_stmt_sm; auto. Qed.
End Engine.
