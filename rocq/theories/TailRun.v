(** Runs of [child_expr] are as Tails.v says. *)

Require Import Coq.Strings.String Coq.Lists.List Coq.Bool.Bool Coq.Arith.Arith Coq.NArith.NArith Lia.
Require Import Verif.Syntax Verif.Context Verif.ExprModel Verif.Edits Verif.NoValueSpec Verif.NoValueRun.
Require Import Verif.AstInd Verif.RunLemmas Verif.EditsRun Verif.VisitRun Verif.Tails Verif.Twin Verif.TwinBase.
Import ListNotations.
Open Scope string_scope.
Open Scope list_scope.

(** ** The tests *)

Lemma nested_in_ok :
  (forall e, find_nested_expr e = nested_in e) /\ (forall s, find_nested_stmt s = nested_in_stmt s)
  /\ (forall x, find_nested_arm x = nested_in_arm x) /\ (forall x, find_nested_local x = nested_in_local x).
Proof.
  assert (X : forall a b c : bool, b = c -> (if a then false else b) = negb a && c) by (intros [] ? ? ->; reflexivity).
  assert (Y : forall a b c : bool, b = c -> (if a then true else b) = a || c) by (intros [] ? ? ->; reflexivity).
  assert (L : forall A (f g : A -> bool) l, Forall (fun s => f s = g s) l -> fold_list orb false f l = fold_list orb false g l).
  { intros. apply s_fold_list. assumption. }
  assert (O : forall A (f g : A -> bool) l, opt_all (fun s => f s = g s) l -> fold_opt false f l = fold_opt false g l).
  { intros. apply s_fold_opt. assumption. }
  apply ast_ind; intros; cbn [find_nested_expr find_nested_stmt find_nested_arm find_nested_local
     nested_in nested_in_stmt nested_in_arm nested_in_local e_attrs fold_expr fold_stmt fold_arm fold_local];
    try reflexivity; try assumption;
    try (apply X); try (apply Y);
    repeat match goal with
      | H : Forall _ _ |- _ => apply L in H; rewrite H; clear H
      | H : opt_all _ _ |- _ => apply O in H; rewrite H; clear H
      | H : _ = _ |- _ => rewrite H; clear H
      end; reflexivity.
Qed.

Section Tests.
  Variable P : ctx.
  Let mk := ctx_marker P.

  Lemma arm_skipped_iff x : skip_arm P x = true <-> arm_skipped mk x.
  Proof.
    destruct x as [a p g b c]. unfold skip_arm, arm_skipped.
    rewrite !orb_true_iff, !empty_attr_iff, unreachable_iff, (proj1 (proj2 (proj2 nested_in_ok))).
    cbn [nested_in_arm fold_arm]. rewrite !orb_true_iff. change (attr_plain "nested" a) with (any_empty_attr a "nested"). rewrite empty_attr_iff.
    assert (G : fold_opt false nested_in g = true <-> exists e, g = Some e /\ nested_in e = true).
    { destruct g; cbn; split; intros H; try discriminate; eauto; destruct H as (? & E & ?); [injection E as ->; assumption|discriminate]. }
    rewrite G. unfold NEVER, NESTED, mk. tauto.
  Qed.

  Lemma nested_block_iff b : find_nested_block b = true <-> exists x, In x b /\ nested_in_stmt x = true.
  Proof.
    unfold find_nested_block, fold_list. induction b as [|s b IH]; cbn [fold_right]; [split; [discriminate|intros (x & [] & _)]|].
    rewrite orb_true_iff, IH, (proj1 (proj2 nested_in_ok)). split.
    - intros [H|(x & I & H)]; [exists s; cbn; auto|exists x; cbn; auto].
    - intros (x & [->|I] & H); [auto|right; eauto].
  Qed.

  Lemma branch_skipped_iff b : skip_block P b = true <-> branch_skipped mk b.
  Proof.
    unfold skip_block, branch_skipped.
    destruct b as [|s0 b0] using rev_ind.
    - cbn. split; [discriminate|]. intros (r & s & E & _). destruct r; discriminate.
    - clear IHb0. rewrite on_last_snoc. split.
      + intros H. exists b0, s0. split; [reflexivity|]. destruct s0 as [l|i|e [|]|a m semi];
          try (apply unreachable_stmt_iff in H; exact H).
        rewrite !orb_true_iff, empty_attr_iff, unreachable_iff, nested_block_iff in H. unfold NESTED in H. tauto.
      + intros (r & s & E & H). apply app_inj_tail in E. destruct E as [<- <-].
        destruct s0 as [l|i|e [|]|a m semi]; try (apply unreachable_stmt_iff; exact H).
        rewrite !orb_true_iff, empty_attr_iff, unreachable_iff, nested_block_iff. unfold NESTED. tauto.
  Qed.

  Lemma own_break_iff label inner l : (label = None -> inner = false) ->
    own_break label inner l = true <-> leaves label inner l.
  Proof.
    intros I. unfold own_break, leaves. rewrite orb_true_iff, andb_true_iff, negb_true_iff. split.
    - intros [[H1 H2]|H].
      + left. destruct l; [discriminate|auto].
      + destruct label as [x|], l as [y|]; cbn in H; try discriminate.
        * apply String.eqb_eq in H. subst. right. eauto.
        * left. auto.
    - intros [[-> ->]|(s & -> & ->)]; [auto|]. right. cbn. apply String.eqb_refl.
  Qed.

  Lemma is_mark_iff e : is_marker_expr P e = true <-> is_mark mk e.
  Proof.
    unfold is_mark. split.
    - destruct e; try discriminate. cbn. rewrite marker_macro_iff. intros (s & H1 & H2). destruct m as [p x]. exists a, p, s, x. auto.
    - intros (a & p & s & x & -> & H1 & H2). cbn. apply marker_macro_iff. exists s. auto.
  Qed.
End Tests.

(** ** Runs with the variants they use *)

Definition tr {A} (P : ctx) (m : M A) (Q : list string -> A -> Prop) : Prop :=
  forall cx a cx', m cx = ROk (a, cx') -> cx_errs cx' = [] -> st cx P ->
  st cx' P /\ exists t, cx_variants cx' = cx_variants cx ++ t /\ Q t a.

Lemma tr_bind {A B} P (m : M A) (k : A -> M B) (Q1 : list string -> A -> Prop) (Q2 : list string -> B -> Prop) :
  tr P m Q1 -> (forall a, mono (k a)) -> (forall t1 a, Q1 t1 a -> tr P (k a) (fun t b => Q2 (t1 ++ t) b)) -> tr P (bind m k) Q2.
Proof.
  intros H1 Hm H2 cx b cx' E N S. apply bind_ok in E. destruct E as (a & c & E1 & E2).
  destruct (H1 _ _ _ E1 (Hm _ _ _ _ E2 N) S) as (S' & t1 & V1 & q).
  destruct (H2 _ _ q _ _ _ E2 N S') as (S2 & t2 & V2 & q2). split; [assumption|]. exists (t1 ++ t2). split; [|assumption].
  rewrite V2, V1, app_assoc. reflexivity.
Qed.
Lemma tr_ret {A} P (a : A) (Q : list string -> A -> Prop) : Q [] a -> tr P (ret a) Q.
Proof.
  intros H cx b cx' E N S. apply ret_ok in E. destruct E as [-> ->]. split; [assumption|]. exists []. rewrite app_nil_r. auto.
Qed.
Lemma tr_gets {A B} P (f : ctx -> A) (k : A -> M B) Q :
  (forall cx, st cx P -> f cx = f P) -> tr P (k (f P)) Q -> tr P (bind (gets f) k) Q.
Proof.
  intros H K cx b cx' E N S. apply bind_ok in E. destruct E as (a & c & E1 & E2). apply gets_ok in E1. destruct E1 as [-> ->].
  rewrite (H _ S) in E2. eapply K; eassumption.
Qed.
Lemma tr_error {A} P e (k : unit -> M A) Q : (forall a, mono (k a)) -> tr P (bind (error e) k) Q.
Proof. intros H cx b cx' E N S. destruct (tw_error P e k (fun _ _ => False) H _ _ _ E N S) as (? & _ & []). Qed.
Lemma tr_next P e : tr P (next_expr e) (fun t e' => exists v, t = [v] /\ e' = wrap (cx_ident P) v e).
Proof.
  intros cx e' cx' E N S. apply next_expr_attrs_ok in E. destruct E as [-> ->]. split; [apply st_next; assumption|].
  eexists. split; [reflexivity|]. eexists. split; [reflexivity|]. rewrite (st_ident _ _ S). reflexivity.
Qed.
Lemma tr_weaken {A} P (m : M A) (Q1 Q2 : list string -> A -> Prop) : tr P m Q1 -> (forall t a, Q1 t a -> Q2 t a) -> tr P m Q2.
Proof. intros H1 H2 cx b cx' E N S. destruct (H1 _ _ _ E N S) as (S' & t & V & q). eauto 6. Qed.

Lemma tr_mapM {A} P (f : A -> M A) (R : list string -> A -> A -> Prop) l :
  Forall (fun x => mono (f x)) l -> Forall (fun x => tr P (f x) (fun t => R t x)) l -> tr P (mapM f l) (fun t => seq2 R t l).
Proof.
  intros Hm H. induction H as [|x l H1 H2 IH]; cbn [mapM]; [apply tr_ret; constructor|]. inversion Hm; subst.
  eapply tr_bind; [exact H1|intros; apply mono_bind; [apply mono_mapM; assumption|mn]|]. intros t1 y Hy.
  eapply tr_bind; [apply IH; assumption|mn|]. intros t2 ys Hys. apply tr_ret. rewrite app_nil_r. constructor; assumption.
Qed.
Lemma tr_optM {A} P (f : A -> M A) (R : list string -> A -> A -> Prop) o :
  opt_all (fun x => tr P (f x) (fun t => R t x)) o -> tr P (optM f o) (fun t => maybe2 R t o).
Proof.
  destruct o; cbn; intros H; [|apply tr_ret; constructor].
  eapply tr_bind; [exact H|mn|]. intros t y Hy. apply tr_ret. rewrite app_nil_r. constructor. assumption.
Qed.

Lemma tr_walk_arm P f (R : list string -> expr -> expr -> Prop) x :
  (forall e, mono (f e)) ->
  (match x with Arm _ _ g b _ => opt_all (fun e => tr P (f e) (fun t => R t e)) g /\ tr P (f b) (fun t => R t b) end) ->
  tr P (walk_arm f x) (fun t => arm_parts R t x).
Proof.
  intros Hm. destruct x. cbn [walk_arm]. intros [H1 H2].
  eapply tr_bind; [apply tr_optM; exact H1|mn|]. intros t1 g' Hg.
  eapply tr_bind; [exact H2|mn|]. intros t2 b' Hb. apply tr_ret. rewrite app_nil_r. constructor; assumption.
Qed.
Lemma tr_walk_local P f (R : list string -> expr -> expr -> Prop) x :
  (forall e, mono (f e)) ->
  (match x with Local _ _ _ i d => opt_all (fun e => tr P (f e) (fun t => R t e)) i /\ opt_all (fun e => tr P (f e) (fun t => R t e)) d end) ->
  tr P (walk_local f x) (fun t => local_parts R t x).
Proof.
  intros Hm. destruct x. cbn [walk_local]. intros [H1 H2].
  eapply tr_bind; [apply tr_optM; exact H1|mn|]. intros t1 g' Hg.
  eapply tr_bind; [apply tr_optM; exact H2|mn|]. intros t2 b' Hb. apply tr_ret. rewrite app_nil_r. constructor; assumption.
Qed.
Lemma tr_walk_stmt P fe fl (Re : list string -> expr -> expr -> Prop) Rl s :
  (match s with SExpr e _ => tr P (fe e) (fun t => Re t e) | SLocal l => tr P (fl l) (fun t => Rl t l) | _ => True end) ->
  tr P (walk_stmt fe fl s) (fun t => stmt_parts Re Rl t s).
Proof.
  destruct s; cbn [walk_stmt]; intros H; try (apply tr_ret; constructor).
  - eapply tr_bind; [exact H|mn|]. intros. apply tr_ret. rewrite app_nil_r. constructor; assumption.
  - eapply tr_bind; [exact H|mn|]. intros. apply tr_ret. rewrite app_nil_r. constructor; assumption.
Qed.

Lemma tr_walk P V Re Rs Ra e :
  (forall x, mono (on_expr V x)) -> (forall x, mono (on_stmt V x)) -> (forall x, mono (on_arm V x)) ->
  kids (fun x => tr P (on_expr V x) (fun t => Re t x)) (fun x => tr P (on_stmt V x) (fun t => Rs t x))
       (fun x => tr P (on_arm V x) (fun t => Ra t x)) e ->
  tr P (walk_expr V e) (fun t => parts Re Rs Ra t e).
Proof.
  intros M1 M2 M3 K.
  assert (L : forall (b : list stmt), Forall (fun x => tr P (on_stmt V x) (fun t => Rs t x)) b -> tr P (mapM (on_stmt V) b) (fun t => seq2 Rs t b)).
  { intros. apply tr_mapM; [apply Forall_forall; auto|assumption]. }
  assert (LE : forall (b : list expr), Forall (fun x => tr P (on_expr V x) (fun t => Re t x)) b -> tr P (mapM (on_expr V) b) (fun t => seq2 Re t b)).
  { intros. apply tr_mapM; [apply Forall_forall; auto|assumption]. }
  assert (LA : forall (b : list arm), Forall (fun x => tr P (on_arm V x) (fun t => Ra t x)) b -> tr P (mapM (on_arm V) b) (fun t => seq2 Ra t b)).
  { intros. apply tr_mapM; [apply Forall_forall; auto|assumption]. }
  destruct e; cbn [walk_expr kids] in *; try (apply tr_ret; constructor);
    repeat match goal with H : _ /\ _ |- _ => destruct H end;
    repeat match goal with
      | |- tr P (bind _ _) _ =>
          eapply tr_bind; [first [eassumption | apply L; assumption | apply LE; assumption | apply LA; assumption
                                 | apply tr_optM; eassumption] | mn | intros ? ? ?]
      | |- tr P (ret _) _ => apply tr_ret; rewrite ?app_nil_r; constructor; assumption
      end.
Qed.

(** ** Loops *)

Section Runs.
  Variable P : ctx.
  Notation own := (cx_ident P).
  Notation mk := (ctx_marker P).

  Lemma tr_loop :
    (forall e label inner, (label = None -> inner = false) -> tr P (loop_expr label inner e) (fun t => breaks own mk label inner t e))
    /\ (forall s label inner, (label = None -> inner = false) -> tr P (loop_stmt label inner s) (fun t => breaks_stmt own mk label inner t s))
    /\ (forall x label inner, (label = None -> inner = false) -> tr P (loop_arm label inner x) (fun t => breaks_arm own mk label inner t x))
    /\ (forall x label inner, (label = None -> inner = false) -> tr P (loop_local label inner x) (fun t => breaks_local own mk label inner t x)).
  Proof.
    assert (M1 := proj1 mono_loop). assert (M2 := proj1 (proj2 mono_loop)). assert (M3 := proj1 (proj2 (proj2 mono_loop))).
    assert (S : forall A (f : option string -> bool -> A -> M A) (g : option string -> bool -> list string -> A -> A -> Prop) l la n,
      (la = None -> n = false) ->
      Forall (fun x => forall la n, (la = None -> n = false) -> tr P (f la n x) (fun t => g la n t x)) l ->
      Forall (fun x => tr P (f la n x) (fun t => g la n t x)) l).
    { intros. eapply Forall_impl; [|eassumption]. cbn. auto. }
    assert (O : forall A (f : option string -> bool -> A -> M A) (g : option string -> bool -> list string -> A -> A -> Prop) l la n,
      (la = None -> n = false) ->
      opt_all (fun x => forall la n, (la = None -> n = false) -> tr P (f la n x) (fun t => g la n t x)) l ->
      opt_all (fun x => tr P (f la n x) (fun t => g la n t x)) l).
    { intros A f g [] la n; cbn; auto. }
    assert (W : forall la n e, (la = None -> n = false) ->
      kids (fun x => forall la n, (la = None -> n = false) -> tr P (loop_expr la n x) (fun t => breaks own mk la n t x))
           (fun x => forall la n, (la = None -> n = false) -> tr P (loop_stmt la n x) (fun t => breaks_stmt own mk la n t x))
           (fun x => forall la n, (la = None -> n = false) -> tr P (loop_arm la n x) (fun t => breaks_arm own mk la n t x)) e ->
      tr P (walk_expr (Vis (loop_expr la n) (loop_stmt la n) (loop_arm la n) (loop_local la n)) e)
           (fun t => parts (breaks own mk la n) (breaks_stmt own mk la n) (breaks_arm own mk la n) t e)).
    { intros la n e HN K. apply tr_walk; cbn [on_expr on_stmt on_arm]; [intro; apply M1|intro; apply M2|intro; apply M3|].
      destruct e; cbn [kids] in *; repeat match goal with H : _ /\ _ |- _ => destruct H end; repeat match goal with |- _ /\ _ => split end; auto;
        first [ apply (S _ loop_stmt (breaks_stmt own mk)); assumption | apply (S _ loop_arm (breaks_arm own mk)); assumption
              | apply (S _ loop_expr (breaks own mk)); assumption | apply (O _ loop_expr (breaks own mk)); assumption ]. }
    assert (NV : forall a, any_empty_attr a NEVER = false -> ~ has_plain "never" a).
    { intros a H1 H2. apply empty_attr_iff in H2. unfold NEVER in H1. congruence. }
    apply ast_ind; intros.
    all: try match goal with
      | |- tr _ (loop_arm _ _ _) _ =>
          eapply tr_weaken; [apply tr_walk_arm with (R := breaks own mk label inner); [intro; apply M1|split; [apply (O _ loop_expr (breaks own mk)); assumption|auto]]|intros; constructor; assumption]
      | |- tr _ (loop_local _ _ _) _ =>
          eapply tr_weaken; [apply tr_walk_local with (R := breaks own mk label inner); [intro; apply M1|split; apply (O _ loop_expr (breaks own mk)); assumption]|intros; constructor; assumption]
      | |- tr _ (loop_stmt _ _ _) _ =>
          eapply tr_weaken; [apply tr_walk_stmt with (Re := breaks own mk label inner) (Rl := breaks_local own mk label inner); auto|intros; constructor; assumption]
      end.
    all: cbn [loop_expr e_attrs]; try (destruct (any_empty_attr a NEVER) eqn:EN; [apply tr_ret; apply br_never; apply empty_attr_iff; exact EN|]).
    all: try (eapply tr_weaken; [apply W; cbn [kids]; auto|intros; apply br_parts; [apply NV; exact EN|reflexivity|assumption]]; fail).
    - destruct k; try (eapply tr_weaken; [apply W; cbn [kids]; auto|intros; apply br_parts; [apply NV; exact EN|reflexivity|assumption]]; fail).
      apply tr_ret. apply br_async.
    - destruct label; [|apply tr_ret; apply br_loop; reflexivity].
      eapply tr_weaken; [apply W; cbn [kids]; auto; discriminate|intros; apply br_loop_label; [apply NV; exact EN|discriminate|reflexivity|assumption]].
    - destruct label; [|apply tr_ret; apply br_loop; reflexivity].
      eapply tr_weaken; [apply W; cbn [kids]; auto; discriminate|intros; apply br_loop_label; [apply NV; exact EN|discriminate|reflexivity|assumption]].
    - destruct label; [|apply tr_ret; apply br_loop; reflexivity].
      eapply tr_weaken; [apply W; cbn [kids]; auto; discriminate|intros; apply br_loop_label; [apply NV; exact EN|discriminate|reflexivity|assumption]].
    - fold (own_break label inner l). apply NV in EN. pose proof (own_break_iff label inner l H0) as OB. destruct (own_break label inner l).
      + assert (LV : leaves label inner l) by (apply OB; reflexivity). destruct e as [y|].
        * cbn [opt_all] in H. apply tr_gets; [intros; apply s_marker_expr; assumption|].
          pose proof (is_mark_iff P y) as MI. destruct (is_marker_expr P y).
          -- eapply tr_bind; [apply H; assumption|mn|]. intros t y' Hy. apply tr_ret. rewrite app_nil_r. apply br_mark; try assumption. apply MI. reflexivity.
          -- eapply tr_bind; [apply tr_next|mn; apply M1|]. intros t1 call (v & -> & ->).
             eapply tr_bind; [apply H; assumption|mn|]. intros t y' Hy. apply tr_ret. rewrite app_nil_r. cbn [app wrap].
             apply br_value; try assumption. intros X. apply MI in X. discriminate.
        * unfold replace_boxed_expr. cbn [is_marker_expr unit_expr]. intros cx x cx' E N ST.
          refine (tr_bind P (next_expr unit_expr) (fun e' => ret (EBreak a l (Some e'))) _ (fun t x => breaks own mk label inner t (EBreak a l None) x) (tr_next P unit_expr) _ _ cx x cx' E N ST); [mn|].
          intros t1 e' (v & -> & ->). apply tr_ret. apply br_unit; assumption.
      + eapply tr_bind; [apply tr_optM with (R := breaks own mk label inner); apply (O _ loop_expr (breaks own mk)); [exact H0|exact H]|mn|]. intros t x' Hx. apply tr_ret. rewrite app_nil_r.
        apply br_other_break; try assumption. intros X. apply OB in X. discriminate.
    - apply tr_ret. apply br_closure.
    - apply tr_ret. apply br_parts; [intros (p & [] & _)|reflexivity|constructor].
  Qed.

  (** ** The last expression *)

  Lemma tr_last_block b : tr P (visit_last_block b) (fun t => branch_wrapped own mk t b).
  Proof.
    unfold visit_last_block. apply tr_gets; [intros; apply s_skip_block; assumption|].
    pose proof (branch_skipped_iff P b) as B. destruct (skip_block P b); [apply tr_ret; apply bw_skip; apply B; reflexivity|].
    eapply tr_bind; [apply tr_next|mn|]. intros t e' (v & -> & ->). apply tr_ret. apply bw_wrap. intros X. apply B in X. discriminate.
  Qed.

  Lemma tr_last_arm x : tr P (visit_last_arm x) (fun t => arm_wrapped own mk t x).
  Proof.
    unfold visit_last_arm. apply tr_gets; [intros; apply s_skip_arm; assumption|].
    pose proof (arm_skipped_iff P x) as B. destruct (skip_arm P x); [apply tr_ret; apply aw_skip; apply B; reflexivity|]. destruct x.
    eapply tr_bind; [apply tr_next|mn|]. intros t e' (v & -> & ->). apply tr_ret. apply aw_wrap. intros X. apply B in X. discriminate.
  Qed.

  Lemma tr_last_if : forall e, match e with EIf _ _ _ _ => tr P (visit_last_expr_if e) (fun t => if_wrapped own mk t e) | _ => True end.
  Proof.
    destruct (ast_ind (fun e => match e with EIf _ _ _ _ => tr P (visit_last_expr_if e) (fun t => if_wrapped own mk t e) | _ => True end)
      (fun _ => True) (fun _ => True) (fun _ => True)) as (H & _);
      [..|exact H]; cbv beta; intros; try exact I; cbn [visit_last_expr_if].
    assert (M0 : forall o : option expr, mono match o with
       | Some (EBlock ea l b) => b' <- visit_last_block b ;; ret (Some (EBlock ea l b'))
       | Some (EIf _ _ _ _ as e2) => e2' <- visit_last_expr_if e2 ;; ret (Some e2')
       | None => error ErrNoElse ;;; ret None
       | Some _ => panic "wrong_if" end).
    { intros [[]|]; mn; try apply mono_last_block; try apply mono_last_if. }
    eapply tr_bind; [apply tr_last_block|intros; apply mono_bind; [apply M0|mn]|]. intros t1 b' Ht.
    eapply tr_bind with (Q1 := fun t els' => match els with
               | Some (EBlock ea l b) => exists b', els' = Some (EBlock ea l b') /\ branch_wrapped own mk t b b'
               | Some (EIf _ _ _ _ as e2) => exists e2', els' = Some e2' /\ if_wrapped own mk t e2 e2'
               | _ => False
               end); [|mn|].
    - destruct els as [els|]; [|apply tr_error; mn]. cbn [opt_all] in H1.
      destruct els; try (intros ? ? ? E; discriminate E).
      + eapply tr_bind; [apply tr_last_block|mn|]. intros t2 b2 Hb. apply tr_ret. rewrite app_nil_r. eauto.
      + eapply tr_bind; [exact H1|mn|]. intros t2 b2 Hb. apply tr_ret. rewrite app_nil_r. eauto.
    - intros t2 els' He. apply tr_ret. rewrite app_nil_r. destruct els as [els|]; [|contradiction]. destruct els; try contradiction.
      + destruct He as (b2 & -> & Hb). apply iw_else; assumption.
      + destruct He as (b2 & -> & Hb). apply iw_else_if; assumption.
  Qed.

  Lemma tr_map_last f (R : list string -> expr -> expr -> Prop) b :
    (forall e, mono (f e)) -> Forall (fun s => match s with SExpr e _ => tr P (f e) (fun t => R t e) | _ => True end) b ->
    tr P (map_last_expr f b) (fun t b' =>
      (exists r e e', b = r ++ [SExpr e false] /\ b' = r ++ [SExpr e' false] /\ R t e e')
      \/ (ends_in_value b = false /\ t = [] /\ b' = b)).
  Proof.
    intros Hm. induction 1 as [|s b H _ IH]; cbn [map_last_expr]; [apply tr_ret; right; auto|].
    destruct b as [|s1 b].
    - destruct s as [| |e []|]; try (apply tr_ret; right; auto; fail).
      eapply tr_bind; [exact H|mn|]. intros t e' He. apply tr_ret. rewrite app_nil_r. left. exists [], e, e'. auto.
    - eapply tr_bind; [exact IH|mn|]. intros t b' [(r & e & e' & E & -> & He)|(E & -> & ->)]; apply tr_ret; rewrite app_nil_r.
      + left. exists (s :: r), e, e'. cbn. rewrite E. auto.
      + right. auto.
  Qed.

  Lemma tr_child : forall e, tr P (child_expr e) (fun t => tails P t e).
  Proof.
    unfold tails. assert (VL := fun cx ST => s_visit_last cx P ST).
    destruct (visit_last P) eqn:V.
    2: { intros e. destruct e; cbn [child_expr];
         (apply tr_gets; [intros cx ST; rewrite (VL _ ST), V; reflexivity|]; rewrite V; cbn [negb orb]; apply tr_ret; auto). }
    destruct (ast_ind (fun e => tr P (child_expr e) (fun t => tail own mk t e))
      (fun s => match s with SExpr e _ => tr P (child_expr e) (fun t => tail own mk t e) | _ => True end)
      (fun _ => True) (fun _ => True)) as (H & _); [..|exact H]; cbv beta; intros; try exact I; try assumption;
      cbn [child_expr];
      (apply tr_gets; [intros cx ST; rewrite (VL _ ST), V, (s_unreachable _ _ ST); reflexivity|]; rewrite V; cbn [negb orb];
       match goal with |- context [is_unreachable P ?x] =>
         pose proof (unreachable_iff P x) as U; destruct (is_unreachable P x);
           [apply tr_ret; apply tl_no_value; apply U; reflexivity|];
         assert (NU : ~ no_value mk x) by (intros X; apply U in X; discriminate)
       end);
      try (apply tr_ret; apply tl_other; reflexivity).
    - eapply tr_bind; [apply tr_map_last with (R := tail own mk); [apply mono_child|exact H]|mn|].
      intros t b' [(r & e & e' & -> & -> & He)|(E & -> & ->)]; apply tr_ret; rewrite ?app_nil_r.
      + apply tl_block; assumption.
      + apply tl_other. cbn. rewrite E. reflexivity.
    - destruct k; try (apply tr_ret; apply tl_other; reflexivity).
      eapply tr_bind; [apply tr_map_last with (R := tail own mk); [apply mono_child|exact H]|mn|].
      intros t b' [(r & e & e' & -> & -> & He)|(E & -> & ->)]; apply tr_ret; rewrite ?app_nil_r.
      + apply tl_unsafe; assumption.
      + apply tl_other. cbn. rewrite E. reflexivity.
    - eapply tr_bind; [apply tr_mapM with (R := arm_wrapped own mk); apply Forall_forall; intros; [apply mono_visit_arm|apply tr_last_arm]|mn|].
      intros t arms' HA. apply tr_ret. rewrite app_nil_r. apply tl_match; assumption.
    - eapply tr_weaken; [match goal with |- tr _ (visit_last_expr_if ?x) _ => exact (tr_last_if x) end|]. intros. apply tl_if; assumption.
    - unfold visit_last_expr_loop.
      eapply tr_bind; [apply tr_mapM with (R := breaks_stmt own mk l false); apply Forall_forall; intros; [apply mono_loop|apply tr_loop; auto]|mn|].
      intros t b' Hb. apply tr_ret. rewrite app_nil_r. apply tl_loop; assumption.
    - eapply tr_bind; [exact H|mn|]. intros t b' Hb. apply tr_ret. rewrite app_nil_r. apply tl_method; assumption.
    - eapply tr_bind; [exact H|mn|]. intros t b' Hb. apply tr_ret. rewrite app_nil_r. apply tl_paren; assumption.
  Qed.

  Lemma tr_body b : tr P (map_last_expr child_expr b) (fun t => tails_body P t b).
  Proof.
    eapply tr_weaken; [apply tr_map_last with (R := tails P); [apply mono_child|]|].
    - apply Forall_forall. intros [] _; auto. apply tr_child.
    - cbv beta. unfold tails, tails_body. intros t b' [(r & e & e' & -> & -> & He)|(E & -> & ->)].
      + destruct (visit_last P); [apply tb_value; assumption|]. destruct He as [-> ->]. auto.
      + destruct (visit_last P); [apply tb_other; assumption|auto].
  Qed.
End Runs.

(** The variants used are numbered on. *)
Lemma numbered_on cx cx' P t : st cx P -> st cx' P -> cx_variants cx' = cx_variants cx ++ t ->
  t = from (length (cx_variants cx)) (length t).
Proof.
  intros S S' E. pose proof (st_vars _ _ S) as V. pose proof (st_vars _ _ S') as V'. rewrite E in V'.
  rewrite app_length in V'. unfold variants in *. rewrite seq_app, map_app in V'. cbn [plus] in V'. rewrite <- V in V'.
  apply app_inv_head in V'. exact V'.
Qed.
