(** Found.v for the runs of the macro. *)

Require Import Coq.Strings.String Coq.Lists.List Coq.Bool.Bool Coq.Arith.Arith Coq.NArith.NArith Lia.
Require Import Verif.Syntax Verif.Context Verif.ExprModel Verif.TypeAnalysis Verif.AutoEnum Verif.Edits.
Require Import Verif.AstInd Verif.RunLemmas Verif.Frame Verif.Tails Verif.Twin Verif.TwinBase Verif.TwinRun Verif.FoldTwin Verif.TwinEdits Verif.TailRun.
Require Import Verif.ArgsSpec Verif.ArgsRun Verif.TraitRun Verif.Exits Verif.ExitsRun Verif.ExitsTop Verif.Changes Verif.Outside Verif.OutsideRun.
Require Import Verif.Halt Verif.ErrorRun Verif.StillRun Verif.Retag Verif.Found.
Import ListNotations.
Open Scope string_scope.
Open Scope list_scope.

Notation rt := (@Retag.rt found_to_args).
Notation rmap := (@Retag.rmap found_to_args _).
Notation cm := (@Retag.cm found_to_args _).

(** ** The count of returns *)

Lemma count_returns P : cx_root P = true ->
  (forall e pl, in_macro pl = false -> snd (fn_count_expr P e) = returns (cx_marker P) (exits false pl e))
  /\ (forall e pl, in_macro pl = false -> snd (fn_count_stmt P e) = returns (cx_marker P) (exits_stmt false pl e))
  /\ (forall e pl, in_macro pl = false -> snd (fn_count_arm P e) = returns (cx_marker P) (exits_arm false pl e))
  /\ (forall e pl, in_macro pl = false -> snd (fn_count_local P e) = returns (cx_marker P) (exits_local false pl e)).
Proof.
  intros Root. set (R := fun (a : fncount) (l : list (place * exit)) => snd a = returns (cx_marker P) l).
  assert (R0 : R fc_zero []) by reflexivity.
  assert (Rp : forall a a' b b', R a a' -> R b b' -> R (fc_plus a b) (a' ++ b')).
  { unfold R, fc_plus, returns. intros. cbn [snd]. rewrite filter_app, app_length. lia. }
  assert (MC : forall e pl, in_macro pl = true -> returns (cx_marker P) (exits false pl e) = 0).
  { intros e pl I. pose proof (macro_places false e pl I) as M. unfold returns. induction M as [|x l Hx M IH]; [reflexivity|].
    cbn [filter]. unfold return_counted at 1. unfold excluded. destruct (snd x); try exact IH. rewrite Hx. cbn. exact IH. }
  assert (E : forall e, kids (fun x => forall pl, in_macro pl = false -> R (fn_count_expr P x) (exits false pl x))
       (fun x => forall pl, in_macro pl = false -> R (fn_count_stmt P x) (exits_stmt false pl x))
       (fun x => forall pl, in_macro pl = false -> R (fn_count_arm P x) (exits_arm false pl x)) e ->
     match e with EClosure _ _ _ | EMacro _ _ => False | _ => True end ->
     forall pl, in_macro pl = false -> R (fn_count_expr P e) (exits false pl e)).
  { intros e K NM pl I.
    assert (IB : in_macro (below pl e) = false) by (unfold below; destruct e; cbn; rewrite ?I; try contradiction; reflexivity).
    assert (F : R (fold_expr fc_plus fc_zero (fn_count_expr P) (fn_count_stmt P) (fn_count_arm P) e)
                  (fold_expr (@app _) [] (exits false (below pl e)) (exits_stmt false (below pl e)) (exits_arm false (below pl e)) e)).
    { eapply (fold_walk _ _ _ _ R R0 Rp _ _ _ _ _ _ id_vis); [|apply id_walk].
      clear NM. revert K IB. generalize (below pl e). intros pl1 K IB.
      assert (L : forall A (f : A -> fncount) g l, Forall (fun x => forall pl, in_macro pl = false -> R (f x) (g pl x)) l ->
        Forall (fun x => forall x', x = x' -> R (f x) (g pl1 x')) l).
      { intros. eapply Forall_impl; [|eassumption]. cbn. intros a Ha x' <-. auto. }
      assert (O : forall A (f : A -> fncount) g l, opt_all (fun x => forall pl, in_macro pl = false -> R (f x) (g pl x)) l ->
        opt_all (fun x => forall x', x = x' -> R (f x) (g pl1 x')) l).
      { intros A f g [] H; cbn in *; [|exact Logic.I]. intros x' <-. auto. }
      destruct e; cbn [kids o_expr o_stmt o_arm id_vis] in *; repeat match goal with H : _ /\ _ |- _ => destruct H end;
        repeat split; auto; try (apply L; assumption); try (apply O; assumption); intros x' <-; auto. }
    assert (N : R (fn_count_node P e) (own_exit false pl e)).
    { unfold fn_count_node. rewrite never_empty. unfold R, returns.
      destruct e; try (destruct (never _); reflexivity).
      - cbn [own_exit filter]. unfold return_counted, excluded. cbn [snd fst e_attrs]. rewrite I.
        destruct e as [y|]; cbn [marks_opt]; [rewrite (root_marks P _ Root)|];
          (destruct (never _); [reflexivity|]); [destruct (marks (cx_marker P) y); reflexivity|reflexivity].
      - cbn [own_exit filter return_counted snd]. destruct (never _); [reflexivity|]. destruct (is_marker_expr P e); reflexivity. }
    rewrite exits_eq.
    assert (EQ : fn_count_expr P e = fc_plus (fn_count_node P e) (fold_expr fc_plus fc_zero (fn_count_expr P) (fn_count_stmt P) (fn_count_arm P) e))
      by (destruct e; try contradiction; reflexivity).
    rewrite EQ. unfold R, returns in *. cbn [fc_plus snd].
    assert (EI : inner false (below pl e) e = fold_expr (@app _) [] (exits false (below pl e)) (exits_stmt false (below pl e)) (exits_arm false (below pl e)) e)
      by (destruct e; try contradiction; reflexivity).
    rewrite EI, filter_app, app_length, N, F. lia. }
  unfold R in E. apply ast_ind; intros; try (apply E; cbn [kids]; auto; fail).
  - reflexivity.
  - rewrite exits_eq. cbn [inner own_exit]. rewrite app_nil_r.
    assert (Z : forall m, snd (fn_count_expr P (EMacro a m)) = 0)
      by (intros m; cbn [fn_count_expr enters_closure fold_expr fc_plus snd]; unfold fn_count_node; destruct (any_empty_attr _ _); reflexivity).
    rewrite Z. destruct e; [|reflexivity]. symmetry. apply MC. unfold below. cbn. apply orb_true_r.
  - apply H. exact H0.
  - reflexivity.
  - apply H. exact H0.
  - destruct e; [|reflexivity]. symmetry. cbn [exits_stmt]. apply MC. reflexivity.
  - rewrite exits_local_eq. cbn [fn_count_local fold_local]. apply (Rp _ _ _ _); unfold R.
    + destruct i; [apply H; assumption|reflexivity].
    + destruct d; [apply H0; assumption|reflexivity].
  - rewrite exits_arm_eq. cbn [fn_count_arm fold_arm]. apply (Rp _ _ _ _); unfold R.
    + destruct g; [apply H; assumption|reflexivity].
    + apply H0; assumption.
Qed.

Lemma count_body_returns P b : cx_root P = true ->
  snd (visit_fn_block P b) = returns (cx_marker P) (body_exits false b).
Proof.
  intros R. destruct (count_returns P R) as (_ & S & _). unfold visit_fn_block, body_exits.
  induction b as [|s b IH]; [reflexivity|]. unfold fold_list in *. cbn [fold_right fc_plus snd].
  rewrite (S s (Place false false) eq_refl), IH. unfold returns. rewrite filter_app, app_length. reflexivity.
Qed.

(** ** The traits found *)

Lemma found_collect ps i : found ps i = match annotated_type i with Some t => collect_ty ps t | None => [] end.
Proof. unfold found. destruct (annotated_type i); [|reflexivity]. symmetry. apply collect_impls. Qed.

Lemma nothing_left ps t : collect_ty (ps ++ collect_ty ps t) t = [].
Proof.
  destruct (collect_ty (ps ++ collect_ty ps t) t) as [|q l] eqn:E; [reflexivity|exfalso].
  assert (I : In q (collect_ty (ps ++ collect_ty ps t) t)) by (rewrite E; left; reflexivity).
  apply collect_exact in I. destruct I as (bs & H1 & H2 & H3 & H4). apply H4. rewrite map_app. apply in_or_app. right.
  apply in_map. apply collect_exact. exists bs. split; [exact H1|]. split; [exact H2|]. split; [exact H3|].
  intros X. apply H4. rewrite map_app. apply in_or_app. left. exact X.
Qed.

(** ** The start *)

Definition start (own m : string) (ps tr : list path) (md : visit_mode) : ctx :=
  Ctx own [] m [m] true false md LDefault [] ps tr.

Lemma root_start own args ps mo : parse_args args = inr (ps, mo) -> ctx_root own args = inr (start own (own_marker mo) ps [] VDefault).
Proof. unfold ctx_root, ctx_new. intros ->. destruct mo; reflexivity. Qed.

Lemma start_rt own m ps tr md : rt (start own m ps tr md) = start own m (ps ++ tr) [] md.
Proof. reflexivity. Qed.

Lemma fn_mode_run cx out b : fn_mode out b cx = ROk (tt, set_mode (t_fn_mode cx out b) cx).
Proof.
  destruct cx as [a1 a2 a3 a4 a5 a6 a7 la a8 a9 a10]. unfold fn_mode, t_fn_mode, bind, gets, modify, set_mode, ret. cbn [cx_last].
  destruct la; [|reflexivity]. destruct out as [t|]; [|reflexivity].
  destruct t as [|q p|]; try reflexivity; destruct (is_result_impl _); try reflexivity; cbn [andb];
    destruct (2 <=? _)%nat; reflexivity.
Qed.

Lemma fn_mode_start own m ps ps' out b :
  t_fn_mode (start own m ps [] VDefault) out b = t_fn_mode (start own m ps' [] VDefault) out b.
Proof.
  unfold t_fn_mode. cbn [cx_last start cx_mode]. destruct out as [t|]; [|reflexivity].
  rewrite !count_body by reflexivity. rewrite !count_body_returns by reflexivity. reflexivity.
Qed.

Section Agree.
  Variable hash : node -> N.
  Variable n : nat.
  Notation R := (engine hash true n).

  (** After the branches. *)
  Definition fn_rest (b : list stmt) : M (list stmt) :=
    d <- gets (ta_dummy true) ;;
    if (d : bool) then mapM (r_dstmt R) b else (b <- mapM (r_vstmt R scope0) b ;; build build_fn b).
  Definition expr_rest (e : expr) : M expr :=
    d <- gets (ta_dummy true) ;;
    if (d : bool) then r_dexpr R e else r_vexpr R scope0 false e.

  Definition settled (cx : ctx) : Prop :=
    cx_args cx ++ cx_traits cx <> [] /\ (ta_dummy true cx = true -> has_error cx = true).

  Lemma rt_not_dummy cx : cx_args cx ++ cx_traits cx <> [] -> ta_dummy true (rt cx) = false.
  Proof.
    intros N. unfold ta_dummy. cbn [Retag.rt cx_mode cx_args found_to_args fst]. destruct (cx_mode cx); try reflexivity.
    destruct (cx_args cx ++ cx_traits cx); [congruence|reflexivity].
  Qed.
  Lemma has_errs cx : has_error cx = true -> cx_errs cx <> [].
  Proof. unfold has_error. destruct (cx_errs cx); [discriminate|intros _ X; discriminate X]. Qed.

  Lemma build_error {A} (f : genum -> A -> A) x cx : has_error cx = true -> build f x cx = ROk (x, cx).
  Proof. unfold build. intros ->. reflexivity. Qed.

  Lemma mapM_stay {A} (f : A -> M A) l cx : (forall x, f x cx = ROk (x, cx)) -> mapM f l cx = ROk (l, cx).
  Proof. intros H. induction l as [|x l IH]; [reflexivity|]. cbn [mapM]. unfold bind. rewrite H, IH. reflexivity. Qed.

  Lemma fn_rest_rt cx b : settled cx -> fn_rest b (rt cx) = rmap (fn_rest b cx).
  Proof.
    intros [N D]. unfold fn_rest at 1. unfold bind at 1, gets. rewrite (rt_not_dummy _ N).
    assert (C : cm (b <- mapM (r_vstmt R scope0) b ;; build build_fn b)).
    { apply cm_bind; [apply cm_mapM_all; intros; apply visitor_cm|intros; apply build_cm]. }
    rewrite (C cx). f_equal. unfold fn_rest. unfold bind at 2, gets. destruct (ta_dummy true cx) eqn:E; [|reflexivity].
    specialize (D eq_refl). destruct n as [|k].
    - destruct b; [|reflexivity]. cbn. apply build_error. exact D.
    - destruct (errors_stop hash true k cx (has_errs _ D)) as (_ & V & _ & _ & _ & S).
      unfold bind. rewrite (mapM_stay _ _ _ (V scope0)), (mapM_stay _ _ _ S). apply build_error. exact D.
  Qed.
  Lemma expr_rest_rt cx e : settled cx -> expr_rest e (rt cx) = rmap (expr_rest e cx).
  Proof.
    intros [N D]. unfold expr_rest at 1. unfold bind at 1, gets. rewrite (rt_not_dummy _ N).
    rewrite (proj1 (visitor_cm hash true n) scope0 false e cx). f_equal.
    unfold expr_rest. unfold bind, gets. destruct (ta_dummy true cx) eqn:E; [|reflexivity].
    specialize (D eq_refl). destruct n as [|k]; [reflexivity|].
    destruct (errors_stop hash true k cx (has_errs _ D)) as (V & _ & _ & _ & S & _). rewrite V, S. reflexivity.
  Qed.

  (** The branches, and then the rest. *)
  Lemma parts_rt {A B} (m : M A) (k : A -> M B) cx :
    cm m -> (forall a cx', m cx = ROk (a, cx') -> k a (rt cx') = rmap (k a cx')) -> bind m k (rt cx) = rmap (bind m k cx).
  Proof.
    intros C H. unfold bind. rewrite (C cx). destruct (m cx) as [[a c]| |]; cbn [rmap]; [|reflexivity|reflexivity].
    apply H. reflexivity.
  Qed.

  Lemma settle P cx : same_mode P cx -> cx_args P ++ cx_traits P <> [] ->
    (cx_args P = [] -> forall c, cx_mode P = VReturn c -> c < 2 -> cx_errs cx = [] -> cx_variants cx = [] -> False) -> settled cx.
  Proof.
    unfold same_mode. intros (M & L & T & A & _) N H. split; [congruence|].
    unfold ta_dummy. cbn [andb]. destruct (cx_mode cx) as [|c|] eqn:EM; try discriminate.
    rewrite !andb_true_iff, Nat.ltb_lt. unfold variant_is_empty. intros ((EA & EV) & C).
    unfold has_error. destruct (cx_errs cx) eqn:EE; [exfalso|reflexivity].
    destruct (cx_args cx) eqn:AA; [|discriminate]. destruct (cx_variants cx) eqn:VV; [|discriminate].
    eapply H; eauto; congruence.
  Qed.

  Lemma start_st own m ps tr md : st (start own m ps tr md) (start own m ps tr md).
  Proof. split; reflexivity. Qed.

  Lemma child_body_frame b : pres same_mode (map_last_expr child_expr b).
  Proof.
    apply map_last_pres; [apply same_mode_refl|exact same_mode_trans|]. apply Forall_forall. intros [] _; auto. apply child_expr_frame.
  Qed.

  Theorem fn_agree own m ps a sg t b :
    collect_ty ps t <> [] ->
    ~ (ps = [] /\ one_way own m (InStmt (SItem (IFn a sg (Some t) b)))) ->
    expand_parent_item_fn true R (Some t) b (start own m (ps ++ collect_ty ps t) [] VDefault)
    = rmap (expand_parent_item_fn true R (Some t) b (start own m ps [] VDefault)).
  Proof.
    intros NE OW. set (tr := collect_ty ps t) in *.
    set (md := t_fn_mode (start own m ps [] VDefault) (Some t) b).
    set (P := start own m ps tr md).
    set (K := (dummy <- gets is_dummy ;;
               if (dummy : bool) then massert (fun cx => match cx_args cx with [] => true | _ => false end) "dummy: args" ;;; mapM (r_dstmt R) b
               else (b <- match b with [] => error ErrEmptyFn ;;; ret [] | _ => map_last_expr child_expr b end ;; fn_rest b))).
    assert (E0 : expand_parent_item_fn true R (Some t) b (start own m ps [] VDefault) = K P).
    { unfold expand_parent_item_fn. unfold bind at 1. rewrite fn_mode_run. reflexivity. }
    assert (E1 : expand_parent_item_fn true R (Some t) b (start own m (ps ++ tr) [] VDefault) = K (rt P)).
    { unfold expand_parent_item_fn. unfold bind at 1. rewrite fn_mode_run, (fn_mode_start _ _ (ps ++ tr) ps).
      unfold bind at 1, fn_collect. unfold bind at 1, gets at 1. cbn [set_mode start cx_args cx_traits collect_impl_trait].
      unfold collect_impl_trait. rewrite (nothing_left ps t : collect_ty (ps ++ tr) t = []). reflexivity. }
    rewrite E0, E1. unfold K.
    assert (D0 : is_dummy P = false) by (unfold is_dummy; cbn; destruct ps, tr; congruence || reflexivity).
    assert (D1 : is_dummy (rt P) = false) by (unfold is_dummy; cbn; destruct ps, tr; congruence || reflexivity).
    unfold bind at 1, gets at 1. rewrite D1. symmetry. unfold bind at 1, gets at 1. rewrite D0. symmetry.
    apply parts_rt.
    - destruct b; [apply cm_bind; [apply cm_error|intros; apply cm_ret]|apply child_block_cm].
    - intros b' cx' HR. apply fn_rest_rt.
      assert (SM : same_mode P cx').
      { destruct b as [|s b]; [|eapply child_body_frame; exact HR]. injection HR as _ <-. repeat split. }
      apply (settle P); [exact SM| |].
      + cbn [P start cx_args cx_traits]. destruct ps; [exact NE|discriminate].
      + cbn [P start cx_args cx_mode]. intros -> c EM C EE EV. apply OW. split; [reflexivity|].
        destruct b as [|s0 b0]; [injection HR as _ <-; discriminate EE|].
        set (b := s0 :: b0) in *.
        destruct (tr_body P b P b' cx' HR EE (start_st _ _ _ _ _)) as (_ & v & V & TB). rewrite EV in V. cbn in V. subst v.
        unfold md, t_fn_mode in EM. cbn [cx_last start cx_mode] in EM.
        destruct t as [bs|q p|]; [|destruct (_ && _); discriminate EM|discriminate EM].
        assert (EC : snd (visit_fn_block (start own m [] [] VDefault) b) = c) by congruence.
        rewrite (count_body_returns (start own m [] [] VDefault) b eq_refl) in EC. rewrite <- EC in C. apply ow_fn with (b' := b'); [discriminate|exact C|exact TB].
  Qed.

  Lemma expand_body_rt P e : cx_args P ++ cx_traits P <> [] ->
    (cx_args P = [] -> forall c e' cx', cx_mode P = VReturn c -> c < 2 -> child_expr e P = ROk (e', cx') ->
       cx_errs cx' = [] -> cx_variants cx' = [] -> False) ->
    expand_body true R e (rt P) = rmap (expand_body true R e P).
  Proof.
    intros NE H. change (expand_body true R e) with (e <- child_expr e ;; expr_rest e). apply parts_rt; [apply child_expr_cm|].
    intros e' cx' HR. apply expr_rest_rt. apply (settle P); [eapply child_expr_frame; exact HR|exact NE|]. intros; eapply H; eauto.
  Qed.

  Lemma expand_expr_agree own m ps tr e : tr <> [] ->
    (ps = [] -> forall ca cs b, e = EClosure ca cs b -> forall b', questions m (exits false (Place false false) b) < 2 ->
       returns m (exits false (Place false false) b) < 2 -> branches (unlisted own m) [] b b' -> False) ->
    expand_expr true R e (rt (start own m ps tr VDefault)) = rmap (expand_expr true R e (start own m ps tr VDefault)).
  Proof.
    intros NE H. set (P := start own m ps tr VDefault).
    assert (NA : forall md, cx_args (set_mode md P) ++ cx_traits (set_mode md P) <> []) by (cbn; destruct ps; [auto|discriminate]).
    assert (B : forall e, expand_body true R e (rt P) = rmap (expand_body true R e P)).
    { intros x. apply expand_body_rt; [apply (NA VDefault)|]. intros _ c e' cx' X. discriminate X. }
    unfold expand_expr. unfold bind at 1, gets at 1. symmetry. unfold bind at 1, gets at 1. symmetry.
    destruct e as [| | | | | | | | | | | |a inputs e| | | | | | |]; try apply B. change (visit_last (rt P)) with true. change (visit_last P) with true.
    set (cl := EClosure a inputs e) in *.
    unfold bind at 1, gets at 1. symmetry. unfold bind at 1, gets at 1. symmetry. rewrite (@rt_count_expr found_to_args).
    set (c := visit_fn_expr P e).
    assert (Q : fst c = questions m (exits false (Place false false) e)) by (apply (proj1 (count_exits P eq_refl)); reflexivity).
    assert (T : snd c = returns m (exits false (Place false false) e)) by (apply (proj1 (count_returns P eq_refl)); reflexivity).
    set (md := if (2 <=? fst c)%nat then VTry else VReturn (snd c)).
    change (bind (expand_body true R e) (fun body' => ret (EClosure a inputs body')) (rt (set_mode md P))
            = rmap (bind (expand_body true R e) (fun body' => ret (EClosure a inputs body')) (set_mode md P))).
    unfold bind. rewrite expand_body_rt.
    - destruct (expand_body true R e (set_mode md P)) as [[]| |]; reflexivity.
    - apply NA.
    - cbn [P start set_mode cx_args cx_mode]. intros E k e' cx' EM C HR EE EV.
      unfold md in EM. destruct (Nat.leb_spec 2 (fst c)) as [|LT]; [discriminate EM|]. injection EM as <-.
      assert (MD : md = VReturn (snd c)) by (unfold md; destruct (Nat.leb_spec 2 (fst c)); [lia|reflexivity]).
      destruct (tr_child (set_mode md P) e (set_mode md P) e' cx' HR EE (start_st _ _ _ _ _)) as (_ & v & V & TB).
      rewrite EV in V. cbn in V. subst v.
      apply (H E a inputs e eq_refl e'); [lia|lia|]. rewrite MD in TB. exact TB.
  Qed.

  Theorem let_agree own m ps a p t i d :
    collect_ty ps t <> [] ->
    ~ (ps = [] /\ one_way own m (InStmt (SLocal (Local a p (Some t) i d)))) ->
    exists f, (forall t', f t' = match f None with ROk (Local a p _ i d, cx) => ROk (Local a p t' i d, cx) | r => r end)
      /\ expand_parent_local true R (Local a p (Some t) i d) (start own m ps [] VDefault) = f None
      /\ expand_parent_local true R (Local a p (Some t) i d) (start own m (ps ++ collect_ty ps t) [] VDefault) = rmap (f (Some t)).
  Proof.
    intros NE OW. set (tr := collect_ty ps t) in *. set (P := start own m ps tr VDefault).
    set (K := fun t' => dummy <- gets is_dummy ;;
        if (dummy : bool) then
          massert (fun cx => match cx_args cx with [] => true | _ => false end) "dummy: args" ;;;
          walk_local (r_dexpr R) (Local a p t' i d)
        else
          match i with
          | None => error ErrUninitLet ;;; ret (Local a p t' i d)
          | Some e =>
              e <- expand_expr true R e ;;
              e <- build build_expr e ;;
              ret (Local a p t' (Some e) d)
          end).
    assert (E0 : expand_parent_local true R (Local a p (Some t) i d) (start own m ps [] VDefault) = K None P).
    { unfold expand_parent_local, local_ty. unfold bind at 1. unfold bind at 1, gets at 1. cbn [start cx_args cx_traits].
      unfold collect_impl_trait. fold tr. unfold bind at 1, modify, ret at 1. destruct tr as [|q l]; [congruence|]. reflexivity. }
    assert (E1 : expand_parent_local true R (Local a p (Some t) i d) (start own m (ps ++ tr) [] VDefault) = K (Some t) (rt P)).
    { unfold expand_parent_local, local_ty. unfold bind at 1. unfold bind at 1, gets at 1. cbn [start cx_args cx_traits].
      unfold collect_impl_trait. rewrite (nothing_left ps t : collect_ty (ps ++ tr) t = []). reflexivity. }
    assert (D0 : is_dummy P = false) by (unfold is_dummy; cbn; destruct ps, tr; congruence || reflexivity).
    assert (D1 : is_dummy (rt P) = false) by (unfold is_dummy; cbn; destruct ps, tr; congruence || reflexivity).
    exists (fun t' => K t' P). split; [|split; [exact E0|]].
    - intros t'. unfold K. unfold bind at 1, gets at 1. symmetry. unfold bind at 1, gets at 1. symmetry. rewrite D0.
      destruct i as [e|]; [|reflexivity]. unfold bind. destruct (expand_expr true R e P) as [[e1 c1]| |]; try reflexivity.
      destruct (build build_expr e1 c1) as [[e2 c2]| |]; reflexivity.
    - rewrite E1. unfold K. unfold bind at 1, gets at 1. symmetry. unfold bind at 1, gets at 1. symmetry. rewrite D0, D1.
      destruct i as [e|]; [|reflexivity].
      assert (X : expand_expr true R e (rt P) = rmap (expand_expr true R e P)).
      { apply expand_expr_agree; [exact NE|]. intros E ca cs b -> b' Q T B. apply OW. split; [exact E|].
        eapply ow_let; eassumption. }
      unfold bind at 1. rewrite X. symmetry. unfold bind at 1. symmetry.
      destruct (expand_expr true R e P) as [[e1 c1]| |]; cbn [rmap]; try reflexivity.
      assert (C : cm (e <- build build_expr e1 ;; ret (Local a p (Some t) (Some e) d))) by (apply cm_bind; [apply build_cm|intros; apply cm_ret]).
      apply C.
  Qed.
End Agree.

(** ** The answers *)

Lemma answer_refl r : same_answer false r r.
Proof. destruct r as [[]| |]; cbn; auto. Qed.

Definition answer (r : res (input * ctx)) : res outcome :=
  match r with
  | ROk (i, cx) => ROk (match cx_errs cx with [] => Code i cx | l => Errors l end)
  | RFuel => RFuel
  | RPanic s => RPanic s
  end.

Lemma attribute_start hash n args ps mo i : parse_args args = inr (ps, mo) ->
  attribute hash true n args i = answer (expand_input true (engine hash true n) i (start (enum_name (hash (NInput i))) (own_marker mo) ps [] VDefault)).
Proof. intros P. unfold attribute. rewrite (root_start _ _ _ _ P). reflexivity. Qed.

Theorem as_listed hash n args0 args1 ps mo i :
  parse_args args0 = inr (ps, mo) -> parse_args args1 = inr (ps ++ found ps i, mo) ->
  ~ (ps = [] /\ one_way (enum_name (hash (NInput i))) (own_marker mo) i) ->
  same_answer (match found ps i with [] => false | _ => true end) (attribute hash true n args0 i) (attribute hash true n args1 i).
Proof.
  intros P0 P1 OW. rewrite (attribute_start _ _ _ _ _ _ P0), (attribute_start _ _ _ _ _ _ P1). rewrite found_collect in *.
  set (own := enum_name (hash (NInput i))) in *. set (m := own_marker mo) in *.
  destruct i as [s|e|]; cbn [annotated_type] in *; try (rewrite app_nil_r; apply answer_refl).
  destruct s as [[a p t i d]|[a sg out b| |]| |]; cbn [annotated_type] in *; try (rewrite app_nil_r; apply answer_refl).
  - destruct t as [t|]; [|rewrite app_nil_r; apply answer_refl].
    destruct (collect_ty ps t) as [|q l] eqn:E; [rewrite app_nil_r; apply answer_refl|]. rewrite <- E.
    assert (NE : collect_ty ps t <> []) by (rewrite E; discriminate).
    destruct (let_agree hash n own m ps a p t i d NE OW) as (f & F & E0 & E1).
    cbn [expand_input expand_parent_stmt]. unfold bind. rewrite E0, E1, (F (Some t)).
    pose proof (F None) as F0.
    destruct (f None) as [[[a1 p1 t1 i1 d1] c1]| |]; cbn [rmap ret answer]; [|exact I|reflexivity].
    injection F0 as ->. cbn [Retag.rt cx_errs]. destruct (cx_errs c1); cbn; auto.
  - destruct out as [t|]; [|rewrite app_nil_r; apply answer_refl].
    destruct (collect_ty ps t) as [|q l] eqn:E; [rewrite app_nil_r; apply answer_refl|]. rewrite <- E.
    assert (NE : collect_ty ps t <> []) by (rewrite E; discriminate).
    cbn [expand_input expand_parent_stmt]. unfold bind. rewrite (fn_agree hash n own m ps a sg t b NE OW).
    destruct (expand_parent_item_fn true _ (Some t) b _) as [[b1 c1]| |]; cbn [rmap ret answer]; [|exact I|reflexivity].
    cbn [Retag.rt cx_errs]. destruct (cx_errs c1); cbn; auto.
Qed.

(** ** One way *)

Section OneWay.
  Variable hash : node -> N.
  Variable n : nat.
  Notation R := (engine hash true n).

  Lemma fn_one_way own m a sg t b :
    collect_ty [] t <> [] -> one_way own m (InStmt (SItem (IFn a sg (Some t) b))) ->
    exists cx1, expand_parent_item_fn true R (Some t) b (start own m [] [] VDefault) = mapM (r_dstmt R) b cx1
      /\ cx_errs cx1 = [] /\ cx_variants cx1 = [].
  Proof.
    intros NE OW. inversion OW as [a0 sg0 bs b0 b' NB C TB|]; subst. clear OW.
    set (P := start own m [] (collect_ty [] (TImpl bs)) (VReturn (returns m (body_exits false b)))).
    exists P. split; [|auto]. unfold expand_parent_item_fn. unfold bind at 1. rewrite fn_mode_run.
    unfold t_fn_mode. cbn [start cx_last]. rewrite (count_body_returns (start own m [] [] VDefault) b eq_refl).
    unfold bind at 1, fn_collect. unfold bind at 1, gets at 1, modify at 1. cbn [cx_args cx_traits set_mode start cx_marker].
    unfold collect_impl_trait.
    change (set_traits _ _) with P.
    unfold bind at 1, gets at 1.
    assert (D : is_dummy P = false) by (unfold is_dummy; cbn [P start cx_args cx_traits]; destruct (collect_ty [] (TImpl bs)); [congruence|reflexivity]).
    rewrite D. unfold bind at 1.
    assert (X : match b with [] => error ErrEmptyFn ;;; ret [] | _ => map_last_expr child_expr b end P = ROk (b, P)).
    { destruct b; [congruence|]. eapply (idle_body P); [exact TB|reflexivity]. }
    rewrite X. unfold bind at 1, gets at 1. unfold ta_dummy. cbn [P start cx_mode cx_args variant_is_empty cx_variants andb].
    apply Nat.ltb_lt in C. rewrite C. reflexivity.
  Qed.

  Lemma let_one_way own m a p t i d :
    collect_ty [] t <> [] -> one_way own m (InStmt (SLocal (Local a p (Some t) i d))) ->
    exists ca cs b cx1, i = Some (EClosure ca cs b)
      /\ expand_parent_local true R (Local a p (Some t) i d) (start own m [] [] VDefault)
         = (b' <- r_dexpr R b ;; e <- build build_expr (EClosure ca cs b') ;; ret (Local a p None (Some e) d)) cx1
      /\ cx_errs cx1 = [] /\ cx_variants cx1 = [] /\ cx_has_child cx1 = false /\ cx_last cx1 = LDefault.
  Proof.
    intros NE OW. inversion OW as [|a0 p0 t0 ca cs b b' d0 Q C TB]; subst. clear OW.
    set (P0 := start own m [] (collect_ty [] t) VDefault).
    set (P := set_mode (VReturn (returns m (exits false (Place false false) b))) P0).
    exists ca, cs, b, P. split; [reflexivity|]. split; [|auto].
    unfold expand_parent_local, local_ty. unfold bind at 1. unfold bind at 1, gets at 1. cbn [start cx_args cx_traits].
    unfold collect_impl_trait. cbn [app].
    assert (T : match collect_ty [] t with [] => false | _ => true end = true) by (destruct (collect_ty [] t); [congruence|reflexivity]).
    rewrite T. unfold bind at 1, modify at 1, ret at 1. change (set_traits _ _) with P0.
    unfold bind at 1, gets at 1.
    assert (D : is_dummy P0 = false) by (unfold is_dummy; cbn [P0 start cx_args cx_traits]; destruct (collect_ty [] t); [congruence|reflexivity]).
    rewrite D. unfold bind at 1, expand_expr. unfold bind at 1, gets at 1. change (visit_last P0) with true. cbv iota.
    unfold bind at 1, gets at 1.
    assert (EQ : fst (visit_fn_expr P0 b) = questions m (exits false (Place false false) b)) by (apply (proj1 (count_exits P0 eq_refl)); reflexivity).
    assert (ET : snd (visit_fn_expr P0 b) = returns m (exits false (Place false false) b)) by (apply (proj1 (count_returns P0 eq_refl)); reflexivity).
    rewrite EQ, ET. destruct (Nat.leb_spec 2 (questions m (exits false (Place false false) b))); [lia|].
    unfold bind at 1, modify at 1. change (set_mode _ P0) with P.
    unfold bind at 1, expand_body. unfold bind at 1.
    assert (X : child_expr b P = ROk (b, P)) by (eapply (idle_tail P); [exact TB|reflexivity]).
    rewrite X. unfold bind at 1, gets at 1. unfold ta_dummy at 1. cbn [P P0 set_mode start cx_mode cx_args variant_is_empty cx_variants andb].
    apply Nat.ltb_lt in C. rewrite C. fold P. unfold bind.
    destruct (r_dexpr R b P) as [[b1 c1]| |]; reflexivity.
  Qed.

  Theorem one_way_same args m i i' cx :
    parse_args args = inr ([], m) -> found [] i <> [] -> one_way (enum_name (hash (NInput i))) (own_marker m) i ->
    attribute hash true n args i = ROk (Code i' cx) -> same_input (without_type i) i' /\ cx_variants cx = [].
  Proof.
    intros HP NE OW. rewrite (attribute_start _ _ _ _ _ _ HP). rewrite found_collect in NE.
    set (own := enum_name (hash (NInput i))) in *. set (mm := own_marker m) in *.
    destruct i as [[[a p t i d]|[a sg out b| |]| |]|e|]; cbn [annotated_type] in NE; try congruence.
    - destruct t as [t|]; [|congruence]. destruct (let_one_way own mm a p t i d NE OW) as (ca & cs & b & cx1 & -> & E & E1 & E2 & _).
      cbn [expand_input expand_parent_stmt]. unfold bind at 1 2. rewrite E. unfold bind at 1.
      destruct (r_dexpr R b cx1) as [[b1 c1]| |] eqn:D; try discriminate.
      pose proof (proj1 (dummy_frame hash true n) b _ _ _ D) as [_ V]. rewrite E2 in V.
      unfold bind, build. destruct (has_error c1) eqn:HE.
      + cbn [ret answer]. unfold has_error in HE. destruct (cx_errs c1); [discriminate|]. discriminate.
      + rewrite V. cbn [List.length]. destruct (cx_has_child c1).
        * cbn [ret answer]. destruct (cx_errs c1); [|discriminate]. intros X. injection X as <- <-. split; [|exact V].
          constructor; [constructor; constructor; eapply (proj1 (dummy_same hash true n)); exact D|].
          destruct d; constructor; apply same_refl.
        * cbn. destruct (cx_errs c1); intros X; discriminate X.
    - destruct out as [t|]; [|congruence]. destruct (fn_one_way own mm a sg t b NE OW) as (cx1 & E & E1 & E2).
      cbn [expand_input expand_parent_stmt]. unfold bind at 1 2. rewrite E.
      destruct (mapM (r_dstmt R) b cx1) as [[b1 c1]| |] eqn:D; try discriminate. cbn [ret answer].
      destruct (cx_errs c1); [|discriminate]. intros X. injection X as <- <-. split.
      + constructor. eapply rel_stmts; [apply (dummy_same hash true n)|exact D].
      + rewrite <- E2. revert D. apply (pres_mapM_all (fun c c' => cx_variants c' = cx_variants c)); [reflexivity|congruence|].
        intros x c y c' Hx. apply (dummy_frame hash true n) in Hx. apply Hx.
  Qed.

  Theorem one_way_idle args m i o :
    parse_args args = inr ([], m) -> found [] i <> [] -> one_way (enum_name (hash (NInput i))) (own_marker m) i ->
    plain_input i = true -> attribute hash true n args i = ROk o ->
    match i with
    | InStmt (SLocal _) => o = Errors [ErrFewVariants false false] \/ exists cx, o = Code (without_type i) cx
    | _ => exists cx, o = Code i cx
    end.
  Proof.
    intros HP NE OW PL. rewrite (attribute_start _ _ _ _ _ _ HP). rewrite found_collect in NE.
    set (own := enum_name (hash (NInput i))) in *. set (mm := own_marker m) in *.
    destruct i as [[[a p t i d]|[a sg out b| |]| |]|e|]; cbn [annotated_type] in NE; try congruence; cbn [plain_input] in PL.
    - destruct t as [t|]; [|congruence]. destruct (let_one_way own mm a p t i d NE OW) as (ca & cs & b & cx1 & -> & E & E1 & E2 & E3 & E4).
      cbn [fold_local fold_opt] in PL. apply andb_true_iff in PL. destruct PL as [PL _].
      rewrite plain_expr_eq in PL. apply andb_true_iff in PL. destruct PL as [_ PL]. cbn [fold_expr] in PL.
      cbn [expand_input expand_parent_stmt]. unfold bind at 1 2. rewrite E. unfold bind at 1.
      destruct (r_dexpr R b cx1) as [[b1 c1]| |] eqn:D; try discriminate.
      pose proof (proj1 (dummy_frame hash true n) b _ _ _ D) as [(_ & L & _) V]. rewrite E2 in V. rewrite E4 in L.
      destruct (proj1 (dummy_idle hash true n) b _ _ _ PL D) as [-> EE]. rewrite E1 in EE.
      unfold bind, build, has_error, variant_is_empty. rewrite EE, V, L. cbn [List.length negb].
      destruct (cx_has_child c1); cbn; rewrite ?EE; cbn; intros X; injection X as <-; [right|left]; eauto.
    - destruct out as [t|]; [|congruence]. destruct (fn_one_way own mm a sg t b NE OW) as (cx1 & E & E1 & E2).
      cbn [expand_input expand_parent_stmt]. unfold bind at 1 2. rewrite E.
      destruct (mapM (r_dstmt R) b cx1) as [[b1 c1]| |] eqn:D; try discriminate. cbn [ret answer].
      eapply idle_mapM in D; [|apply (dummy_idle hash true n)|]; [|rewrite fold_list_forallb; exact PL].
      destruct D as [-> EE]. rewrite EE, E1. intros X. injection X as <-. eauto.
  Qed.
End OneWay.

(** ** Listing the traits *)

Lemma list_app l toks l2 toks2 : arg_list l toks -> arg_list l2 toks2 -> exists toks3, arg_list (l ++ l2) toks3.
Proof.
  intros H H2. induction H as [|x t W|x l t rest W H IH]; [eauto| |].
  - destruct l2 as [|y l2]; [exists t; apply al_one; exact W|]. exists (t ++ TkComma :: toks2). apply (al_cons x (y :: l2)); assumption.
  - destruct IH as (toks3 & IH). exists (t ++ TkComma :: toks3). cbn [app]. apply al_cons; assumption.
Qed.

Lemma list_plain l : Forall (fun q => exists ids, ids <> [] /\ q = plain_path ids) l -> exists toks, arg_list (map Trait l) toks.
Proof.
  induction 1 as [|q l (ids & N & ->) F (toks & IH)]; [exists []; constructor|].
  assert (W : exists t, segs_written ids t).
  { clear -N. induction ids as [|s ids IH]; [congruence|]. destruct ids as [|s2 ids]; [exists [TkIdent s]; constructor|].
    destruct IH as (t & IH); [discriminate|]. exists (TkIdent s :: TkColon2 :: t). constructor. exact IH. }
  destruct W as (t & W). exists (t ++ TkComma :: toks). cbn [map]. apply al_cons; [constructor; exact W|exact IH].
Qed.

Lemma found_plain ps i : Forall (fun q => exists ids, ids <> [] /\ q = plain_path ids) (found ps i).
Proof.
  unfold found. destruct (annotated_type i) as [t|]; [|constructor]. apply Forall_forall. intros q H.
  apply in_flat_map in H. destruct H as (bs & _ & H). apply filter_In in H. destruct H as [H W].
  unfold bounds_traits in H. apply in_flat_map in H. destruct H as ([p|] & _ & H); [|contradiction].
  destruct H as [<-|[]]. exists (path_ids p). split; [|reflexivity]. intros E. rewrite E in W. vm_compute in W. discriminate W.
Qed.

Theorem can_be_listed args ps m i : parse_args args = inr (ps, m) -> exists args1, parse_args args1 = inr (ps ++ found ps i, m).
Proof.
  intros H. apply parse_args_grammar in H. destruct H as (l & AL & T & M).
  destruct (list_plain _ (found_plain ps i)) as (t2 & A2). destruct (list_app _ _ _ _ AL A2) as (t3 & A3).
  exists t3. apply parse_args_grammar. exists (l ++ map Trait (found ps i)). split; [exact A3|].
  assert (X : forall l, traits_of (map Trait l) = l /\ markers_of (map Trait l) = []).
  { induction l0 as [|q l0 [I1 I2]]; [auto|]. cbn. unfold traits_of, markers_of in *. rewrite I1. auto. }
  destruct (X (found ps i)) as [X1 X2].
  unfold traits_of, markers_of in *. rewrite !flat_map_app, T, M, X1, X2, app_nil_r. auto.
Qed.
