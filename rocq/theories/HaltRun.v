(** The expansion ends without panic on every syntax tree that Rust's grammar can produce. *)

Require Import Coq.Strings.String Coq.Lists.List Coq.Bool.Bool Coq.Arith.Arith Coq.NArith.NArith Lia.
Require Import Verif.Syntax Verif.Context Verif.ExprModel Verif.TypeAnalysis Verif.AutoEnum.
Require Import Verif.AstInd Verif.Edits Verif.AttrFold Verif.RunLemmas Verif.EditsRun Verif.Frame.
Require Import Verif.VisitRun Verif.EngineRun Verif.Grammar Verif.Halt.
Import ListNotations.
Open Scope string_scope.
Open Scope list_scope.

(** ** Measures *)

(** The attributes whose removal makes the visitors look at a node again. *)
Definition restarts (x : attr) : bool :=
  is_ident (attr_path x) NAME || is_ident (attr_path x) NESTED.
Definition count_restarts (a : list attr) : nat := length (filter restarts a).

Definition k_expr : expr -> nat := af_expr Nat.add 0 count_restarts.
Definition k_stmt : stmt -> nat := af_stmt Nat.add 0 count_restarts.
Definition k_arm : arm -> nat := af_arm Nat.add 0 count_restarts.
Definition k_local : local -> nat := af_local Nat.add 0 count_restarts.

(** Room for the code that replaces a [?] or a [return]. *)
Definition bonus (e : expr) : nat :=
  match e with ETry _ _ => 100 | EReturn _ _ => 40 | _ => 1 end.

Fixpoint w_expr (e : expr) : nat :=
  bonus e + fold_expr Nat.add 0 w_expr w_stmt w_arm e
with w_stmt (s : stmt) : nat := 1 + fold_stmt 0 w_expr w_local s
with w_arm (x : arm) : nat := 1 + fold_arm Nat.add 0 w_expr x
with w_local (x : local) : nat := 1 + fold_local Nat.add 0 w_expr x.

(** The weight of the children. *)
Definition i_expr (e : expr) : nat := fold_expr Nat.add 0 w_expr w_stmt w_arm e.

Lemma i_less e : i_expr e < w_expr e.
Proof. unfold i_expr. destruct e; cbn [w_expr bonus]; lia. Qed.

Lemma count_drops a a' : drops_attr a a' -> count_restarts a' <= count_restarts a.
Proof.
  intros (l & x & r & -> & -> & _). unfold count_restarts.
  rewrite !filter_app, !app_length. cbn. destruct (restarts x); cbn; lia.
Qed.

Lemma count_find n a x a' :
  n = NAME \/ n = NESTED -> find_remove_attr a n = Some (x, a') -> count_restarts a' < count_restarts a.
Proof.
  intros HN H. apply find_remove_split in H. destruct H as (l & r & -> & -> & E & _).
  unfold count_restarts. rewrite !filter_app, !app_length. cbn.
  replace (restarts x) with true; [cbn; lia|]. unfold restarts.
  destruct HN; subst; rewrite E; [reflexivity|]. symmetry. apply orb_true_r.
Qed.

Lemma k_edit mk :
    (forall t e e', ed_expr mk t e e' -> k_expr e' <= k_expr e)
    /\ (forall t l l', ed_exprs mk t l l' ->
          fold_list Nat.add 0 k_expr l' <= fold_list Nat.add 0 k_expr l)
    /\ (forall t o o', ed_opt mk t o o' -> fold_opt 0 k_expr o' <= fold_opt 0 k_expr o)
    /\ (forall t s s', ed_stmt mk t s s' -> k_stmt s' <= k_stmt s)
    /\ (forall t l l', ed_stmts mk t l l' ->
          fold_list Nat.add 0 k_stmt l' <= fold_list Nat.add 0 k_stmt l)
    /\ (forall t x x', ed_arm mk t x x' -> k_arm x' <= k_arm x)
    /\ (forall t l l', ed_arms mk t l l' ->
          fold_list Nat.add 0 k_arm l' <= fold_list Nat.add 0 k_arm l)
    /\ (forall t x x', ed_local mk t x x' -> k_local x' <= k_local x).
Proof.
  apply (af_edit Nat.add 0 count_restarts le); auto; try (intros; lia).
  apply count_drops.
Qed.

Lemma k_set_attrs e a' :
  count_restarts a' < count_restarts (e_attrs e) -> k_expr (set_attrs e a') < k_expr e.
Proof.
  intros H. unfold k_expr. destruct e; cbn [set_attrs af_expr e_attrs fold_expr] in *;
    try (apply Nat.add_lt_mono_r; assumption).
  cbn in H. lia.
Qed.

Lemma fold_list_in {A} (f : A -> nat) l x : In x l -> f x <= fold_list Nat.add 0 f l.
Proof.
  induction l as [|y r IH]; cbn; intros H; [contradiction|].
  change (fold_right (fun x r => f x + r) 0 r) with (fold_list Nat.add 0 f r).
  destruct H; [subst; lia|]. specialize (IH H). lia.
Qed.

Lemma k_unfold e :
  fold_expr Nat.add 0 k_expr k_stmt k_arm e <= k_expr e.
Proof. destruct e; unfold k_expr; cbn [af_expr fold_expr]; apply Nat.le_add_l || apply Nat.le_0_l. Qed.

Lemma k_arm_eq a p g b c : k_arm (Arm a p g b c) = count_restarts a + (fold_opt 0 k_expr g + k_expr b).
Proof. reflexivity. Qed.
Lemma k_local_eq a p t i d :
  k_local (Local a p t i d) = count_restarts a + (fold_opt 0 k_expr i + fold_opt 0 k_expr d).
Proof. reflexivity. Qed.
Lemma k_stmt_local l : k_stmt (SLocal l) = k_local l.
Proof. reflexivity. Qed.
Lemma k_stmt_expr e b : k_stmt (SExpr e b) = k_expr e.
Proof. reflexivity. Qed.
Lemma w_arm_eq a p g b c : w_arm (Arm a p g b c) = 1 + (fold_opt 0 w_expr g + w_expr b).
Proof. reflexivity. Qed.
Lemma w_local_eq a p t i d :
  w_local (Local a p t i d) = 1 + (fold_opt 0 w_expr i + fold_opt 0 w_expr d).
Proof. reflexivity. Qed.
Lemma w_stmt_local l : w_stmt (SLocal l) = 1 + w_local l.
Proof. reflexivity. Qed.
Lemma w_stmt_expr e b : w_stmt (SExpr e b) = 1 + w_expr e.
Proof. reflexivity. Qed.

(** Children are smaller. *)

Lemma all_children (Pe : expr -> Prop) (Ps : stmt -> Prop) (Pa : arm -> Prop) k w e :
  (forall x, wf_expr x = true -> k_expr x <= k -> w_expr x < w -> Pe x) ->
  (forall x, wf_stmt x = true -> k_stmt x <= k -> w_stmt x < w -> Ps x) ->
  (forall x, wf_arm x = true -> k_arm x <= k -> w_arm x < w -> Pa x) ->
  wf_expr e = true -> k_expr e <= k -> i_expr e < w ->
  fold_expr and True Pe Ps Pa e.
Proof.
  intros He Hs Ha WF HK HW.
  assert (Le : forall l, fold_list andb true wf_expr l = true -> fold_list Nat.add 0 k_expr l <= k ->
                 fold_list Nat.add 0 w_expr l < w -> fold_list and True Pe l).
  { intros l W0 K0 W1. apply fold_list_and, Forall_forall. intros x Hx.
    rewrite fold_list_forallb in W0. rewrite forallb_forall in W0.
    pose proof (fold_list_in k_expr l x Hx). pose proof (fold_list_in w_expr l x Hx).
    apply He; [auto|lia|lia]. }
  assert (Ls : forall l, fold_list andb true wf_stmt l = true -> fold_list Nat.add 0 k_stmt l <= k ->
                 fold_list Nat.add 0 w_stmt l < w -> fold_list and True Ps l).
  { intros l W0 K0 W1. apply fold_list_and, Forall_forall. intros x Hx.
    rewrite fold_list_forallb in W0. rewrite forallb_forall in W0.
    pose proof (fold_list_in k_stmt l x Hx). pose proof (fold_list_in w_stmt l x Hx).
    apply Hs; [auto|lia|lia]. }
  assert (La : forall l, fold_list andb true wf_arm l = true -> fold_list Nat.add 0 k_arm l <= k ->
                 fold_list Nat.add 0 w_arm l < w -> fold_list and True Pa l).
  { intros l W0 K0 W1. apply fold_list_and, Forall_forall. intros x Hx.
    rewrite fold_list_forallb in W0. rewrite forallb_forall in W0.
    pose proof (fold_list_in k_arm l x Hx). pose proof (fold_list_in w_arm l x Hx).
    apply Ha; [auto|lia|lia]. }
  assert (Oe : forall o, fold_opt true wf_expr o = true -> fold_opt 0 k_expr o <= k ->
                 fold_opt 0 w_expr o < w -> fold_opt True Pe o).
  { intros [x|]; cbn; auto. }
  pose proof (k_unfold e) as HK'. unfold i_expr in HW.
  destruct e; cbn [fold_expr];
    cbn [wf_expr fold_expr] in WF, HK', HW;
    rewrite ?andb_true_iff in WF;
    repeat match goal with HH : _ /\ _ |- _ => destruct HH end;
    repeat match goal with |- _ /\ _ => split end;
    solve [ exact I
          | apply Le; [assumption|lia|lia] | apply Ls; [assumption|lia|lia]
          | apply La; [assumption|lia|lia] | apply Oe; [assumption|lia|lia]
          | apply He; [assumption|lia|lia] ].
Qed.

Lemma all_children_arm (Pe : expr -> Prop) k w x :
  (forall x, wf_expr x = true -> k_expr x <= k -> w_expr x < w -> Pe x) ->
  wf_arm x = true -> k_arm x <= k -> w_arm x <= w -> fold_arm and True Pe x.
Proof.
  intros He WF HK HW. destruct x as [a p g b c]. rewrite k_arm_eq in HK. rewrite w_arm_eq in HW.
  cbn [wf_arm fold_arm] in *.
  apply andb_prop in WF. destruct WF as [W1 W2].
  split; [destruct g; cbn [fold_opt] in *; [|exact I]|]; apply He; auto; lia.
Qed.

Lemma all_children_local (Pe : expr -> Prop) k w x :
  (forall x, wf_expr x = true -> k_expr x <= k -> w_expr x < w -> Pe x) ->
  wf_local x = true -> k_local x <= k -> w_local x <= w -> fold_local and True Pe x.
Proof.
  intros He WF HK HW. destruct x as [a p t i d]. rewrite k_local_eq in HK. rewrite w_local_eq in HW.
  cbn [wf_local fold_local] in *.
  apply andb_prop in WF. destruct WF as [W1 W2].
  split; [destruct i|destruct d]; cbn [fold_opt] in *; try exact I; apply He; auto; lia.
Qed.

(** ** The trivial instance of the edit theorems *)

(** Every name counts as a marker, every argument is allowed. *)
Definition every : string -> bool := fun _ => true.
#[global] Instance anything : Cfg := MkCfg (fun _ => True) True.

Lemma nok_any l : nok every l.
Proof.
  apply Forall_all. intros [ps [m|]]; repeat split.
Qed.

Section Halts.
  Variable hash : node -> N.
  Variable ta : bool.
  Notation eng n := (engine hash ta n).

  Lemma eng_good n : engine_good every (eng n).
  Proof. apply engine_is_good. reflexivity. Qed.

  Definition h_vexpr (e : expr) : Prop := forall sc b cx, halts (fun n => r_vexpr (eng n) sc b e) cx.
  Definition h_vstmt (s : stmt) : Prop := forall sc cx, halts (fun n => r_vstmt (eng n) sc s) cx.
  Definition h_varm (x : arm) : Prop := forall sc cx, halts (fun n => r_varm (eng n) sc x) cx.
  Definition h_vlocal (x : local) : Prop := forall sc cx, halts (fun n => r_vlocal (eng n) sc x) cx.
  Definition h_dexpr (e : expr) : Prop := forall cx, halts (fun n => r_dexpr (eng n) e) cx.
  Definition h_dstmt (s : stmt) : Prop := forall cx, halts (fun n => r_dstmt (eng n) s) cx.

  (** Everything of a measure up to [k], [w] is visited in finitely many steps. *)
  Record all_halt (k w : nat) : Prop := AllHalt {
    ah_e : forall e, wf_expr e = true -> k_expr e <= k -> w_expr e <= w -> h_vexpr e /\ h_dexpr e;
    ah_s : forall s, wf_stmt s = true -> k_stmt s <= k -> w_stmt s <= w -> h_vstmt s /\ h_dstmt s;
    ah_a : forall x, wf_arm x = true -> k_arm x <= k -> w_arm x <= w -> h_varm x;
    ah_l : forall x, wf_local x = true -> k_local x <= k -> w_local x <= w -> h_vlocal x
  }.

  (** ** Expanding in a fresh context *)

  Section Fresh.
    Variable k : nat.
    Hypothesis IH : forall w, all_halt k w.

    Lemma fresh_v e : wf_expr e = true -> k_expr e <= k -> h_vexpr e.
    Proof. intros. apply (ah_e k (w_expr e) (IH _)); auto. Qed.
    Lemma fresh_d e : wf_expr e = true -> k_expr e <= k -> h_dexpr e.
    Proof. intros. apply (ah_e k (w_expr e) (IH _)); auto. Qed.
    Lemma fresh_vs e : wf_stmt e = true -> k_stmt e <= k -> h_vstmt e.
    Proof. intros. apply (ah_s k (w_stmt e) (IH _)); auto. Qed.
    Lemma fresh_ds e : wf_stmt e = true -> k_stmt e <= k -> h_dstmt e.
    Proof. intros. apply (ah_s k (w_stmt e) (IH _)); auto. Qed.

    Lemma child_keeps e cx e' cx' :
      child_expr e cx = ROk (e', cx') -> wf_expr e = true -> wf_expr e' = true /\ k_expr e' <= k_expr e.
    Proof.
      intros H W. destruct (child_expr_good every e _ _ _ H eq_refl (nok_any _)) as (t & R & _).
      split; [apply (proj1 (wf_edit every) _ _ _ R); assumption|apply (proj1 (k_edit every) _ _ _ R)].
    Qed.

    Lemma halts_body e cx :
      wf_expr e = true -> k_expr e <= k -> halts (fun n => expand_body ta (eng n) e) cx.
    Proof.
      intros W HK. unfold expand_body. hbind; [apply tot_halts, child_expr_tot; assumption|].
      intros _ e' cx1 H. destruct (child_keeps _ _ _ _ H W) as [W' K'].
      hbind; [apply halts_gets|]. intros _ d cx2 _. destruct d.
      - apply fresh_d; [assumption|lia].
      - apply fresh_v; [assumption|lia].
    Qed.

    Lemma halts_expand_expr e cx :
      wf_expr e = true -> k_expr e <= k -> halts (fun n => expand_expr ta (eng n) e) cx.
    Proof.
      intros W HK. unfold expand_expr. hbind; [apply halts_gets|]. intros _ vl cx1 _.
      destruct e; try (apply halts_body; assumption).
      destruct vl; [|apply halts_body; assumption].
      hbind; [apply halts_gets|]. intros _ c cx2 _. hbind; [apply halts_modify|]. intros _ u cx3 _.
      hbind; [|intros; apply halts_ret].
      apply halts_body; [exact W|]. pose proof (k_unfold (EClosure a params e)) as U.
      cbn [fold_expr] in U. lia.
    Qed.

    Lemma tot_build {A} (f : genum -> A -> A) x : tot (build f x).
    Proof.
      intros cx. unfold build. destruct (has_error cx); [eexists _, _; reflexivity|].
      destruct (length (cx_variants cx)) as [|[|n]]; [destruct (cx_has_child cx)| |];
        eexists _, _; reflexivity.
    Qed.

    Lemma halts_dummy_args cx :
      is_dummy cx = true ->
      halts (fun _ => massert (fun cx => match cx_args cx with [] => true | _ => false end) "dummy: args") cx.
    Proof.
      intros H. eapply halts_const. unfold massert. unfold is_dummy in H.
      destruct (cx_args cx); [reflexivity|discriminate].
    Qed.

    Lemma halts_parent_expr e b cx :
      wf_expr e = true -> k_expr e <= k -> halts (fun n => expand_parent_expr ta (eng n) e b) cx.
    Proof.
      intros W HK. unfold expand_parent_expr.
      hbind; [destruct b; [apply halts_modify|apply halts_ret]|]. intros _ u cx1 _.
      hbind; [apply halts_gets|]. intros _ d cx2 H. apply gets_ok in H. destruct H as [-> ->].
      destruct (is_dummy cx1) eqn:E.
      - hbind; [apply halts_dummy_args; assumption|]. intros _ v cx2 H.
        apply massert_ok in H. destruct H as (_ & _ & ->). apply fresh_d; assumption.
      - hbind; [apply halts_expand_expr; assumption|]. intros _ e' cx3 _. apply tot_halts, tot_build.
    Qed.

    Lemma tot_local_ty t : tot (local_ty ta t).
    Proof.
      unfold local_ty. destruct ta; [|apply tot_ret]. destruct t as [t|]; [|apply tot_ret].
      apply tot_bind; [apply tot_gets|]. intros [tr f]. repeat totstep.
    Qed.

    Lemma halts_parent_local x cx :
      wf_local x = true -> k_local x <= k -> halts (fun n => expand_parent_local ta (eng n) x) cx.
    Proof.
      intros W HK. destruct x as [a p t i d]. cbn [expand_parent_local].
      hbind; [apply tot_halts, tot_local_ty|]. intros _ t' cx1 _.
      hbind; [apply halts_gets|]. intros _ dm cx2 H. apply gets_ok in H. destruct H as [-> ->].
      destruct (is_dummy cx1) eqn:E.
      - hbind; [apply halts_dummy_args; assumption|]. intros _ v cx2 _.
        apply halts_walk_local.
        apply (all_children_local _ k (w_local (Local a p t' i d))); auto.
        intros x WX KX _. apply fresh_d; assumption.
      - destruct i as [e|].
        + cbn [wf_local fold_local fold_opt] in W. apply andb_prop in W. destruct W as [W _].
          rewrite k_local_eq in HK. cbn [fold_opt] in HK.
          hbind; [apply halts_expand_expr; [assumption|lia]|]. intros _ e' cx3 _.
          hbind; [apply tot_halts, tot_build|]. intros. apply halts_ret.
        + apply tot_halts. repeat totstep.
    Qed.

    Lemma halts_parent_fn out b cx :
      wf_block b = true -> fold_list Nat.add 0 k_stmt b <= k ->
      halts (fun n => expand_parent_item_fn ta (eng n) out b) cx.
    Proof.
      intros W HK. unfold expand_parent_item_fn.
      assert (T1 : tot (fn_mode out b)).
      { unfold fn_mode. apply tot_bind; [apply tot_gets|]. intros vl. destruct vl; [|apply tot_ret].
        destruct out as [[]|]; repeat totstep; destruct (is_result_impl _); repeat totstep. }
      assert (T2 : tot (fn_collect ta out)).
      { unfold fn_collect. destruct ta; [|apply tot_ret]. destruct out; [|apply tot_ret].
        apply tot_bind; [apply tot_gets|]. intros []. apply tot_modify. }
      assert (EX : forall b, wf_block b = true -> fold_list Nat.add 0 k_stmt b <= k ->
                 Forall (fun x => wf_stmt x = true /\ k_stmt x <= k) b).
      { clear. intros b W HK. apply Forall_forall. intros x Hx.
        pose proof (fold_list_in k_stmt b x Hx). unfold wf_block in W. rewrite forallb_forall in W.
        split; [auto|lia]. }
      assert (D : forall b cx, wf_block b = true -> fold_list Nat.add 0 k_stmt b <= k ->
                 halts (fun n => mapM (r_dstmt (eng n)) b) cx).
      { intros b0 cx0 W0 K0. apply halts_mapM. eapply Forall_impl; [|apply EX; eassumption].
        intros x [W1 K1]. apply fresh_ds; assumption. }
      assert (Vv : forall b cx, wf_block b = true -> fold_list Nat.add 0 k_stmt b <= k ->
                 halts (fun n => mapM (r_vstmt (eng n) scope0) b) cx).
      { intros b0 cx0 W0 K0. apply (halts_mapM (fun n => r_vstmt (eng n) scope0)).
        eapply Forall_impl; [|apply EX; eassumption].
        intros x [W1 K1] cx1. apply fresh_vs; assumption. }
      hbind; [apply tot_halts, T1|]. intros _ u1 cx1 _. hbind; [apply tot_halts, T2|]. intros _ u2 cx2 _.
      hbind; [apply halts_gets|]. intros _ dm cx3 H. apply gets_ok in H. destruct H as [-> ->].
      destruct (is_dummy cx2) eqn:E.
      - hbind; [apply halts_dummy_args; assumption|]. intros _ v cx3 _. apply D; assumption.
      - hbind.
        + apply tot_halts. destruct b as [|s r]; [repeat totstep|]. apply map_last_tot.
          eapply Forall_impl; [|apply (EX (s :: r)); assumption].
          intros x [W1 _]. destruct x as [| |e [|]|]; auto. apply child_expr_tot. exact W1.
        + intros _ b' cx3 H.
          assert (S1 : exists t, ed_stmts every t b b').
          { destruct b as [|s r]; [minv; exists []; constructor|].
            destruct (map_last_good every child_expr (s :: r)
                        ltac:(apply Forall_all; intros [| |? []|]; auto; apply child_expr_good)
                        _ _ _ H eq_refl (nok_any _)) as (t & R & _).
            exists t. exact R. }
          destruct S1 as (t & R).
          destruct (wf_edit every) as (_ & _ & _ & _ & WS & _).
          destruct (k_edit every) as (_ & _ & _ & _ & KS & _).
          specialize (WS _ _ _ R). specialize (KS _ _ _ R). unfold wf_block in *.
          rewrite <- !fold_list_forallb in *. specialize (WS W).
          hbind; [apply halts_gets|]. intros _ d cx4 _. rewrite fold_list_forallb in WS. destruct d.
          * apply D; [exact WS|lia].
          * hbind; [apply Vv; [exact WS|lia]|]. intros. apply tot_halts, tot_build.
    Qed.

    Lemma halts_parent_stmt s cx :
      wf_stmt s = true -> k_stmt s <= k -> no_item s = true ->
      halts (fun n => expand_parent_stmt ta (eng n) s) cx.
    Proof.
      intros W HK NI. destruct s; try discriminate NI; cbn [expand_parent_stmt].
      - hbind; [apply halts_parent_local; assumption|]. intros. apply halts_ret.
      - hbind; [apply halts_parent_expr; assumption|]. intros. apply halts_ret.
      - apply halts_ret.
    Qed.
  End Fresh.

  (** ** One step *)

  Lemma halts_in_child {A} (child : ctx) (f : nat -> M A) cx :
    halts f child -> cx_markers cx = [] -> halts (fun n => in_child child (f n)) cx.
  Proof.
    intros (N & a & c' & H) M0. unfold in_child.
    eexists N, a, _. intros n L. rewrite H by assumption.
    unfold join_child, bind, massert, modify, ret. rewrite M0. reflexivity.
  Qed.

  Lemma halts_make_child i toks cx : cx_has_child cx = true -> halts (fun _ => make_child i toks) cx.
  Proof.
    intros H. eapply halts_const. unfold make_child, bind, massert. rewrite H. reflexivity.
  Qed.

  (** The fields of a visitor only make edits. *)
  Definition vis_ok (V : nat -> vis) : Prop :=
    (forall n e, good every (ed_expr every) names_expr (on_expr (V n)) e)
    /\ (forall n e, good every (ed_stmt every) names_stmt (on_stmt (V n)) e)
    /\ (forall n e, good every (ed_arm every) names_arm (on_arm (V n)) e)
    /\ (forall n e, good every (ed_local every) names_local (on_local (V n)) e).

  Lemma v_vis_ok sc : vis_ok (fun n => v_vis (eng n) sc).
  Proof.
    unfold vis_ok. repeat split; intros n; apply (vis_good every (eng n) (eng_good n) sc).
  Qed.
  Lemma d_vis_ok : vis_ok (fun n => d_vis (eng n)).
  Proof.
    unfold vis_ok. repeat split; intros n; apply (dvis_good every (eng n) (eng_good n)).
  Qed.

  Section Step.
    Variables k w : nat.
    Hypothesis IHk : forall k' w', k' < k -> all_halt k' w'.
    Hypothesis IHw : forall w', w' < w -> all_halt k w'.

    Lemma lower k' : k' < k -> forall w', all_halt k' w'.
    Proof. auto. Qed.

    (** The children of a node are visited in finitely many steps. *)
    Lemma kids_v sc e :
      wf_expr e = true -> (k_expr e <= k /\ i_expr e < w \/ k_expr e < k) ->
      forall cx, halts (fun n => walk_expr (v_vis (eng n) sc) e) cx.
    Proof.
      intros W HM. apply (halts_walk_expr (fun n => v_vis (eng n) sc)). cbn.
      destruct HM as [[HK HW]|HK].
      - apply (all_children _ _ _ k w); auto; intros x WX KX LX cx.
        + apply (ah_e k (w_expr x) (IHw _ LX)); auto.
        + apply (ah_s k (w_stmt x) (IHw _ LX)); auto.
        + apply (ah_a k (w_arm x) (IHw _ LX)); auto.
      - apply (all_children _ _ _ (k_expr e) (w_expr e)); auto using i_less; intros x WX KX LX cx.
        + apply (ah_e (k_expr e) (w_expr x) (IHk _ _ HK)); auto.
        + apply (ah_s (k_expr e) (w_stmt x) (IHk _ _ HK)); auto.
        + apply (ah_a (k_expr e) (w_arm x) (IHk _ _ HK)); auto.
    Qed.

    Lemma kids_d e :
      wf_expr e = true -> (k_expr e <= k /\ i_expr e < w \/ k_expr e < k) ->
      forall cx, halts (fun n => walk_expr (d_vis (eng n)) e) cx.
    Proof.
      intros W HM. apply (halts_walk_expr (fun n => d_vis (eng n))). cbn.
      destruct HM as [[HK HW]|HK].
      - apply (all_children _ _ _ k w); auto; intros x WX KX LX cx.
        + apply (ah_e k (w_expr x) (IHw _ LX)); auto.
        + apply (ah_s k (w_stmt x) (IHw _ LX)); auto.
        + apply halts_walk_arm. apply (all_children_arm _ k (w_arm x)); auto.
          intros y WY KY LY cx0. apply (ah_e k (w_arm x) (IHw _ LX)); auto. lia.
      - apply (all_children _ _ _ (k_expr e) (w_expr e)); auto using i_less; intros x WX KX LX cx.
        + apply (ah_e (k_expr e) (w_expr x) (IHk _ _ HK)); auto.
        + apply (ah_s (k_expr e) (w_stmt x) (IHk _ _ HK)); auto.
        + apply halts_walk_arm. apply (all_children_arm _ (k_expr e) (w_arm x)); auto.
          intros y WY KY LY cx0. apply (ah_e (k_expr e) (w_expr y) (IHk _ _ HK)); auto.
    Qed.

    Lemma halts_vs_expr (V : nat -> vis) e b cx :
      vis_ok V ->
      (forall e', wf_expr e' = true -> (k_expr e' <= k /\ i_expr e' < w \/ k_expr e' < k) ->
        forall cx, halts (fun n => walk_expr (V n) e') cx) ->
      wf_expr e = true -> (k_expr e <= k /\ i_expr e < w \/ k_expr e < k) ->
      (any_attr (e_attrs e) NAME = true -> cx_has_child cx = true) ->
      halts (fun n => vs_visit_expr hash ta (eng n) (V n) e b) cx.
    Proof.
      intros (Ge & Gs & Ga & Gl) HV W HM HC. unfold vs_visit_expr.
      destruct (find_remove_attr (e_attrs e) NAME) as [[x a']|] eqn:FR; [|apply HV; assumption].
      specialize (HC (any_attr_some _ _ _ _ FR)).
      assert (KL : k_expr (set_attrs e a') < k_expr e)
        by (apply k_set_attrs; eapply count_find; [|eassumption]; auto).
      assert (W1 : wf_expr (set_attrs e a') = true).
      { apply (proj1 (wf_edit every) [] e (set_attrs e a')); [|assumption]. apply ee_attr.
        eapply find_remove_drops; [apply helper_name|eassumption]. }
      assert (KK : k_expr (set_attrs e a') < k) by (destruct HM as [[]|]; lia).
      cbn zeta.
      hbind; [destruct x; [apply halts_ret|apply halts_make_child; assumption|apply halts_ret]|].
      intros _ r cx1 H1.
      hbind; [apply HV; auto|]. intros n1 e1 cx2 H2.
      destruct (walk_good every (V n1) (set_attrs e a') (Ge n1) (Gs n1) (Ga n1) _ _ _ H2 eq_refl (nok_any _))
        as (t & R & X).
      destruct r as [er|child]; [apply tot_halts; repeat totstep|].
      assert (CX : cx1 = set_errs [] (set_markers [] cx)).
      { destruct x; [minv; discriminate|apply make_child_ok in H1; apply H1|minv; discriminate]. }
      subst cx1. apply halts_in_child.
      - apply (halts_parent_expr (k_expr (set_attrs e a')) (lower _ KK)).
        + apply (proj1 (wf_edit every) _ _ _ R); assumption.
        + apply (proj1 (k_edit every) _ _ _ R).
      - destruct (b_markers _ _ (x_base _ _ _ X)) as [M0|[M0 _]]; exact M0.
    Qed.

    Lemma halts_vs_stmt (V : nat -> vis) s cx :
      vis_ok V ->
      (forall e', wf_expr e' = true -> (k_expr e' <= k /\ i_expr e' < w \/ k_expr e' < k) ->
        forall cx, halts (fun n => walk_expr (V n) e') cx) ->
      (forall x, wf_local x = true -> (k_local x <= k /\ w_local x < w \/ k_local x < k) ->
        forall cx, halts (fun n => on_local (V n) x) cx) ->
      wf_stmt s = true -> k_stmt s <= k -> w_stmt s <= w ->
      (any_attr (s_attrs s) NAME = true -> cx_has_child cx = true) ->
      halts (fun n => vs_visit_stmt hash ta (eng n) (V n) s) cx.
    Proof.
      intros G HV HL W HK HW HC. destruct s as [[a p t i d]|it|e semi|a m semi]; cbn [vs_visit_stmt].
      - destruct (find_remove_attr a NAME) as [[x a']|] eqn:FR.
        + cbn [s_attrs] in HC. specialize (HC (any_attr_some _ _ _ _ FR)).
          assert (KL : k_local (Local a' p t i d) < k_local (Local a p t i d)).
          { pose proof (count_find NAME _ _ _ (or_introl eq_refl) FR) as C. rewrite !k_local_eq. lia. }
          assert (W1 : wf_local (Local a' p t i d) = true) by exact W.
          assert (KK : k_local (Local a' p t i d) < k).
          { rewrite k_stmt_local in HK. lia. }
          hbind; [destruct x; [apply halts_make_child; assumption|apply halts_make_child; assumption|apply halts_ret]|].
          intros _ r cx1 H1. cbn [walk_stmt]. hbind.
          { hbind; [apply HL; auto|]. intros. apply halts_ret. }
          intros n1 s1 cx2 H2. apply bind_ok in H2. destruct H2 as (l1 & cx2' & H2 & H3). minv.
          destruct G as (_ & _ & _ & Gl).
          destruct (Gl n1 (Local a' p t i d) _ _ _ H2 eq_refl (nok_any _)) as (tr & R & X).
          destruct r as [er|child]; [apply tot_halts; repeat totstep|].
          assert (CX : cx1 = set_errs [] (set_markers [] cx)).
          { destruct x; [apply make_child_ok in H1; apply H1|apply make_child_ok in H1; apply H1
                        |minv; discriminate]. }
          subst cx1. apply halts_in_child.
          * apply (halts_parent_stmt (k_local (Local a' p t i d)) (lower _ KK)); [| |reflexivity].
            -- destruct (wf_edit every) as (_ & _ & _ & _ & _ & _ & _ & WL). exact (WL _ _ _ R W1).
            -- destruct (k_edit every) as (_ & _ & _ & _ & _ & _ & _ & KE). exact (KE _ _ _ R).
          * destruct (b_markers _ _ (x_base _ _ _ X)) as [M0|[M0 _]]; exact M0.
        + cbn [walk_stmt]. hbind; [|intros; apply halts_ret]. apply HL; [exact W|]. left.
          rewrite k_stmt_local in HK. rewrite w_stmt_local in HW. lia.
      - apply halts_ret.
      - hbind; [|intros; apply halts_ret]. apply halts_vs_expr; auto. left.
        rewrite k_stmt_expr in HK. rewrite w_stmt_expr in HW. pose proof (i_less e). lia.
      - apply halts_ret.
    Qed.

    Lemma halts_unless {A} (x : A) (m : nat -> M A) cx :
      (cx_errs cx = [] -> halts m cx) -> halts (fun n => unless_error x (m n)) cx.
    Proof.
      intros H. unfold unless_error. hbind; [apply halts_gets|]. intros _ bad cx1 HG.
      apply gets_ok in HG. destruct HG as [-> ->]. unfold has_error.
      destruct (cx_errs cx); [auto|apply halts_ret].
    Qed.

    Lemma tot_visit_return sc e : tot (visit_return sc e).
    Proof.
      unfold visit_return. destruct (_ && _); [|apply tot_ret]. destruct e; repeat totstep.
    Qed.
    Lemma tot_visit_try sc e : tot (visit_try sc e).
    Proof.
      unfold visit_try. destruct (_ && _); [|apply tot_ret]. destruct e; repeat totstep.
    Qed.



    Lemma tot_find_remove sc a : tot (find_remove_attrs sc a).
    Proof.
      unfold find_remove_attrs. destruct (sc_foreign sc); [apply tot_ret|]. apply tot_bind.
      - destruct (find_remove_attr a NEVER) as [[x a']|]; repeat totstep.
      - intros a1. destruct (find_remove_attr a1 REC) as [[x a']|]; repeat totstep.
    Qed.

    Lemma nested_halts sc e x cx :
      sc_foreign sc = false -> wf_expr e = true -> halts (fun _ => visit_nested sc e x) cx.
    Proof.
      intros F W. apply tot_halts. unfold visit_nested. apply tot_bind.
      - intros c. unfold massert. rewrite F. eexists _, _. reflexivity.
      - intros _. destruct (is_path_only x); [apply child_expr_tot; assumption|repeat totstep].
    Qed.

    Lemma visit_return_i sc e cx e' cx' :
      visit_return sc e cx = ROk (e', cx') -> i_expr e' < w_expr e.
    Proof.
      unfold visit_return. pose proof (i_less e) as L. destruct (_ && _); [|intros; minv; assumption].
      destruct e; intros H; minv; try assumption.
      destruct (match e with Some y => is_marker_expr cx y | None => false end); minv; [assumption|].
      match goal with HR : replace_boxed_expr _ _ = _ |- _ => apply replace_boxed_ok in HR;
        destruct HR as [(E1 & E2 & E3)|(E1 & E2 & E3)]; subst end.
      - unfold i_expr in *. destruct e; cbn in *; lia.
      - unfold i_expr. destruct e; cbn; lia.
    Qed.

    Lemma visit_try_i sc e cx e' cx' :
      visit_try sc e cx = ROk (e', cx') -> i_expr e' < w_expr e.
    Proof.
      unfold visit_try. pose proof (i_less e) as L. destruct (_ && _); [|intros; minv; assumption].
      destruct e; intros H; minv; try assumption.
      destruct (is_marker_expr cx e); minv; [assumption|].
      match goal with HR : next_expr _ _ = _ |- _ => apply next_expr_ok in HR; destruct HR; subst end.
      unfold i_expr. cbn. lia.
    Qed.

    Lemma halts_visit_expr sc b e cx :
      wf_expr e = true -> k_expr e <= k -> w_expr e <= w -> cx_errs cx = [] ->
      halts (fun n => visit_expr hash ta (eng n) sc b e) cx.
    Proof.
      intros W HK HW E0. unfold visit_expr.
      hbind; [eapply halts_const; unfold massert, has_error; rewrite E0; reflexivity|].
      intros _ u0 cx0 H0. apply massert_ok in H0. destruct H0 as (_ & _ & ->).
      hbind; [unfold note_child; destruct (any_attr _ _); [apply halts_modify|apply halts_ret]|].
      intros _ u cx1 H1. apply note_child_ok in H1; [|intros; exact I].
      destruct H1 as (X1 & E1 & M1 & _ & _ & C1). cbn zeta.
      hbind; [apply halts_gets|]. intros _ mode cx1' HG. apply gets_ok in HG. destruct HG as [-> ->].
      set (sc' := check_expr (scope_below sc (e_attrs e)) e) in *.
      hbind.
      { destruct (cx_mode cx1); [apply halts_ret|apply tot_halts, tot_visit_return|apply tot_halts, tot_visit_try]. }
      intros _ e2 cx2 H2.
      assert (S2 : (exists t, ed_expr every t e e2 /\ ext cx1 t cx2) /\ e_attrs e2 = e_attrs e
                   /\ i_expr e2 < w_expr e).
      { destruct (cx_mode cx1).
        - minv. split; [|split; [reflexivity|apply i_less]]. exists []. split; [apply ee_refl|apply ext_refl].
        - split; [eapply visit_return_good; [eassumption|reflexivity|apply nok_any]|].
          split; [eapply visit_return_attrs; eassumption|eapply visit_return_i; eassumption].
        - split; [eapply visit_try_good; [eassumption|reflexivity|apply nok_any]|].
          split; [eapply visit_try_attrs; eassumption|eapply visit_try_i; eassumption]. }
      destruct S2 as ((t2 & R2 & X2) & A2 & I2).
      pose proof (proj1 (proj1 (wf_edit every) _ _ _ R2) W) as W2.
      pose proof (proj1 (k_edit every) _ _ _ R2) as K2.
      assert (C2 : any_attr (e_attrs e) NAME = true -> cx_has_child cx2 = true).
      { intros HA. apply (b_child _ _ (x_base _ _ _ X2)). auto. }
      assert (FO : any_attr (e_attrs e) NAME = true -> sc_foreign sc' = true).
      { intros HA. unfold sc'. unfold scope_below. rewrite HA. destruct e; try reflexivity.
        destruct k0; reflexivity. }
      hbind.
      { destruct (sc_foreign sc') eqn:F; [apply halts_ret|].
        destruct (find_remove_attr (e_attrs e2) NESTED) as [[x a']|] eqn:FR; [|apply halts_ret].
        apply nested_halts; [assumption|].
        apply (proj1 (wf_edit every) [] e2 (set_attrs e2 a')); [|assumption]. apply ee_attr.
        eapply find_remove_drops; [apply helper_nested|eassumption]. }
      intros _ e3 cx3 H3.
      assert (S3 : wf_expr e3 = true /\ (k_expr e3 <= k /\ i_expr e3 < w \/ k_expr e3 < k)
                   /\ (any_attr (e_attrs e3) NAME = true -> cx_has_child cx3 = true)).
      { destruct (sc_foreign sc') eqn:F.
        - minv. split; [assumption|]. split; [left; lia|]. rewrite A2. assumption.
        - assert (NA : any_attr (e_attrs e2) NAME = false).
          { rewrite A2. destruct (any_attr (e_attrs e) NAME); [|reflexivity]. discriminate (FO eq_refl). }
          destruct (find_remove_attr (e_attrs e2) NESTED) as [[x a']|] eqn:FR.
          + pose proof (find_remove_drops _ _ _ _ helper_nested FR) as DR.
            pose proof (count_find NESTED _ _ _ (or_intror eq_refl) FR) as CF.
            apply k_set_attrs in CF.
            pose proof (ee_attr every e2 a' DR) as RA.
            destruct (visit_nested_good every sc' x (set_attrs e2 a') _ _ _ H3 eq_refl (nok_any _))
              as (t3 & R3 & X3).
            split; [|split].
            * apply (proj1 (wf_edit every) _ _ _ R3). apply (proj1 (wf_edit every) _ _ _ RA). assumption.
            * right. pose proof (proj1 (k_edit every) _ _ _ R3). lia.
            * intros HA. exfalso. apply visit_nested_attrs in H3. rewrite H3 in HA.
              rewrite (e_attrs_set _ _ _ DR) in HA. rewrite (drops_no_name _ _ _ DR NA) in HA. discriminate.
          + minv. split; [assumption|]. split; [left; lia|]. rewrite NA. discriminate. }
      destruct S3 as (W3 & K3 & C3).
      hbind; [apply halts_vs_expr; auto; [apply v_vis_ok|apply kids_v]|].
      intros _ e4 cx4 _.
      hbind; [apply halts_gets|]. intros _ cur cx4' HG. apply gets_ok in HG. destruct HG as [-> ->].
      destruct (negb (sc_foreign sc') || negb (cx_marker cx4 =? DEFAULT_MARKER)) eqn:GD;
        [|apply halts_ret].
      hbind.
      { unfold visit_marker_macro. hbind; [eapply halts_const; unfold massert; rewrite GD; reflexivity|].
        intros _ u5 cx5 _. apply tot_halts. apply tot_bind; [apply tot_gets|]. intros ex.
        destruct e4; repeat totstep. destruct m as [p x]. destruct ex; repeat totstep.
        destruct x; repeat totstep. }
      intros _ e5 cx5 _. apply tot_halts. unfold find_remove_attrs_expr.
      apply tot_bind; [apply tot_find_remove|]. intros. apply tot_ret.
    Qed.

    (** The body of [visit_arm] or [visit_local] below: [v_expr] on the parts. *)
    Lemma v_part e sc :
      wf_expr e = true -> (k_expr e <= k /\ w_expr e < w \/ k_expr e < k) ->
      forall cx, halts (fun n => v_expr (eng n) sc e) cx.
    Proof.
      intros W [[HK HW]|HK] cx; unfold v_expr.
      - apply (ah_e k (w_expr e) (IHw _ HW)); auto.
      - apply (ah_e (k_expr e) (w_expr e) (IHk _ _ HK)); auto.
    Qed.

    Lemma halts_visit_arm sc x cx :
      wf_arm x = true -> k_arm x <= k -> w_arm x <= w ->
      halts (fun n => visit_arm (eng n) sc x) cx.
    Proof.
      intros W HK HW. destruct x as [a p g b c]. unfold visit_arm.
      rewrite k_arm_eq in HK. rewrite w_arm_eq in HW.
      cbn [wf_arm fold_arm] in W. apply andb_prop in W. destruct W as [Wg Wb].
      hbind.
      { destruct (sc_foreign sc) eqn:F; [apply halts_ret|].
        destruct (find_remove_attr a NESTED) as [[y a']|]; [|apply halts_ret].
        hbind; [apply nested_halts; assumption|]. intros. apply halts_ret. }
      intros _ x1 cx1 H1.
      assert (S1 : exists a1 b1, x1 = Arm a1 p g b1 c /\ wf_expr b1 = true
                     /\ (k_expr b1 <= k /\ w_expr b1 < w \/ k_expr b1 < k)).
      { destruct (sc_foreign sc) eqn:F.
        { minv. exists a, b. repeat split; auto. left. lia. }
        destruct (find_remove_attr a NESTED) as [[y a']|] eqn:FR.
        - minv. pose proof (count_find NESTED _ _ _ (or_intror eq_refl) FR) as CF.
          match goal with HV : visit_nested _ _ _ _ = ROk (?b1, _) |- _ =>
            destruct (visit_nested_good every sc y b _ _ _ HV eq_refl (nok_any _)) as (t1 & R1 & _);
            exists a', b1 end.
          split; [reflexivity|]. split; [apply (proj1 (wf_edit every) _ _ _ R1); assumption|].
          right. pose proof (proj1 (k_edit every) _ _ _ R1). lia.
        - minv. exists a, b. repeat split; auto. left. lia. }
      destruct S1 as (a1 & b1 & -> & W1 & K1).
      hbind.
      { apply (halts_walk_arm (fun n => v_expr (eng n) sc)). cbn [fold_arm]. split.
        - destruct g as [g|]; cbn [fold_opt] in *; [|exact I]. apply v_part; [assumption|left; lia].
        - apply v_part; assumption. }
      intros _ x2 cx2 _. destruct x2. apply tot_halts. apply tot_bind; [apply tot_find_remove|].
      intros. apply tot_ret.
    Qed.

    Lemma halts_visit_local sc x cx :
      wf_local x = true -> k_local x <= k -> w_local x <= w ->
      halts (fun n => visit_local (eng n) sc x) cx.
    Proof.
      intros W HK HW. destruct x as [a p t i d]. unfold visit_local.
      rewrite k_local_eq in HK. rewrite w_local_eq in HW.
      cbn [wf_local fold_local] in W. apply andb_prop in W. destruct W as [Wi Wd].
      hbind.
      { destruct (sc_foreign sc) eqn:F; [apply halts_ret|].
        destruct (find_remove_attr a NESTED) as [[y a']|]; [|apply halts_ret].
        hbind; [|intros; apply halts_ret].
        apply (halts_optM (fun _ e => visit_nested sc e y)). destruct i; cbn; [|exact I].
        intros. apply nested_halts; assumption. }
      intros _ x1 cx1 H1.
      assert (PD : fold_opt True (fun e => forall cx, halts (fun n => v_expr (eng n) sc e) cx) d).
      { destruct d as [e|]; cbn [fold_opt] in *; [|exact I]. apply v_part; [assumption|left; lia]. }
      assert (S1 : exists a1 i1, x1 = Local a1 p t i1 d
                     /\ fold_opt True (fun e => forall cx, halts (fun n => v_expr (eng n) sc e) cx) i1).
      { assert (P0 : fold_opt True (fun e => forall cx, halts (fun n => v_expr (eng n) sc e) cx) i).
        { destruct i as [e|]; cbn [fold_opt] in *; [|exact I]. apply v_part; [assumption|left; lia]. }
        destruct (sc_foreign sc) eqn:F; [minv; eauto|].
        destruct (find_remove_attr a NESTED) as [[y a']|] eqn:FR; [|minv; eauto].
        minv. pose proof (count_find NESTED _ _ _ (or_intror eq_refl) FR) as CF.
        eexists _, _. split; [reflexivity|].
        match goal with HV : optM _ _ _ = _ |- _ => apply optM_inv in HV; rename HV into HO end.
        destruct i as [e|].
        - destruct HO as (y1 & HV & ->). cbn [fold_opt] in *.
          destruct (visit_nested_good every sc y e _ _ _ HV eq_refl (nok_any _)) as (t1 & R1 & _).
          apply v_part; [apply (proj1 (wf_edit every) _ _ _ R1); assumption|].
          right. pose proof (proj1 (k_edit every) _ _ _ R1). lia.
        - destruct HO as [-> _]. exact I. }
      destruct S1 as (a1 & i1 & -> & PI).
      hbind; [apply (halts_walk_local (fun n => v_expr (eng n) sc)); split; assumption|].
      intros _ x2 cx2 _. destruct x2. apply tot_halts. apply tot_bind; [apply tot_find_remove|].
      intros. apply tot_ret.
    Qed.

    Lemma v_local sc x :
      wf_local x = true -> (k_local x <= k /\ w_local x < w \/ k_local x < k) ->
      forall cx, halts (fun n => r_vlocal (eng n) sc x) cx.
    Proof.
      intros W [[HK HW]|HK] cx.
      - apply (ah_l k (w_local x) (IHw _ HW)); auto.
      - apply (ah_l (k_local x) (w_local x) (IHk _ _ HK)); auto.
    Qed.

    Lemma d_local x :
      wf_local x = true -> (k_local x <= k /\ w_local x < w \/ k_local x < k) ->
      forall cx, halts (fun n => walk_local (r_dexpr (eng n)) x) cx.
    Proof.
      intros W HM. apply (halts_walk_local (fun n => r_dexpr (eng n))).
      destruct HM as [[HK HW]|HK].
      - apply (all_children_local _ k (w_local x)); auto. intros y WY KY LY cx.
        apply (ah_e k (w_local x) (IHw _ HW)); auto. lia.
      - apply (all_children_local _ (k_local x) (w_local x)); auto. intros y WY KY LY cx.
        apply (ah_e (k_local x) (w_expr y) (IHk _ _ HK)); auto.
    Qed.

    Lemma note_halts a cx : halts (fun _ => note_child a) cx.
    Proof. unfold note_child. destruct (any_attr a NAME); [apply halts_modify|apply halts_ret]. Qed.

    Lemma note_has a cx u cx' :
      note_child a cx = ROk (u, cx') -> any_attr a NAME = true -> cx_has_child cx' = true.
    Proof. intros H. apply note_child_ok in H; [|intros; exact I]. apply H. Qed.

    Lemma step_halts : all_halt k w.
    Proof.
      split.
      - intros e W HK HW. split.
        + intros sc b cx. apply halts_S. cbn [engine step r_vexpr].
          apply halts_unless. intros E0. apply halts_visit_expr; assumption.
        + intros cx. apply halts_S. cbn [engine step r_dexpr].
          apply halts_unless. intros E0. unfold dummy_expr.
          hbind; [apply note_halts|]. intros _ u cx1 H1.
          apply halts_vs_expr; auto; [apply d_vis_ok|apply kids_d| |apply (note_has _ _ _ _ H1)].
          left. pose proof (i_less e). lia.
      - intros s W HK HW. split.
        + intros sc cx. apply halts_S. cbn [engine step r_vstmt].
          apply halts_unless. intros E0. destruct s as [l|it|e semi|a m semi]; cbn [visit_stmt].
          3:{ hbind; [|intros; apply halts_ret]. rewrite k_stmt_expr in HK. rewrite w_stmt_expr in HW.
              apply (ah_e k (w_expr e) (IHw (w_expr e) ltac:(lia))); auto. }
          all: hbind; [apply note_halts|]; intros _ u cx1 H1;
            apply halts_vs_stmt; auto;
            [apply v_vis_ok|apply kids_v|apply v_local|apply (note_has _ _ _ _ H1)].
        + intros cx. apply halts_S. cbn [engine step r_dstmt].
          apply halts_unless. intros E0. unfold dummy_stmt.
          hbind; [apply note_halts|]; intros _ u cx1 H1;
            apply halts_vs_stmt; auto;
            [apply d_vis_ok|apply kids_d|apply d_local|apply (note_has _ _ _ _ H1)].
      - intros x W HK HW sc cx. apply halts_S. cbn [engine step r_varm].
        apply halts_unless. intros E0. apply halts_visit_arm; assumption.
      - intros x W HK HW sc cx. apply halts_S. cbn [engine step r_vlocal].
        apply halts_unless. intros E0. apply halts_visit_local; assumption.
    Qed.
  End Step.

  Theorem everything_halts k w : all_halt k w.
  Proof.
    revert w. induction k as [k IHk] using lt_wf_ind. intros w.
    induction w as [w IHw] using lt_wf_ind. apply step_halts; auto.
  Qed.

  Theorem attribute_halts args i :
    wf_input i = true -> exists n o, forall m, n <= m -> attribute hash ta m args i = ROk o.
  Proof.
    intros W. unfold attribute. destruct (ctx_root _ _) as [e|cx]; [exists 0; eauto|].
    assert (H : halts (fun n => expand_input ta (eng n) i) cx).
    { destruct i as [s|e|]; cbn [expand_input].
      - hbind; [|intros; apply halts_ret].
        destruct (no_item s) eqn:NI.
        + apply (halts_parent_stmt (k_stmt s)); auto using everything_halts.
          destruct s; try discriminate NI; exact W.
        + destruct s as [|it| |]; try discriminate NI. cbn [expand_parent_stmt].
          destruct it; try (apply tot_halts; repeat totstep).
          hbind; [|intros; apply halts_ret].
          apply (halts_parent_fn (fold_list Nat.add 0 k_stmt b)); auto using everything_halts.
      - hbind; [|intros; apply halts_ret].
        apply (halts_parent_expr (k_expr e)); auto using everything_halts.
      - apply tot_halts. repeat totstep. }
    destruct H as (N & i' & cx' & H). exists N. eexists. intros m L. rewrite H by assumption. reflexivity.
  Qed.
End Halts.
