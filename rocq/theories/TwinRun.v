(** Runs that report no error are in the relations of Twin.v. *)

Require Import Coq.Strings.String Coq.Lists.List Coq.Bool.Bool Coq.Arith.Arith Coq.NArith.NArith Lia.
Require Import Verif.Syntax Verif.Context Verif.ExprModel Verif.TypeAnalysis Verif.AutoEnum Verif.Edits.
Require Import Verif.AstInd Verif.RunLemmas Verif.EditsRun Verif.VisitRun Verif.Tails Verif.Twin.
Require Export Verif.TwinBase.
Require Import Verif.TailRun.
Import ListNotations.
Open Scope string_scope.
Open Scope list_scope.

(** ** The engine *)

Section Engine.
  Variables (hash : node -> N) (ta : bool) (R : engine_t) (T : tengine).
  Hypothesis G : emono R.

  Record into : Prop := Into {
    i_vexpr : forall P sc b e, tk P (r_vexpr R sc b e) (q_vexpr T P sc b e);
    i_vstmt : forall P sc s, tk P (r_vstmt R sc s) (q_vstmt T P sc s);
    i_varm : forall P sc x, tk P (r_varm R sc x) (q_varm T P sc x);
    i_vlocal : forall P sc x, tk P (r_vlocal R sc x) (q_vlocal T P sc x);
    i_dexpr : forall P e, tk P (r_dexpr R e) (q_dexpr T P e);
    i_dstmt : forall P s, tk P (r_dstmt R s) (q_dstmt T P s)
  }.
  Hypothesis I : into.

  Ltac mr := mn; repeat first
    [ apply (em_vexpr _ G) | apply (em_vstmt _ G) | apply (em_varm _ G) | apply (em_vlocal _ G)
    | apply (em_dexpr _ G) | apply (em_dstmt _ G) | apply mono_child ].

  Lemma tk_v_walk P sc e : tk P (walk_expr (v_vis R sc) e) (t_walk (tv_vis T sc P) e).
  Proof.
    apply tk_walk; cbn; unfold v_expr; intros; try (mr; fail).
    apply kids_all; intros; cbn; apply I.
  Qed.
  Lemma tk_d_walk P e : tk P (walk_expr (d_vis R) e) (t_walk (td_vis T P) e).
  Proof.
    apply tk_walk; cbn; intros; try (mr; fail).
    - apply mono_walk_arm. apply G.
    - apply kids_all; intros; cbn; try apply I. apply tk_walk_arm; [apply G|]. destruct x.
      split; [destruct guard; cbn; [apply I|exact Logic.I]|apply I].
  Qed.

  (** Runs from a context that has no variant yet. *)
  Definition tf {A} (P : ctx) (m : M A) (Q : A -> ctx -> Prop) : Prop :=
    forall cx a cx', m cx = ROk (a, cx') -> cx_errs cx' = [] -> st cx P -> cx_variants cx = [] -> exists P', st cx' P' /\ Q a P'.
  (** Runs that add no variant. *)
  Definition calm {A} (m : M A) : Prop := forall cx a cx', m cx = ROk (a, cx') -> cx_variants cx' = cx_variants cx.

  Lemma calm_ret {A} (a : A) : calm (ret a).
  Proof. intros cx b cx' E. apply ret_ok in E. destruct E as [_ ->]. reflexivity. Qed.
  Lemma calm_gets {A} (f : ctx -> A) : calm (gets f).
  Proof. intros cx b cx' E. apply gets_ok in E. destruct E as [_ ->]. reflexivity. Qed.
  Lemma calm_modify f : (forall cx, cx_variants (f cx) = cx_variants cx) -> calm (modify f).
  Proof. intros H cx b cx' E. apply modify_ok in E. destruct E as (_ & ->). apply H. Qed.
  Lemma calm_bind {A B} (m : M A) (k : A -> M B) : calm m -> (forall a, calm (k a)) -> calm (bind m k).
  Proof.
    intros H1 H2 cx b cx' E. apply bind_ok in E. destruct E as (a & c & E1 & E2).
    rewrite (H2 _ _ _ _ E2). apply (H1 _ _ _ E1).
  Qed.

  Lemma tf_of_tw {A} P (m : M A) Q : tw P m Q -> tf P m Q.
  Proof. intros H cx b cx' E N S _. eauto. Qed.
  Lemma tf_bind {A B} P (m : M A) (k : A -> M B) Q1 Q2 :
    tw P m Q1 -> calm m -> (forall a, mono (k a)) -> (forall a P', Q1 a P' -> tf P' (k a) Q2) -> tf P (bind m k) Q2.
  Proof.
    intros H1 HC Hm H2 cx b cx' E N S V. apply bind_ok in E. destruct E as (a & c & E1 & E2).
    destruct (H1 _ _ _ E1 (Hm _ _ _ _ E2 N) S) as (P' & S' & q). rewrite <- (HC _ _ _ E1) in V. eapply H2; eassumption.
  Qed.
  Lemma tfk_bind {A B} P (m : M A) (k : A -> M B) Q1 Q2 :
    tk P m Q1 -> calm m -> (forall a, mono (k a)) -> (forall a, Q1 a -> tf P (k a) Q2) -> tf P (bind m k) Q2.
  Proof. intros H1 HC Hm H2. eapply tf_bind; [exact H1|exact HC|exact Hm|]. cbv beta. intros a P' (-> & q). auto. Qed.
  Lemma tfw_bind {A B} P (m : M A) (k : A -> M B) Q1 Q2 :
    tf P m Q1 -> (forall a, mono (k a)) -> (forall a P', Q1 a P' -> tw P' (k a) Q2) -> tf P (bind m k) Q2.
  Proof.
    intros H1 Hm H2 cx b cx' E N S V. apply bind_ok in E. destruct E as (a & c & E1 & E2).
    destruct (H1 _ _ _ E1 (Hm _ _ _ _ E2 N) S V) as (P' & S' & q). eapply H2; eassumption.
  Qed.
  Lemma tf_weaken {A} P (m : M A) (Q1 Q2 : A -> ctx -> Prop) :
    tf P m Q1 -> (forall a P', Q1 a P' -> Q2 a P') -> tf P m Q2.
  Proof. intros H1 H2 cx b cx' E N S V. destruct (H1 _ _ _ E N S V) as (P' & S' & q). eauto. Qed.

  (** A result and the markers of the context. *)
  Definition tm {A} (P : ctx) (m : M A) (Q : A -> Prop) : Prop :=
    tf P m (fun a P' => cx_markers P' = cx_markers P /\ Q a).

  (** The mode may change. *)
  Definition te {A} (P : ctx) (m : M A) (Q : A -> Prop) : Prop :=
    tf P m (fun a P' => (exists md, P' = set_mode md P) /\ Q a).

  Lemma st_set_mode md cx P : st cx P -> st (set_mode md cx) (set_mode md P).
  Proof. intros []. split; assumption || reflexivity. Qed.
  Lemma st_set_last md cx P : st cx P -> st (set_last md cx) (set_last md P).
  Proof. intros []. split; assumption || reflexivity. Qed.
  Lemma st_set_traits md cx P : st cx P -> st (set_traits md cx) (set_traits md P).
  Proof. intros []. split; assumption || reflexivity. Qed.
  Lemma st_set_markers md cx P : st cx P -> st (set_markers md cx) (set_markers md P).
  Proof. intros []. split; assumption || reflexivity. Qed.
  Lemma set_mode_same P : set_mode (cx_mode P) P = P.
  Proof. destruct P. reflexivity. Qed.

  Lemma te_of {A} P (m : M A) (Q : A -> Prop) : tf P m (fun a P' => P' = P /\ Q a) -> te P m Q.
  Proof.
    intros H. eapply tf_weaken; [exact H|]. cbv beta. intros a P' (-> & q). split; [|assumption].
    exists (cx_mode P). symmetry. apply set_mode_same.
  Qed.

  Lemma ta_dummy_early cx P : st cx P -> ta_dummy ta cx = true -> early ta P.
  Proof.
    intros ST. unfold ta_dummy, early. rewrite (st_mode _ _ ST), (st_args _ _ ST). destruct ta; [|discriminate].
    destruct (cx_mode P) as [|c|]; try discriminate. destruct (cx_args P); [|discriminate]. cbn.
    intros H. apply andb_true_iff in H. destruct H as [_ H]. apply Nat.leb_le in H. split; [reflexivity|]. split; [reflexivity|]. exists c. split; [reflexivity|lia].
  Qed.

  (** What the branches become and the early exit. *)
  Lemma tf_tails {A} P (m : M A) (C : A -> Prop) (W : list string -> A -> Prop) (k : A -> bool -> M A) Q2 :
    tk P m C -> tr P m W -> (forall a d, mono (k a d)) ->
    (forall a d n, C a -> W (from 0 n) a -> (d = true -> early ta P /\ n = 0) -> tw P (k a d) Q2) ->
    tf P (a <- m ;; d <- gets (ta_dummy ta) ;; k a d) Q2.
  Proof.
    intros H1 H2 Hm H cx b cx' E N S V. apply bind_ok in E. destruct E as (a & c & E1 & E2).
    apply bind_ok in E2. destruct E2 as (d & c' & E2 & E3). apply gets_ok in E2. destruct E2 as [-> ->].
    pose proof (Hm _ _ _ _ _ E3 N) as N1. destruct (H1 _ _ _ E1 N1 S) as (P' & S' & -> & Ca).
    destruct (H2 _ _ _ E1 N1 S) as (_ & t & Vt & Wt). pose proof (numbered_on _ _ _ _ S S' Vt) as F. rewrite V in F, Vt. cbn in F, Vt.
    rewrite F in Wt. eapply (H a _ (length t)); try eassumption. intros D. split; [eapply ta_dummy_early; eassumption|].
    unfold ta_dummy in D. destruct ta; [|discriminate]. destruct (cx_mode c); try discriminate. cbn in D.
    rewrite !andb_true_iff in D. destruct D as [[_ D] _]. unfold variant_is_empty in D. rewrite Vt in D. destruct t; [reflexivity|discriminate].
  Qed.

  Lemma tf_body P e : tf P (expand_body ta R e) (fun e' P' => P' = P /\ t_body ta T P e e').
  Proof.
    unfold expand_body, t_body. eapply tf_tails; [apply tk_child|apply tr_child|mr|]. intros e1 [] n C W D.
    - eapply tw_weaken; [apply I|]. cbv beta. intros a P' (-> & q). split; [reflexivity|]. destruct (D eq_refl). exists e1, n. auto 6.
    - eapply tw_weaken; [apply I|]. cbv beta. intros a P' (-> & q). split; [reflexivity|]. exists e1, n. auto.
  Qed.

  Lemma te_expand P e : te P (expand_expr ta R e) (t_expand ta T P e).
  Proof.
    unfold expand_expr, t_expand.
    eapply tfk_bind; [apply tk_gets; intros; apply s_visit_last; assumption|apply calm_gets|mn; apply mono_body; assumption|].
    intros vl ->. destruct e; try (apply te_of; apply tf_body).
    destruct (visit_last P); [|apply te_of; apply tf_body].
    eapply tfk_bind; [apply tk_gets; intros; apply s_count_expr; assumption|apply calm_gets|mn; apply mono_body; assumption|].
    intros c ->. eapply tf_bind.
    { apply tw_modify with (P1 := set_mode (closure_mode P e) P). intros cx ST. apply st_set_mode. exact ST. }
    { apply calm_modify. reflexivity. }
    { mn. apply mono_body; assumption. }
    cbv beta. intros u P' ->. eapply tfw_bind; [apply tf_body|mn|]. cbv beta. intros b' P' (-> & Hb). apply tw_ret. eauto 6.
  Qed.

  Lemma tk_build {A} P (f : genum -> A -> A) x md :
    tk (set_mode md P) (build f x) (fun x' => x' = x \/ exists n, 2 <= n /\ x' = f (t_enum P n) x).
  Proof.
    intros cx x' cx' E N ST. destruct (@build_ok (MkCfg (fun _ => True) True) _ _ _ _ _ _ E) as [(_ & B & _)|[(-> & _ & ->)|(-> & L & _ & ->)]].
    - contradiction.
    - eauto.
    - exists (set_mode md P). split; [assumption|]. split; [reflexivity|]. right.
      exists (length (cx_variants cx)). split; [assumption|].
      unfold t_enum. rewrite <- (st_vars _ _ ST), (st_ident _ _ ST), (st_args _ _ ST), (st_traits _ _ ST). reflexivity.
  Qed.

  Lemma tk_build_expr P e md : tk (set_mode md P) (build build_expr e) (t_build_expr P e).
  Proof. apply tk_build. Qed.

  Lemma tm_parent_expr P e semi : tm P (expand_parent_expr ta R e semi) (t_parent_expr ta T P e semi).
  Proof.
    unfold expand_parent_expr, t_parent_expr. eapply tf_bind with (Q1 := fun _ P' => P' = semi_ctx semi P).
    - destruct semi; [|apply tw_ret; reflexivity]. apply tw_modify. intros cx ST. apply st_set_last. exact ST.
    - destruct semi; [apply calm_modify; reflexivity|apply calm_ret].
    - mr; [apply mono_expand; assumption|apply mono_build].
    - cbv beta. intros u P' ->. eapply tfk_bind; [apply tk_gets; intros; apply s_is_dummy; assumption|apply calm_gets| |].
      { mr; [apply mono_expand; assumption|apply mono_build]. }
      intros d ->. replace (is_dummy (semi_ctx semi P)) with (is_dummy P) by (destruct semi; reflexivity).
      destruct (is_dummy P).
      + apply tf_of_tw. eapply tk_bind; [apply tk_massert|mr|]. intros _ _. eapply tw_weaken; [apply I|]. cbv beta. intros a P' (-> & q).
        split; [destruct semi; reflexivity|assumption].
      + eapply tfw_bind; [apply te_expand|intros; apply mono_build|]. cbv beta. intros e1 P' ((md & ->) & He).
        eapply tw_weaken; [apply tk_build_expr|]. cbv beta. intros a P' (-> & q).
        split; [destruct semi; reflexivity|eauto].
  Qed.

  Lemma tw_local_ty P t : tw P (local_ty ta t) (fun t' P' => t' = t_type ta P t /\ P' = t_collect ta P t).
  Proof.
    unfold local_ty, t_collect, t_type. destruct ta; [|destruct t; apply tw_ret; split; reflexivity]. destruct t as [t|]; [|apply tw_ret; split; reflexivity].
    eapply tk_bind.
    { apply tk_gets. intros cx ST. rewrite (st_args _ _ ST), (st_traits _ _ ST). reflexivity. }
    { mn. }
    intros c ->. destruct (collect_impl_trait (cx_args P) (cx_traits P) t) as [tr fo]. cbn [fst snd andb].
    eapply tw_bind; [apply tw_modify; intros cx ST; apply st_set_traits; exact ST|mn|]. cbv beta. intros u P' ->.
    apply tw_ret. split; reflexivity.
  Qed.

  Lemma collect_markers P t : cx_markers (t_collect ta P t) = cx_markers P.
  Proof. unfold t_collect. destruct t; [destruct ta|]; reflexivity. Qed.

  Lemma calm_local_ty t : calm (local_ty ta t).
  Proof.
    unfold local_ty. destruct ta; [|apply calm_ret]. destruct t; [|apply calm_ret].
    apply calm_bind; [apply calm_gets|]. intros [x y]. apply calm_bind; [apply calm_modify; reflexivity|]. intros. apply calm_ret.
  Qed.

  Lemma tm_parent_local P l : tm P (expand_parent_local ta R l) (t_parent_local ta T P l).
  Proof.
    destruct l as [a p t i d]. cbn [expand_parent_local t_parent_local].
    assert (ME : forall e, mono (expand_expr ta R e)) by (intros; apply mono_expand; assumption).
    assert (MB : forall A f (x : A), mono (build f x)) by (intros; apply mono_build).
    assert (MD : forall x, mono (walk_local (r_dexpr R) x)) by (intros; apply mono_walk_local; apply G).
    eapply tf_bind; [apply tw_local_ty|apply calm_local_ty|mn|]. cbv beta. intros t' P' (-> & ->). set (P1 := t_collect ta P t).
    assert (K : cx_markers P1 = cx_markers P) by apply collect_markers.
    eapply tfk_bind; [apply tk_gets; intros; apply s_is_dummy; assumption|apply calm_gets|mn|].
    intros dm ->. destruct (is_dummy P1) eqn:DM.
    - apply tf_of_tw. eapply tk_bind; [apply tk_massert|mn|]. intros _ _.
      eapply tw_weaken.
      + apply tk_walk_local with (R := q_dexpr T P1); [apply G|].
        split; [destruct i|destruct d]; cbn [opt_all]; try exact Logic.I; apply I.
      + cbv beta. intros l' P' (-> & q). split; [assumption|]. cbn in q. destruct q as (i' & d' & -> & Hi & Hd).
        cbn [t_parent_local]. exists i', d'. split; [reflexivity|]. fold P1. rewrite DM. auto.
    - destruct i as [e|]; [|apply tf_of_tw; apply tw_error; mn].
      eapply tfw_bind; [apply te_expand|mn|]. cbv beta. intros e1 P' ((md & ->) & He).
      eapply tk_bind; [apply tk_build_expr|mn|]. intros e' Hb. apply tw_ret. split; [assumption|].
      cbn [t_parent_local]. exists (Some e'), d. split; [reflexivity|]. fold P1. rewrite DM. split; [reflexivity|]. eauto 10.
  Qed.

  Lemma tw_fn_mode P out b : tw P (fn_mode out b) (fun _ P' => P' = set_mode (t_fn_mode P out b) P).
  Proof.
    unfold fn_mode, t_fn_mode. eapply tk_bind.
    { apply tk_gets. intros cx ST. rewrite (st_last _ _ ST). reflexivity. }
    { mn. }
    intros vl ->. destruct (cx_last P); [|apply tw_ret; symmetry; apply set_mode_same].
    destruct out as [t|]; [|apply tw_ret; symmetry; apply set_mode_same].
    assert (X : tw P (if is_result_impl t then
              (count <- gets (fun cx => visit_fn_block cx b) ;;
              if (2 <=? fst count)%nat then modify (set_mode VTry) else ret tt)
            else ret tt) (fun _ P' => P' = set_mode (if is_result_impl t && (2 <=? fst (visit_fn_block P b))%nat then VTry else cx_mode P) P)).
    { destruct (is_result_impl t); [|apply tw_ret; symmetry; apply set_mode_same].
      eapply tk_bind; [apply tk_gets; intros; apply s_count_block; assumption|mn|]. intros c ->. cbn [andb].
      destruct (2 <=? _)%nat; [|apply tw_ret; symmetry; apply set_mode_same].
      apply tw_modify. intros cx ST. apply st_set_mode. exact ST. }
    destruct t; try exact X. clear X.
    eapply tk_bind; [apply tk_gets; intros; apply s_count_block; assumption|mn|]. intros c ->.
    apply tw_modify. intros cx ST. apply st_set_mode. exact ST.
  Qed.

  Lemma tw_fn_collect P out : tw P (fn_collect ta out) (fun _ P' => P' = t_collect ta P out).
  Proof.
    unfold fn_collect, t_collect. destruct ta; [|destruct out; apply tw_ret; reflexivity]. destruct out as [t|]; [|apply tw_ret; reflexivity].
    eapply tk_bind.
    { apply tk_gets. intros cx ST. rewrite (st_args _ _ ST), (st_traits _ _ ST). reflexivity. }
    { mn. }
    intros c ->. destruct (collect_impl_trait (cx_args P) (cx_traits P) t) as [tr fo]. cbn [fst].
    apply tw_modify; intros cx ST; apply st_set_traits; exact ST.
  Qed.

  Lemma calm_fn_mode out b : calm (fn_mode out b).
  Proof.
    unfold fn_mode. apply calm_bind; [apply calm_gets|]. intros []; [|apply calm_ret].
    assert (X : forall t, calm (if is_result_impl t then
              (count <- gets (fun cx => visit_fn_block cx b) ;;
              if (2 <=? fst count)%nat then modify (set_mode VTry) else ret tt)
            else ret tt)).
    { intros t. destruct (is_result_impl t); [|apply calm_ret]. apply calm_bind; [apply calm_gets|].
      intros c. destruct (2 <=? _)%nat; [apply calm_modify; reflexivity|apply calm_ret]. }
    destruct out as [t|]; [|apply calm_ret]. destruct t; try apply X.
    apply calm_bind; [apply calm_gets|]. intros. apply calm_modify. reflexivity.
  Qed.
  Lemma calm_fn_collect out : calm (fn_collect ta out).
  Proof.
    unfold fn_collect. destruct ta; [|apply calm_ret]. destruct out; [|apply calm_ret].
    apply calm_bind; [apply calm_gets|]. intros [x y]. apply calm_modify. reflexivity.
  Qed.

  Lemma tm_parent_fn P out b : tm P (expand_parent_item_fn ta R out b) (t_parent_fn ta T P out b).
  Proof.
    unfold expand_parent_item_fn, t_parent_fn.
    assert (MB : forall A f (x : A), mono (build f x)) by (intros; apply mono_build).
    assert (MC : forall b, mono (fn_collect ta b)) by (intros; unfold fn_collect; mn).
    assert (ML : forall b, mono (map_last_expr child_expr b)).
    { intros b0. apply mono_map_last. apply Forall_forall. intros [] _; auto. apply mono_child. }
    assert (V := em_vstmt _ G). assert (D := em_dstmt _ G).
    eapply tf_bind; [apply tw_fn_mode|apply calm_fn_mode|mn|]. cbv beta. intros u P' ->.
    eapply tf_bind; [apply tw_fn_collect|apply calm_fn_collect|mn|]. cbv beta. intros u' P' ->. fold (fn_ctx ta P out b). set (P1 := fn_ctx ta P out b).
    assert (K : cx_markers P1 = cx_markers P) by (unfold P1, fn_ctx; rewrite collect_markers; reflexivity).
    eapply tfk_bind; [apply tk_gets; intros; apply s_is_dummy; assumption|apply calm_gets|mn|].
    intros dm ->. destruct (is_dummy P1).
    - apply tf_of_tw. eapply tk_bind; [apply tk_massert|mn|]. intros _ _.
      eapply tw_weaken; [apply tk_mapM_all with (R := q_dstmt T P1); [mn|apply I]|].
      cbv beta. intros l' P' (-> & q). auto.
    - unfold tm. eapply tf_tails with (C := fun b1 => b <> [] /\ t_last (c_expr P1) b b1) (W := fun t => tails_body P1 t b); [| |mn|].
      + destruct b; [apply tw_error; mn|].
        eapply tw_weaken; [apply tk_map_last with (R := c_expr P1); [apply mono_child|]|].
        * apply Forall_forall. intros [] _; auto. apply tk_child.
        * cbv beta. intros b1 P' (-> & q). split; [reflexivity|]. split; [discriminate|assumption].
      + destruct b; [apply tr_error; mn|]. apply tr_body.
      + intros b1 d n (Hn & Hb1) W DD. destruct d.
        * eapply tw_weaken; [apply tk_mapM_all with (R := q_dstmt T P1); [mn|apply I]|].
          cbv beta. intros l' P' (-> & q). split; [assumption|]. split; [assumption|]. destruct (DD eq_refl). exists b1, n. auto 8.
        * eapply tk_bind; [apply tk_mapM_all with (R := q_vstmt T P1 scope0); [mn|apply I]|mn|].
          intros b2 Hb2. pose proof (tk_build P1 build_fn b2 (cx_mode P1)) as TB. rewrite set_mode_same in TB.
          eapply tw_weaken; [exact TB|]. cbv beta. intros b' P' (-> & q). split; [assumption|]. split; [assumption|].
          exists b1, n. split; [assumption|]. split; [assumption|]. right. exists b2. split; assumption.
  Qed.

  Lemma tm_ret {A} P (a : A) (Q : A -> Prop) : Q a -> tm P (ret a) Q.
  Proof. intros. apply tf_of_tw. apply tw_ret. auto. Qed.

  Lemma tm_parent_stmt P s : tm P (expand_parent_stmt ta R s) (t_parent_stmt ta T P s).
  Proof.
    destruct s as [l|[a sg out b| |]|e semi|]; cbn [expand_parent_stmt t_parent_stmt].
    - eapply tfw_bind; [apply tm_parent_local|mn|]. cbv beta. intros l' P' (E & Hl). apply tw_ret. cbn [t_parent_stmt]. eauto.
    - eapply tfw_bind; [apply tm_parent_fn|mn|]. cbv beta. intros l' P' (E & Hl). apply tw_ret. cbn [t_parent_stmt]. eauto.
    - apply tf_of_tw. apply tw_error. mn.
    - apply tf_of_tw. apply tw_error. mn.
    - eapply tfw_bind; [apply tm_parent_expr|mn|]. cbv beta. intros l' P' (E & Hl). apply tw_ret. cbn [t_parent_stmt]. eauto.
    - apply tm_ret. reflexivity.
  Qed.

  Lemma new_variants i toks root ms es C : ctx_new i toks root ms es = inr C -> cx_variants C = [].
  Proof.
    unfold ctx_new. destruct (parse_args toks) as [|[ps mo]]; [discriminate|].
    destruct (match mo with Some _ => _ | None => _ end) as [|cur]; [discriminate|]. intros E. inversion E; subst. reflexivity.
  Qed.

  (** A nested attribute. *)
  Lemma tk_nested_run {A} P i toks (w : M A) (g : A -> M A) (W : A -> Prop) (Q : ctx -> A -> A -> Prop) :
    mono w -> (forall x, mono (g x)) -> tk (set_markers [] P) w W ->
    (forall C x, tm C (g x) (Q C x)) ->
    tk P (r <- make_child i toks ;; x <- w ;;
          match r with inl er => error er ;;; ret x | inr child => in_child child (g x) end)
      (fun y => exists C x, nested_ctx P i toks C /\ W x /\ Q C x y).
  Proof.
    intros Mw Mg Hw Hg cx a cx' H N ST. apply bind_ok in H. destruct H as (r & c1 & H1 & H).
    apply bind_ok in H. destruct H as (x & c2 & H2 & H).
    unfold make_child in H1. minv. destruct (ctx_new _ _ _ _ _) as [er|child] eqn:C.
    { minv. cbn in N. destruct (cx_errs c2); discriminate. }
    unfold in_child in H. destruct (g x child) as [[y c']| |] eqn:X; try discriminate.
    unfold join_child in H. minv. cbn in N. apply app_nil_inv in N. destruct N as [N2 N'].
    assert (N3 : cx_errs cx = []).
    { pose proof (Mg _ _ _ _ X N') as N3. unfold ctx_new in C.
      destruct (parse_args toks) as [|[ps mo]]; [discriminate|].
      destruct (match mo with Some _ => _ | None => _ end) as [|cur]; [discriminate|]. inversion C; subst. exact N3. }
    destruct (Hw _ _ _ H2 N2) as (P2 & S2 & -> & Wx).
    { destruct ST. split; assumption || reflexivity. }
    destruct (Hg child x _ _ _ X N' (st_new _ _ _ _ _ _ C) (new_variants _ _ _ _ _ _ C)) as (P3 & S3 & M3 & Qx).
    exists P. split; [|split; [reflexivity|]].
    - destruct S2, ST. split; cbn in *; try assumption; try congruence. rewrite (TwinBase.st_markers _ _ S3), M3. unfold ctx_new in C.
      destruct (parse_args toks) as [|[ps mo]]; [discriminate|].
      destruct (match mo with Some _ => _ | None => _ end) as [|cur]; [discriminate|]. inversion C; subst. cbn.
      rewrite removelast_app by discriminate. cbn. rewrite app_nil_r. assumption.
    - exists child, x. split; [|split; assumption]. unfold nested_ctx. rewrite <- (st_markers _ _ ST), <- N3. assumption.
  Qed.

  Lemma tk_vs_expr P V (VT : ctx -> rvis) e semi :
    (forall x, mono (on_expr V x)) -> (forall x, mono (on_stmt V x)) -> (forall x, mono (on_arm V x)) ->
    (forall Q e, tk Q (walk_expr V e) (t_walk (VT Q) e)) ->
    tk P (vs_visit_expr hash ta R V e semi) (t_vs_expr hash ta T VT P e semi).
  Proof.
    intros M1 M2 M3 W. unfold vs_visit_expr, t_vs_expr.
    destruct (find_remove_attr (e_attrs e) NAME) as [[at_ a']|]; [|apply W].
    assert (MW : mono (walk_expr V (set_attrs e a'))) by (apply mono_walk; assumption).
    assert (MX : forall x, mono (expand_parent_expr ta R x semi)) by (intros; apply mono_parent_expr; assumption).
    assert (F : tk P (x <- walk_expr V (set_attrs e a') ;; (error ErrExpectedList ;;; ret x)) (fun _ => False)).
    { eapply tk_bind; [apply W|mn|]. intros. apply tw_error. mn. }
    destruct at_ as [p|p toks|p v].
    - cbv zeta. eapply tw_weaken; [exact F|]. cbv beta. tauto.
    - cbv zeta. eapply tw_weaken.
      + apply tk_nested_run with (g := fun e1 => expand_parent_expr ta R e1 semi) (Q := fun C x => t_parent_expr ta T C x semi);
          [exact MW|exact MX|apply W|intros; apply tm_parent_expr].
      + cbv beta. intros e' P' (-> & C & e1 & H1 & H2 & H3). split; [reflexivity|]. eauto 10.
    - cbv zeta. eapply tw_weaken; [exact F|]. cbv beta. tauto.
  Qed.

  Lemma tk_vs_stmt P V (VT : ctx -> rvis) s :
    (forall x, mono (on_expr V x)) -> (forall x, mono (on_stmt V x)) -> (forall x, mono (on_arm V x)) ->
    (forall x, mono (on_local V x)) ->
    (forall Q e, tk Q (walk_expr V e) (t_walk (VT Q) e)) ->
    (forall Q x, tk Q (on_local V x) (o_local (VT Q) x)) ->
    tk P (vs_visit_stmt hash ta R V s) (t_vs_stmt hash ta T VT P s).
  Proof.
    intros M1 M2 M3 M4 W L. destruct s as [[a p t i d]| | |]; cbn [vs_visit_stmt t_vs_stmt].
    - destruct (find_remove_attr a NAME) as [[at_ a']|] eqn:FA.
      2: { cbn [walk_stmt]. eapply tk_bind; [apply L|mn|]. intros l' Hl. apply tk_ret. cbn [t_vs_stmt]. rewrite ?FA. exists l'. split; [reflexivity|exact Hl]. }
      cbv zeta. set (l0 := Local a' p t i d).
      assert (MW : mono (walk_stmt (on_expr V) (on_local V) (SLocal l0))) by (apply mono_walk_stmt; assumption).
      assert (MX : forall x, mono (expand_parent_stmt ta R x)) by (intros; apply mono_parent_stmt; assumption).
      assert (W0 : forall Q, tk Q (walk_stmt (on_expr V) (on_local V) (SLocal l0)) (fun s' => exists l', s' = SLocal l' /\ o_local (VT Q) l0 l')).
      { intros. cbn [walk_stmt]. eapply tk_bind; [apply L|mn|]. intros l' Hl. apply tk_ret. cbn [t_vs_stmt]. rewrite ?FA. exists l'. split; [reflexivity|exact Hl]. }
      assert (N : forall i0 toks, tk P (r <- make_child i0 toks ;; x <- walk_stmt (on_expr V) (on_local V) (SLocal l0) ;;
          match r with inl er => error er ;;; ret x | inr child => in_child child (expand_parent_stmt ta R x) end)
        (fun y => exists C l1 l', nested_ctx P i0 toks C /\ o_local (VT (set_markers [] P)) l0 l1
                   /\ y = SLocal l' /\ t_parent_local ta T C l1 l')).
      { intros. eapply tw_weaken.
        - apply tk_nested_run with (Q := fun C x => t_parent_stmt ta T C x); [exact MW|exact MX|apply W0|intros; apply tm_parent_stmt].
        - cbv beta. intros e' P' (-> & C & s1 & H1 & (l1 & -> & H2) & H3). split; [reflexivity|].
          cbn [t_parent_stmt] in H3. destruct H3 as (l' & -> & H3). eauto 10. }
      destruct at_ as [q|q toks|q v].
      + eapply tw_weaken; [apply N|]. cbv beta. intros y P' (-> & C & l1 & l' & H1 & H2 & H3 & H4).
        split; [reflexivity|]. cbn [t_vs_stmt]. rewrite FA. exists [], C, l1, l'. auto 10.
      + eapply tw_weaken; [apply N|]. cbv beta. intros y P' (-> & C & l1 & l' & H1 & H2 & H3 & H4).
        split; [reflexivity|]. cbn [t_vs_stmt]. rewrite FA. exists toks, C, l1, l'. auto 10.
      + eapply tw_weaken with (Q1 := fun _ _ => False); [|contradiction].
        change (tw P (x <- walk_stmt (on_expr V) (on_local V) (SLocal l0) ;; (error ErrExpectedList ;;; ret x)) (fun _ _ => False)).
        eapply tk_bind; [apply W0|mn|]. intros. apply tw_error. mn.
    - apply tk_ret. reflexivity.
    - eapply tk_bind; [apply tk_vs_expr; eassumption|mn|]. intros e' He. apply tk_ret. exists e'. split; [reflexivity|exact He].
    - cbn [walk_stmt]. apply tk_ret. reflexivity.
  Qed.

  Lemma tk_attrs P sc a : tk P (find_remove_attrs sc a) (t_attrs sc a).
  Proof.
    unfold find_remove_attrs, t_attrs. destruct (sc_foreign sc); [apply tk_ret; reflexivity|].
    eapply tk_bind with (Q1 := fun a' => match find_remove_attr a NEVER with
          | Some (x, a1) => is_path_only x = true /\ a' = a1
          | None => a' = a
          end); [|mn|].
    - destruct (find_remove_attr a NEVER) as [[x a1]|]; [|apply tk_ret; reflexivity].
      destruct (is_path_only x).
      + change (tk P (ret a1) (fun a' => true = true /\ a' = a1)). apply tk_ret. auto.
      + eapply tk_bind with (Q1 := fun _ => False); [|mn|contradiction].
        intros cx b cx' E N ST. apply error_ok in E. destruct E as [_ ->]. cbn in N. destruct (cx_errs cx); discriminate.
    - intros a' Ha. destruct (find_remove_attr a' REC) as [[x a1]|] eqn:FR; [apply tw_error; mn|].
      apply tk_ret. auto.
  Qed.

  Lemma tk_note P a : tk P (note_child a) (fun _ => True).
  Proof.
    unfold note_child. destruct (any_attr a NAME); [|apply tk_ret; exact Logic.I].
    eapply tw_weaken; [apply tw_modify with (P1 := P); intros cx []; split; assumption|]. cbv beta. auto.
  Qed.

  Lemma tk_return P sc e : tk P (visit_return sc e) (t_return P sc e).
  Proof.
    unfold visit_return, t_return. destruct (_ && _); [|apply tk_ret; reflexivity].
    destruct e; try (apply tk_ret; reflexivity).
    eapply tk_bind; [apply tk_gets; intros cx ST; destruct e; [apply s_marker_expr; assumption|reflexivity]|mn|].
    intros mk ->. destruct (match e with Some y => is_marker_expr P y | None => false end) eqn:MK; [apply tk_ret; reflexivity|].
    intros cx x cx' E N ST. apply bind_ok in E. destruct E as (z & c & E1 & E2). apply ret_ok in E2. destruct E2 as [-> ->].
    destruct (replace_boxed_ok _ _ _ _ E1) as [(_ & F & _)|(-> & _ & ->)].
    - rewrite (s_marker_expr _ _ ST) in F. destruct e; cbn in F; congruence.
    - exists P. split; [apply st_next; assumption|]. split; [reflexivity|]. rewrite (st_ident _ _ ST).
      eexists. split; [reflexivity|]. eexists. reflexivity.
  Qed.

  Lemma tk_try P sc e : tk P (visit_try sc e) (t_try P sc e).
  Proof.
    unfold visit_try, t_try. destruct (_ && _); [|apply tk_ret; reflexivity].
    destruct e; try (apply tk_ret; reflexivity).
    eapply tk_bind; [apply tk_gets; intros cx ST; apply s_marker_expr; assumption|mn|].
    intros mk ->. destruct (is_marker_expr P e); [apply tk_ret; reflexivity|].
    eapply tk_bind; [apply tk_next_expr|mn|]. intros x (v & ->). apply tk_ret. exists v. reflexivity.
  Qed.

  Lemma tk_nested P sc e a : tk P (visit_nested sc e a) (fun e' => t_nested P e e' a).
  Proof.
    unfold visit_nested, t_nested. eapply tk_bind; [apply tk_massert|mn; apply mono_child|]. intros _ _.
    destruct (is_path_only a); [|apply tw_error; mn].
    intros cx x cx' E N ST. destruct (tk_child P e _ _ _ E N ST) as (P' & S' & -> & q). exists P. split; [assumption|].
    split; [reflexivity|]. split; [reflexivity|]. split; [assumption|].
    destruct (tr_child P e _ _ _ E N ST) as (_ & t & Vt & Wt). rewrite (numbered_on _ _ _ _ ST S' Vt) in Wt. eauto.
  Qed.

  Lemma tk_marker P sc e : tk P (visit_marker_macro sc e) (t_marker P e).
  Proof.
    unfold visit_marker_macro, t_marker. eapply tk_bind; [apply tk_massert|mn|]. intros _ _.
    eapply tk_bind.
    { apply tk_gets with (f := fun cx => match e with EMacro _ m => is_marker_macro_exact cx m | _ => false end).
      intros cx ST. destruct e; try reflexivity. unfold is_marker_macro_exact. rewrite (st_marker _ _ ST). reflexivity. }
    { mn. }
    intros ex ->. destruct e; try (apply tk_ret; reflexivity). destruct m as [p x]. unfold is_marker_macro_exact. cbn [mac_path].
    destruct (is_ident p (cx_marker P)); [|apply tk_ret; reflexivity].
    eapply tk_bind with (Q1 := fun y => x = Some y); [|mn|].
    - destruct x; [apply tk_ret; reflexivity|apply tw_error; mn].
    - intros y ->. intros cx e' cx' E N ST. apply bind_ok in E. destruct E as (bad & c & E1 & E2).
      apply gets_ok in E1. destruct E1 as [-> ->]. destruct (has_error cx) eqn:HE.
      + apply ret_ok in E2. destruct E2 as [_ ->]. unfold has_error in HE. rewrite N in HE. discriminate.
      + destruct (tk_next P _ _ _ _ _ E2 N ST) as (P' & ST' & -> & v & Hv). exists P. split; [assumption|]. split; [reflexivity|].
        exists y, v. auto.
  Qed.

  Let MV sc : (forall x, mono (on_expr (v_vis R sc) x)) /\ (forall x, mono (on_stmt (v_vis R sc) x))
    /\ (forall x, mono (on_arm (v_vis R sc) x)) /\ (forall x, mono (on_local (v_vis R sc) x)).
  Proof. repeat split; cbn; unfold v_expr; intros; mr. Qed.
  Let MD : (forall x, mono (on_expr (d_vis R) x)) /\ (forall x, mono (on_stmt (d_vis R) x))
    /\ (forall x, mono (on_arm (d_vis R) x)) /\ (forall x, mono (on_local (d_vis R) x)).
  Proof. repeat split; cbn; intros; mr; [apply mono_walk_arm|apply mono_walk_local]; apply G. Qed.

  Lemma tk_visit_expr P sc semi e : tk P (visit_expr hash ta R sc semi e) (t_visit_expr hash ta T P sc semi e).
  Proof.
    destruct (MV (check_expr (scope_below sc (e_attrs e)) e)) as (V1 & V2 & V3 & V4).
    assert (A1 : forall sc x, mono (visit_return sc x)) by (intros; unfold visit_return; mn).
    assert (A2 : forall sc x, mono (visit_try sc x)) by (intros; unfold visit_try; mn).
    assert (A3 : forall sc x y, mono (visit_nested sc x y)) by (intros; unfold visit_nested; mn; apply mono_child).
    assert (A4 : forall sc x, mono (visit_marker_macro sc x)) by (intros; unfold visit_marker_macro; mn).
    assert (A5 : forall x, mono (note_child x)) by (intros; apply mono_note).
    assert (A6 : forall sc x, mono (find_remove_attrs sc x)) by (intros; apply mono_attrs).
    assert (A7 : forall x, mono (vs_visit_expr hash ta R (v_vis R (check_expr (scope_below sc (e_attrs e)) e)) x semi))
      by (intros; apply mono_vs_expr; assumption).
    unfold visit_expr, t_visit_expr, find_remove_attrs_expr. set (sc1 := check_expr (scope_below sc (e_attrs e)) e) in *.
    eapply tk_bind; [apply tk_massert|mn|]. intros _ _.
    eapply tk_bind; [apply tk_note|mn|]. intros _ _. cbv zeta.
    eapply tk_bind; [apply tk_gets; intros cx ST; apply ST|mn|]. intros md ->.
    eapply tk_bind with (Q1 := fun e1 => match cx_mode P with
      | VReturn _ => t_return P sc1 e e1
      | VTry => t_try P sc1 e e1
      | VDefault => e1 = e
      end); [destruct (cx_mode P); [apply tk_ret; reflexivity|apply tk_return|apply tk_try]|mn|]. intros e1 H1.
    eapply tk_bind with (Q1 := fun e2 => if sc_foreign sc1 then e2 = e1
          else match find_remove_attr (e_attrs e1) NESTED with
               | Some (at_, a') => t_nested P (set_attrs e1 a') e2 at_
               | None => e2 = e1
               end); [|mn|].
    { destruct (sc_foreign sc1); [apply tk_ret; reflexivity|].
      destruct (find_remove_attr (e_attrs e1) NESTED) as [[at_ a']|]; [apply tk_nested|apply tk_ret; reflexivity]. }
    intros e2 H2. eapply tk_bind; [apply (tk_vs_expr P (v_vis R sc1) (tv_vis T sc1)); try assumption; intros; apply tk_v_walk|mn|].
    intros e3 H3. eapply tk_bind; [apply tk_gets; intros cx ST; apply ST|mn|]. intros cur ->.
    destruct (negb (sc_foreign sc1) || negb (cx_marker P =? DEFAULT_MARKER)) eqn:FO.
    - eapply tk_bind; [apply tk_marker|mn|]. intros e4 H4. eapply tk_bind; [apply tk_attrs|mn|]. intros a' Ha.
      apply tk_ret. unfold t_visit_expr. cbv zeta. fold sc1. exists e1, e2, e3. split; [assumption|]. split; [assumption|]. split; [assumption|]. rewrite ?FO. eauto.
    - apply tk_ret. unfold t_visit_expr. cbv zeta. fold sc1. exists e1, e2, e3. split; [assumption|]. split; [assumption|]. split; [assumption|]. rewrite ?FO. reflexivity.
  Qed.

  Lemma tk_visit_arm P sc x : tk P (visit_arm R sc x) (t_visit_arm T P sc x).
  Proof.
    destruct x as [a p g b c]. cbn [visit_arm t_visit_arm].
    assert (A3 : forall sc x y, mono (visit_nested sc x y)) by (intros; unfold visit_nested; mn; apply mono_child).
    assert (A6 : forall sc x, mono (find_remove_attrs sc x)) by (intros; apply mono_attrs).
    assert (A7 : forall x, mono (walk_arm (v_expr R sc) x)) by (intros; apply mono_walk_arm; intro; apply G).
    eapply tk_bind with (Q1 := fun x => exists a1 b1, x = Arm a1 p g b1 c /\ (if sc_foreign sc then a1 = a /\ b1 = b
           else match find_remove_attr a NESTED with
                | Some (at_, a') => a1 = a' /\ t_nested P b b1 at_
                | None => a1 = a /\ b1 = b
                end)); [|mn|].
    { destruct (sc_foreign sc); [apply tk_ret; eauto|].
      destruct (find_remove_attr a NESTED) as [[at_ a']|]; [|apply tk_ret; eauto].
      eapply tk_bind; [apply tk_nested|mn|]. intros b1 Hb. apply tk_ret. eauto 8. }
    intros x (a1 & b1 & -> & H1).
    eapply tk_bind; [apply tk_walk_arm with (R := q_vexpr T P sc false)|mn|].
    { intro. apply G. }
    { split; [destruct g; cbn; [apply I|exact Logic.I]|apply I]. }
    intros x (g2 & b2 & -> & Hg & Hb). eapply tk_bind; [apply tk_attrs|mn|]. intros a2 Ha. apply tk_ret.
    exists a1, b1, g2, b2, a2. auto.
  Qed.

  Lemma tk_visit_local P sc x : tk P (visit_local R sc x) (t_visit_local T P sc x).
  Proof.
    destruct x as [a p t i d]. cbn [visit_local t_visit_local].
    assert (A3 : forall sc x y, mono (visit_nested sc x y)) by (intros; unfold visit_nested; mn; apply mono_child).
    assert (A6 : forall sc x, mono (find_remove_attrs sc x)) by (intros; apply mono_attrs).
    assert (A7 : forall x, mono (walk_local (v_expr R sc) x)) by (intros; apply mono_walk_local; intro; apply G).
    eapply tk_bind with (Q1 := fun x => exists a1 i1, x = Local a1 p t i1 d /\ (if sc_foreign sc then a1 = a /\ i1 = i
           else match find_remove_attr a NESTED with
                | Some (at_, a') => a1 = a' /\ opt2 (fun e e' => t_nested P e e' at_) i i1
                | None => a1 = a /\ i1 = i
                end)); [|mn|].
    { destruct (sc_foreign sc); [apply tk_ret; eauto|].
      destruct (find_remove_attr a NESTED) as [[at_ a']|]; [|apply tk_ret; eauto].
      eapply tk_bind; [apply tk_optM_all with (R := fun e e' => t_nested P e e' at_); intro; apply tk_nested|mn|].
      intros i1 Hi. apply tk_ret. eauto 8. }
    intros x (a1 & i1 & -> & H1).
    eapply tk_bind; [apply tk_walk_local with (R := q_vexpr T P sc false)|mn|].
    { intro. apply G. }
    { split; [destruct i1|destruct d]; cbn; try exact Logic.I; apply I. }
    intros x (i2 & d2 & -> & Hi & Hd). eapply tk_bind; [apply tk_attrs|mn|]. intros a2 Ha. apply tk_ret.
    exists a1, i1, i2, d2, a2. auto.
  Qed.

  Lemma tk_visit_stmt P sc s : tk P (visit_stmt hash ta R sc s) (t_visit_stmt hash ta T P sc s).
  Proof.
    destruct (MV (scope_below sc (s_attrs s))) as (V1 & V2 & V3 & V4).
    assert (X : tk P (note_child (s_attrs s) ;;; vs_visit_stmt hash ta R (v_vis R (scope_below sc (s_attrs s))) s)
                  (t_vs_stmt hash ta T (tv_vis T (scope_below sc (s_attrs s))) P s)).
    { eapply tk_bind; [apply tk_note|intros; apply mono_vs_stmt; assumption|]. intros _ _.
      apply (tk_vs_stmt P (v_vis R (scope_below sc (s_attrs s))) (tv_vis T (scope_below sc (s_attrs s)))); try assumption; intros.
      - apply tk_v_walk.
      - cbn. apply I. }
    destruct s; try exact X. cbn [visit_stmt t_visit_stmt].
    eapply tk_bind; [apply I|mn|]. intros e' He. apply tk_ret. exists e'. auto.
  Qed.

  Lemma tk_dummy_expr P e : tk P (dummy_expr hash ta R e) (t_vs_expr hash ta T (td_vis T) P e false).
  Proof.
    destruct MD as (V1 & V2 & V3 & V4). unfold dummy_expr.
    eapply tk_bind; [apply tk_note|intros; apply mono_vs_expr; assumption|]. intros _ _.
    apply tk_vs_expr; try assumption. intros. apply tk_d_walk.
  Qed.

  Lemma tk_dummy_stmt P s : tk P (dummy_stmt hash ta R s) (t_vs_stmt hash ta T (td_vis T) P s).
  Proof.
    destruct MD as (V1 & V2 & V3 & V4). unfold dummy_stmt.
    eapply tk_bind; [apply tk_note|intros; apply mono_vs_stmt; assumption|]. intros _ _.
    apply tk_vs_stmt; try assumption; intros.
    - apply tk_d_walk.
    - cbn. apply tk_walk_local; [apply G|]. destruct x. split; [destruct init|destruct div]; cbn; try exact Logic.I; apply I.
  Qed.
End Engine.

Lemma unless_inv {A} (x : A) m cx a cx' :
  unless_error x m cx = ROk (a, cx') -> cx_errs cx' = [] -> m cx = ROk (a, cx').
Proof.
  unfold unless_error. intros E N. apply bind_ok in E. destruct E as (bad & c & E1 & E2).
  apply gets_ok in E1. destruct E1 as [-> ->]. unfold has_error in E2. destruct (cx_errs cx) eqn:X; [assumption|].
  apply ret_ok in E2. destruct E2 as [_ ->]. congruence.
Qed.

Lemma into_step hash ta R T : emono R -> into R T -> into (step hash ta R) (t_step hash ta T).
Proof.
  intros G I.
  split; intros; cbn [step t_step r_vexpr r_vstmt r_varm r_vlocal r_dexpr r_dstmt q_vexpr q_vstmt q_varm q_vlocal q_dexpr q_dstmt];
    intros cx a cx' E N ST; apply (unless_inv _ _ _ _ _) in E; try exact N.
  - eapply tk_visit_expr; eassumption.
  - eapply tk_visit_stmt; eassumption.
  - eapply tk_visit_arm; eassumption.
  - eapply tk_visit_local; eassumption.
  - eapply tk_dummy_expr; eassumption.
  - eapply tk_dummy_stmt; eassumption.
Qed.

(** ** Runs are in the relation *)
Theorem into_engine hash ta n : into (engine hash ta n) (tengine_n hash ta n).
Proof.
  induction n as [|n IH].
  - split; intros; intros cx a cx' E; discriminate E.
  - cbn [engine tengine_n]. apply into_step; [apply emono_engine|exact IH].
Qed.

Theorem attribute_twin hash ta n args i i' cx' :
  attribute hash ta n args i = ROk (Code i' cx') ->
  exists P, ctx_root (enum_name (hash (NInput i))) args = inr P /\ t_input ta (tengine_n hash ta n) P i i'.
Proof.
  unfold attribute. destruct (ctx_root _ args) as [er|P] eqn:C; [discriminate|]. intros H. exists P. split; [reflexivity|].
  destruct (expand_input ta (engine hash ta n) i P) as [[j cx]| |] eqn:E; try discriminate.
  destruct (cx_errs cx) eqn:N; [|discriminate]. inversion H; subst. clear H.
  pose proof (into_engine hash ta n) as I. pose proof (emono_engine hash ta n) as G.
  destruct i as [s|e|]; cbn [expand_input] in E; cbn [t_input].
  - apply bind_ok in E. destruct E as (s' & c & E1 & E2). apply ret_ok in E2. destruct E2 as [-> <-].
    destruct (tm_parent_stmt ta _ _ G I P s _ _ _ E1 N (st_new _ _ _ _ _ _ C) (new_variants _ _ _ _ _ _ C)) as (P' & _ & _ & Q). eauto.
  - apply bind_ok in E. destruct E as (s' & c & E1 & E2). apply ret_ok in E2. destruct E2 as [-> <-].
    destruct (tm_parent_expr ta _ _ G I P e false _ _ _ E1 N (st_new _ _ _ _ _ _ C) (new_variants _ _ _ _ _ _ C)) as (P' & _ & _ & Q). eauto.
  - minv. cbn in N. destruct (cx_errs P); discriminate.
Qed.
