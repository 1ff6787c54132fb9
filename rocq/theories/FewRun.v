(** Runs that end with the error about too few branches: what they made of the code. *)

Require Import Coq.Strings.String Coq.Lists.List Coq.Bool.Bool Coq.Arith.Arith Coq.NArith.NArith Coq.Sorting.Permutation Lia.
Require Import Verif.Syntax Verif.Context Verif.ExprModel Verif.TypeAnalysis Verif.AutoEnum Verif.Edits.
Require Import Verif.AttrFold Verif.RunLemmas Verif.EditsRun Verif.VisitRun Verif.EngineRun Verif.AttributeRun Verif.Scope Verif.ScopeTop.
Require Import Verif.Frame Verif.ErrorRun Verif.RootRun Verif.Tails Verif.Twin Verif.TwinRun Verif.TailRun.
Require Import Verif.Exits Verif.ExitsTop Verif.Changes Verif.ChangesRun Verif.ChangesTop Verif.Branches Verif.BranchesRun Verif.Causes.
Import ListNotations.
Open Scope string_scope.
Open Scope list_scope.

(** The branches of the value of an expression are wrapped, with no more than [k] variants. *)
Definition first_tails (P : ctx) (e : expr) (k : nat) : Prop :=
  match e with
  | EClosure _ _ b =>
      if visit_last P then exists t b1, tails (set_mode (closure_mode P b) P) t b b1 /\ length t <= k
      else exists t e1, tails P t e e1 /\ length t <= k
  | _ => exists t e1, tails P t e e1 /\ length t <= k
  end.

Section Few.
  Context {K : Cfg}.
  Variables (mk : string -> bool) (hash : node -> N) (ta : bool) (n : nat).
  Hypothesis mk_default : mk DEFAULT_MARKER = true.
  Notation R := (engine hash ta n).
  Notation T := (tengine_n hash ta n).
  Let G : engine_good mk R := engine_is_good mk hash ta mk_default n.
  Let I : into R T := into_engine hash ta n.
  Let MO : emono R := emono_engine hash ta n.

  Lemma variants_grow cx t cx' : ext cx t cx' -> length (cx_variants cx) <= length (cx_variants cx').
  Proof. intros X. destruct (x_use _ _ _ X) as (k & E & _). rewrite E, app_length. lia. Qed.

  Lemma build_few_inv {A} f (x : A) cx0 cx x' cx' one semi :
    no_few cx0 cx -> cx_errs cx0 = [] -> cx_has_child cx' = false -> build f x cx = ROk (x', cx') ->
    cx_errs cx' = [ErrFewVariants one semi] ->
    cx_errs cx = [] /\ x' = x /\ cx_variants cx' = cx_variants cx /\ cx_has_child cx = false.
  Proof.
    intros [_ NF] E0 HC H E. unfold build, has_error in H.
    destruct (cx_errs cx) as [|e0 r] eqn:EE.
    - split; [reflexivity|]. destruct (cx_variants cx) as [|v1 [|v2 w]] eqn:V; cbn [length] in H.
      + destruct (cx_has_child cx) eqn:C; [inversion H; subst; congruence|]. minv. cbn. auto.
      + minv. cbn in *. auto.
      + inversion H; subst. congruence.
    - exfalso. injection H as <- <-. destruct NF as [C|(de & D & F)]; [congruence|].
      rewrite E0 in D. cbn in D. assert (de = [ErrFewVariants one semi]) as -> by congruence. discriminate F.
  Qed.

  Lemma no_few_contra cx cx' one semi : no_few cx cx' -> cx_errs cx = [] -> cx_has_child cx' = false ->
    cx_errs cx' = [ErrFewVariants one semi] -> False.
  Proof.
    intros [_ [C|(de & D & F)]] E HC E'; [congruence|]. rewrite E in D. cbn in D. rewrite E' in D. subst de. discriminate F.
  Qed.

  Lemma body_tails e cx e' cx' P : expand_body ta R e cx = ROk (e', cx') -> cx_errs cx' = [] -> st cx P -> cx_variants cx = [] ->
    mk (cx_marker cx) = true -> nok mk (names_expr e) ->
    exists t e1, tails P t e e1 /\ length t <= length (cx_variants cx').
  Proof.
    intros H N ST V PM NK. unfold expand_body in H. minv. rename H0 into H1, a into e1, cx0 into cx1.
    destruct (child_expr_good mk e _ _ _ H1 PM NK) as (t1 & R1 & X1).
    assert (X2 : exists t2, ext cx1 t2 cx').
    { assert (NK1 : nok mk (names_expr e1)) by (eapply nok_incl; [eapply (proj1 (names_edit mk)); eassumption|exact NK]).
      pose proof (pre_ext mk _ _ _ X1 PM) as PM1. destruct (ta_dummy ta cx1).
      - destruct (eg_dexpr mk R G e1 _ _ _ H PM1 NK1) as (t2 & _ & X2). eauto.
      - destruct (eg_vexpr mk R G _ _ e1 _ _ _ H PM1 NK1) as (t2 & _ & X2). eauto. }
    destruct X2 as (t2 & X2). pose proof (ext_errs_nil _ _ _ X2 N) as N1.
    destruct (tr_child P e _ _ _ H1 N1 ST) as (_ & t & Vt & W). exists t, e1. split; [exact W|].
    pose proof (variants_grow _ _ _ X2) as L. rewrite Vt, V in L. exact L.
  Qed.

  Lemma expr_tails e cx e' cx' P : expand_expr ta R e cx = ROk (e', cx') -> cx_errs cx' = [] -> st cx P -> cx_variants cx = [] ->
    mk (cx_marker cx) = true -> nok mk (names_expr e) -> first_tails P e (length (cx_variants cx')).
  Proof.
    intros H N ST V PM NK. unfold expand_expr in H. minv. unfold first_tails. rewrite <- (s_visit_last _ _ ST).
    destruct e; try (eapply body_tails; eassumption).
    destruct (visit_last cx); [|eapply body_tails; eassumption]. minv.
    apply nok_fold_attrs in NK. cbn [fold_expr] in NK.
    match goal with HB : expand_body _ _ _ _ = _ |- _ => eapply body_tails in HB; try exact NK; try assumption; try exact PM; try exact V end; [eassumption|].
    unfold closure_mode. rewrite <- (s_count_expr _ _ ST). apply st_set_mode. exact ST.
  Qed.

  (** What remains to be said of a run with the error. *)
  Definition counted (vs : list string) (own : string) (t : list label) : Prop :=
    Permutation (flat_map used t) (map (pair own) vs).

  Lemma counted_of cx t cx' : ext cx t cx' -> cx_errs cx' = [] -> cx_has_child cx' = false -> cx_variants cx = [] ->
    counted (cx_variants cx') (cx_ident cx) t.
  Proof.
    intros X N HC V. destruct (x_enums _ _ _ X N) as [E|E]; [|congruence].
    destruct (x_use _ _ _ X) as (k & Vk & F). destruct (F N) as [F1 _]. unfold counted.
    rewrite E, V in *. cbn in F1, Vk. rewrite app_nil_r in F1. rewrite Vk. exact F1.
  Qed.

  Lemma expr_few e b cx e' cx' P one semi : expand_parent_expr ta R e b cx = ROk (e', cx') ->
    cx_errs cx = [] -> cx_errs cx' = [ErrFewVariants one semi] -> cx_has_child cx' = false -> st cx P -> cx_variants cx = [] ->
    mk (cx_marker cx) = true -> nok mk (names_expr e) ->
    t_parent_expr ta T P e b e' /\ (exists t, ed_expr mk t e e' /\ counted (cx_variants cx') (cx_ident cx) t)
    /\ first_tails (semi_ctx b P) e (length (cx_variants cx')).
  Proof.
    intros H E0 E HC ST V PM NK. unfold expand_parent_expr in H. apply bind_ok in H. destruct H as (u & cxa & H0 & H).
    assert (X0 : ext cx [] cxa /\ cx_variants cxa = [] /\ cx_errs cxa = [] /\ st cxa (semi_ctx b P) /\ mk (cx_marker cxa) = true).
    { destruct b; minv; cbn [semi_ctx]; [|auto using ext_refl].
      split; [apply ext_last|]. split; [exact V|]. split; [exact E0|]. split; [apply st_set_last; exact ST|exact PM]. }
    destruct X0 as (X0 & Va & Ea & STa & PMa). clear H0. minv. unfold t_parent_expr.
    replace (is_dummy P) with (is_dummy cxa) by (rewrite (s_is_dummy _ _ STa); destruct b; reflexivity).
    destruct (is_dummy cxa) eqn:DM.
    { exfalso. minv. eapply no_few_contra; [exact (proj1 (dummy_no_few hash ta n) _ _ _ _ H)|eassumption..]. }
    apply bind_ok in H. destruct H as (e1 & cx1 & H1 & H).
    destruct (build_few_inv _ _ _ _ _ _ _ _ (expand_expr_no_few _ _ _ _ _ _ _ H1) Ea HC H E) as (E1 & -> & V1 & HC1).
    destruct (te_expand ta R T MO I _ e _ _ _ H1 E1 STa Va) as (P' & _ & _ & TE).
    destruct (expand_expr_good mk ta R G e _ _ _ H1 PMa NK) as (t & R1 & X1).
    split; [|split].
    - exists e1. split; [exact TE|left; reflexivity].
    - exists t. split; [exact R1|]. rewrite V1, <- (x_ident _ _ _ X0). eapply counted_of; eassumption.
    - rewrite V1. eapply expr_tails; eassumption.
  Qed.

  Lemma local_few l cx l' cx' P one semi : expand_parent_local ta R l cx = ROk (l', cx') ->
    cx_errs cx = [] -> cx_errs cx' = [ErrFewVariants one semi] -> cx_has_child cx' = false -> st cx P -> cx_variants cx = [] ->
    mk (cx_marker cx) = true -> nok mk (names_local l) ->
    t_parent_local ta T P l l' /\ (exists t, ed_local mk t l l' /\ counted (cx_variants cx') (cx_ident cx) t)
    /\ match l with Local _ _ t o _ => exists e, o = Some e /\ first_tails (t_collect ta P t) e (length (cx_variants cx')) end.
  Proof.
    intros H E0 E HC ST V PM NK. destruct l as [a p t i d]. cbn [expand_parent_local] in H.
    apply bind_ok in H. destruct H as (t' & cxa & H0 & H).
    destruct (local_ty_ok mk ta a p t i d _ _ _ H0) as (R0 & X0 & Va). rewrite V in Va. pose proof (pre_ext mk _ _ _ X0 PM) as PMa.
    assert (Ea : cx_errs cxa = []).
    { unfold local_ty in H0. destruct ta; [|minv; assumption]. destruct t as [t0|]; [|minv; assumption].
      apply bind_ok in H0. destruct H0 as ([tr fd] & cxb & Hb & H0). minv. assumption. }
    destruct (tw_local_ty ta _ _ _ _ _ H0 Ea ST) as (P' & STa & -> & ->). minv. cbn [t_parent_local]. cbv zeta.
    rewrite <- (s_is_dummy _ _ STa). destruct (is_dummy cxa) eqn:DM.
    { exfalso. minv. eapply no_few_contra; [|eassumption..]. eapply walk_local_pres in H;
            [exact H|apply no_few_refl|apply no_few_trans|apply dummy_no_few]. }
    destruct i as [e|]; [|exfalso; minv; cbn in E; rewrite Ea in E; discriminate].
    apply bind_ok in H. destruct H as (e1 & cx1 & H1 & H). apply bind_ok in H. destruct H as (e2 & cx2 & H2 & H). minv.
    destruct (build_few_inv _ _ _ _ _ _ _ _ (expand_expr_no_few _ _ _ _ _ _ _ H1) Ea HC H2 E) as (E1 & -> & V1 & HC1).
    assert (NKe : nok mk (names_expr e)) by (apply nok_local in NK; destruct NK as (_ & NK & _); exact NK).
    destruct (te_expand ta R T MO I _ e _ _ _ H1 E1 STa Va) as (P' & _ & _ & TE).
    destruct (expand_expr_good mk ta R G e _ _ _ H1 PMa NKe) as (tt & R1 & X1).
    split; [|split].
    - exists (Some e1), d. split; [reflexivity|]. split; [reflexivity|]. exists e, e1, e1.
      split; [reflexivity|]. split; [reflexivity|]. split; [exact TE|left; reflexivity].
    - exists tt. split.
      + apply (el_trans mk [] tt _ _ _ R0). rewrite <- (app_nil_r tt). apply el_parts; [apply eo_some; exact R1|apply eo_refl].
      + rewrite V1, <- (x_ident _ _ _ X0). eapply counted_of; eassumption.
    - exists e. split; [reflexivity|]. rewrite V1. eapply expr_tails; eassumption.
  Qed.

  Lemma fn_few out b cx b' cx' P one semi : expand_parent_item_fn ta R out b cx = ROk (b', cx') ->
    cx_errs cx = [] -> cx_errs cx' = [ErrFewVariants one semi] -> cx_has_child cx' = false -> st cx P -> cx_variants cx = [] ->
    mk (cx_marker cx) = true -> nok mk (fold_list (@app nitem) [] names_stmt b) ->
    t_parent_fn ta T P out b b' /\ (exists t, ed_body mk t b b' /\ counted (cx_variants cx') (cx_ident cx) t)
    /\ exists t b1, tails_body (fn_ctx ta P out b) t b b1 /\ length t <= length (cx_variants cx').
  Proof.
    intros H E0 E HC ST V PM NK. unfold expand_parent_item_fn in H.
    apply bind_ok in H. destruct H as (u1 & cxa & H1 & H). apply bind_ok in H. destruct H as (u2 & cxb & H2 & H).
    destruct (fn_mode_ok _ _ _ _ _ H1) as [X1 V1]. destruct (fn_collect_ok ta _ _ _ _ H2) as [X2 V2].
    pose proof (ext_trans _ _ _ [] [] X1 X2) as X. cbn in X. pose proof (pre_ext mk _ _ _ X PM) as P2. rewrite V1, V in V2.
    assert (Eb : cx_errs cxb = []).
    { assert (Ea : cx_errs cxa = []).
      { unfold fn_mode in H1. minv. destruct (cx_last cx); [|minv; assumption].
        destruct out as [[| |]|]; try (minv; assumption);
          (destruct (is_result_impl _); [|minv; assumption]; minv; destruct (2 <=? _)%nat; minv; assumption). }
      unfold fn_collect in H2. destruct ta; [|minv; assumption]. destruct out; [|minv; assumption].
      apply bind_ok in H2. destruct H2 as ([tr fd] & cxd & Hb & H2). minv. exact Ea. }
    assert (Ea : cx_errs cxa = []) by (eapply ext_errs_nil; [exact X2|exact Eb]).
    destruct (tw_fn_mode P out b _ _ _ H1 Ea ST) as (P' & STa & ->).
    destruct (tw_fn_collect ta _ out _ _ _ H2 Eb STa) as (P' & STb & ->). fold (fn_ctx ta P out b) in STb.
    unfold t_parent_fn. cbv zeta. set (P1 := fn_ctx ta P out b) in *. minv. rewrite <- (s_is_dummy _ _ STb).
    destruct (is_dummy cxb) eqn:DM.
    { exfalso. minv. eapply no_few_contra; [|exact Eb|eassumption..].
      eapply pres_mapM_all in H; [exact H|apply no_few_refl|apply no_few_trans|apply dummy_no_few]. }
    apply bind_ok in H. destruct H as (b1 & cxc & H3 & H).
    destruct b as [|s0 r0].
    { exfalso. cbn in H3. injection H3 as <- <-. cbn in H. destruct (ta_dummy ta _); cbn in H.
      - injection H as <- <-. cbn in E. rewrite Eb in E. discriminate E.
      - unfold build, has_error in H. cbn in H. rewrite Eb in H. cbn in H. injection H as <- <-. cbn in E. discriminate E. }
    minv. rename H into HV. set (b := s0 :: r0) in *.
    assert (X3 : exists t1, ed_stmts mk t1 b b1 /\ ext cxb t1 cxc).
    { refine (map_last_good mk child_expr b _ _ _ _ H3 P2 NK). apply Forall_all. intros []; auto. apply child_expr_good. }
    destruct X3 as (t1 & R1 & X3). pose proof (pre_ext mk _ _ _ X3 P2) as P3.
    assert (N1 : nok mk (fold_list (@app nitem) [] names_stmt b1)) by (eapply nok_incl; [|exact NK]; eapply (names_edit mk); eassumption).
    destruct (ta_dummy ta cxc) eqn:D.
    { exfalso. eapply no_few_contra; [|exact Eb|eassumption..]. eapply no_few_trans; [eapply map_last_no_few; exact H3|].
      eapply pres_mapM_all in HV; [exact HV|apply no_few_refl|apply no_few_trans|apply dummy_no_few]. }
    apply bind_ok in HV. destruct HV as (b2 & cxd & HM & HB).
    destruct (mapM_good_s mk (r_vstmt R scope0) b1 (eg_vstmt mk R G scope0) _ _ _ HM P3 N1) as (t2 & R2 & X4).
    assert (NF : no_few cxb cxd).
    { eapply no_few_trans; [eapply map_last_no_few; exact H3|].
      eapply pres_mapM_all in HM; [exact HM|apply no_few_refl|apply no_few_trans|apply visitor_no_few]. }
    destruct (build_few_inv _ _ _ _ _ _ _ _ NF Eb HC HB E) as (Ed & -> & Vd & HCd).
    pose proof (ext_errs_nil _ _ _ X4 Ed) as Ec.
    destruct (tr_body P1 b _ _ _ H3 Ec STb) as (STc & t & Vt & W).
    pose proof (numbered_on _ _ _ _ STb STc Vt) as F. rewrite V2 in F, Vt. cbn in F, Vt.
    assert (TL : t_last (c_expr P1) b b1).
    { assert (tk P1 (map_last_expr child_expr b) (t_last (c_expr P1) b)) as TK.
      { apply tk_map_last; [apply mono_child|]. apply Forall_forall. intros [] _; auto. apply tk_child. }
      destruct (TK _ _ _ H3 Ec STb) as (_ & _ & _ & Q). exact Q. }
    assert (TV : all2 (q_vstmt T P1 scope0) b1 b2).
    { destruct (tk_mapM_all P1 (r_vstmt R scope0) (q_vstmt T P1 scope0) b1 (em_vstmt _ MO scope0) (i_vstmt _ _ I P1 scope0) _ _ _ HM Ed STc) as (_ & _ & _ & Q). exact Q. }
    split; [|split].
    - split; [discriminate|]. exists b1, (length t). split; [exact TL|]. split; [rewrite <- F; exact W|].
      right. exists b2. split; [exact TV|left; reflexivity].
    - exists (t1 ++ t2). split; [apply eb_stmts; eapply ess_trans; eassumption|].
      rewrite Vd, <- (x_ident _ _ _ X). eapply counted_of; [eapply ext_trans; eassumption|assumption..].
    - exists t, b1. split; [exact W|]. pose proof (variants_grow _ _ _ X4) as L. rewrite Vt in L. rewrite Vd. exact L.
  Qed.
End Few.

(** ** Counting *)

Lemma mentions_grow mk t i i' : ed_input mk t i i' -> Permutation (mentions i') (mentions i ++ flat_map used t).
Proof.
  intros H. apply (Permutation_count_occ ctor_dec). intros iv. rewrite count_occ_app. exact (uses_input mk t i i' iv H).
Qed.
Lemma filter_permutation {A} (f : A -> bool) l l' : Permutation l l' -> Permutation (filter f l) (filter f l').
Proof.
  induction 1; cbn; try reflexivity.
  - destruct (f x); [constructor|]; assumption.
  - destruct (f x), (f y); try reflexivity. constructor.
  - etransitivity; eassumption.
Qed.
Lemma own_uses_grow mk t i i' own vs : ed_input mk t i i' -> counted vs own t -> own_uses own i' = own_uses own i + length vs.
Proof.
  intros H C. unfold own_uses. apply mentions_grow in H. apply (filter_permutation (fun iv => String.eqb (fst iv) own)) in H.
  rewrite (Permutation_length H), filter_app, app_length. f_equal.
  apply (filter_permutation (fun iv => String.eqb (fst iv) own)) in C. rewrite (Permutation_length C). clear.
  induction vs as [|v vs IH]; [reflexivity|]. cbn. rewrite String.eqb_refl. cbn. f_equal. exact IH.
Qed.

(** ** The whole *)

Lemma branches_end w t e y e1 : ends_with e y -> branches w t e e1 -> exists y1, branches w t y y1.
Proof.
  intros H. revert e1. induction H as [y|a l r e y N H IH|a r e y N H IH|a e m l y N H IH|a e y N H IH]; intros e1 B.
  - eauto.
  - apply branches_block in B; [|exact N]. destruct B as (x & _ & B). eauto.
  - apply branches_unsafe in B; [|exact N]. destruct B as (x & _ & B). eauto.
  - apply branches_method in B; [|exact N]. destruct B as (x & _ & B). eauto.
  - apply branches_paren in B; [|exact N]. destruct B as (x & _ & B). eauto.
Qed.

Section Whole.
  Variables (hash : node -> N) (ta : bool) (n : nat) (args : list token) (ps : list path) (mo : option string).
  Hypothesis parsed : parse_args args = inr (ps, mo).
  Hypothesis some : ps <> [].
  Notation T := (tengine_n hash ta n).

  (** At most [k] variants are used by the branches of an expression. *)
  Definition within (w : who) (k : nat) (y : expr) : Prop := exists t y1, branches w t y y1 /\ length t <= k.

  Lemma within_end w k e y : ends_with e y -> within w k e -> within w k y.
  Proof. intros E (t & e1 & B & L). destruct (branches_end _ _ _ _ _ E B) as (y1 & B1). exists t, y1. auto. Qed.

  Lemma within_in P id k e y x : who_of P scope0 = outermost id (own_marker mo) TakesNone -> cx_root P = true -> cx_marker P = own_marker mo ->
    first_tails P e k -> value_in (own_marker mo) e y x -> within (outermost id (own_marker mo) x) k y.
  Proof.
    intros W R M F V. destruct V as [a l b y E|e y CL E]; apply (within_end _ _ _ _ E); clear E.
    - assert (L : visit_last P = true) by (change (w_branches (who_of P scope0) = true); rewrite W; reflexivity).
      cbn [first_tails] in F. rewrite L in F. destruct F as (t & b1 & F & LE). exists t, b1. split; [|exact LE].
      unfold closure_takes. destruct (count_exits P R) as (E & _). rewrite <- M, <- (E b (Place false false) eq_refl), M.
      change (branches (who_of (set_mode (closure_mode P b) P) scope0) t b b1) in F. rewrite (who_mode P _ L), W in F.
      unfold closure_mode, visit_fn_expr in F. destruct (2 <=? fst (fn_count_expr P b))%nat; exact F.
    - assert (F1 : exists t e1, tails P t e e1 /\ length t <= k) by (destruct e; try discriminate CL; exact F).
      destruct F1 as (t & e1 & F1 & LE). exists t, e1. split; [|exact LE]. rewrite <- W. exact F1.
  Qed.

  Theorem few_run i l one semi :
    attribute hash ta n args i = ROk (Errors l) -> names_input i = [] -> In (ErrFewVariants one semi) l ->
    let own := enum_name (hash (NInput i)) in
    let k := if one then 1 else 0 in
    (exists i1, expanded own (own_marker mo) i i1 /\ own_uses own i1 = own_uses own i + k)
    /\ forall y x, value_of (own_marker mo) i y x -> within (outermost own (own_marker mo) x) k y.
  Proof.
    intros H NI HF own k. pose proof H as H0. destruct (few_error_exact _ _ _ _ _ _ _ _ H NI HF) as (-> & _ & P & i1 & cx' & EC & EI & LV).
    fold k in LV. assert (ER : cx_errs cx' = [ErrFewVariants one semi]).
    { unfold attribute in H0. rewrite EC, EI in H0. destruct (cx_errs cx'); [discriminate|]. congruence. }
    pose proof (expand_run hash ta n args i _ _ _ EC EI) as [B _].
    destruct (root_who args ps mo parsed some P _ EC) as (W & MD & L & TR & A & R & M). fold own in W.
    set (mk := marker_name args i). pose (K := run_cfg args i). assert (D : mk DEFAULT_MARKER = true) by reflexivity.
    pose proof EC as EN. unfold ctx_root in EN.
    assert (PM : mk (cx_marker P) = true).
    { rewrite M. destruct mo as [s|]; [|reflexivity]. apply (marker_name_in args i (ps, Some s)); [|reflexivity].
      apply in_or_app. left. unfold names_args. rewrite parsed. left. reflexivity. }
    pose proof (st_new _ _ _ _ _ _ EN) as ST. pose proof (TwinRun.new_variants _ _ _ _ _ _ EN) as V.
    assert (E0 : cx_errs P = [] /\ cx_has_child P = false).
    { apply ctx_new_ok in EN. destruct EN as (cur & ps' & m' & _ & _ & _ & ->). split; reflexivity. }
    destruct E0 as [E0 HC0].
    assert (HC : cx_has_child cx' = false).
    { destruct (cx_has_child cx') eqn:C; [|reflexivity]. destruct (b_child2 _ _ B C) as [X|X]; [congruence|]. cbn in X. contradiction. }
    assert (ID : cx_ident P = own) by (change (w_enum (who_of P scope0) = own); rewrite W; reflexivity).
    pose proof (names_input_nok args i) as NK. fold mk in NK.
    assert (GO : (t_input ta T P i i1 /\ exists t, ed_input mk t i i1 /\ counted (cx_variants cx') own t)
                 /\ forall y x, value_of (own_marker mo) i y x -> within (outermost own (own_marker mo) x) k y).
    { unfold expand_input in EI. destruct i as [s|e|].
      - apply bind_ok in EI. destruct EI as (s' & cx1 & H1 & H2). minv. cbn [t_input].
        destruct s as [l|it|e b|a mc b]; cbn [expand_parent_stmt t_parent_stmt] in H1 |- *.
        + apply bind_ok in H1. destruct H1 as (l' & cx2 & H1 & H2). minv. cbn [names_input names_stmt fold_stmt] in NK.
          destruct (@local_few K mk hash ta n D _ _ _ _ P _ _ H1 E0 ER HC ST V PM NK) as (F1 & (t & F2 & F3) & F4).
          rewrite ID in F3. split; [split|].
          * exists (SLocal l'). split; [reflexivity|]. exists l'. auto.
          * exists t. split; [|exact F3]. apply ei_stmt. constructor. exact F2.
          * intros y x VO. destruct l as [al p ty o d]. destruct F4 as (e & -> & F4). inversion VO; subst. rewrite LV in F4.
            eapply within_in; [| | |exact F4|eassumption].
            -- rewrite collect_who. exact W.
            -- unfold t_collect. destruct ty; [destruct ta|]; assumption.
            -- unfold t_collect. destruct ty; [destruct ta|]; assumption.
        + destruct it as [a sg out b| |]; [|minv; cbn in ER; rewrite E0 in ER; discriminate ER..].
          apply bind_ok in H1. destruct H1 as (b' & cx2 & H1 & H2). minv. cbn [names_input] in NK.
          destruct (@fn_few K mk hash ta n D _ _ _ _ _ P _ _ H1 E0 ER HC ST V PM NK) as (F1 & (t & F2 & F3) & (tt & b1 & F4 & F5)).
          rewrite ID in F3. split; [split|].
          * exists (SItem (IFn a sg out b')). split; [reflexivity|]. exists b'. auto.
          * exists t. split; [|exact F3]. apply ei_fn. exact F2.
          * intros y x VO. inversion VO as [| | |? ? ? r e ? ? FT E]; subst. rewrite LV in F5. apply (within_end _ _ _ _ E).
            destruct (fn_who ta mo P own out (r ++ [SExpr e false]) W MD L R M) as (x' & W1 & FT'). rewrite (fn_takes_unique _ _ _ _ _ FT FT') in W1.
            change (branches_body (who_of (fn_ctx ta P out (r ++ [SExpr e false])) scope0) tt (r ++ [SExpr e false]) b1) in F4. rewrite W1 in F4.
            unfold branches_body in F4. unfold within, branches. destruct (w_branches _); [|destruct F4 as [-> ->]; eauto].
            inversion F4 as [? r0 e0 e1 TE E1|? NV]; subst.
            -- match goal with E : _ ++ [_] = _ ++ [_] |- _ => apply app_inj_tail in E; destruct E as [-> E]; injection E as -> end. eauto.
            -- rewrite ends_in_value_snoc in NV. discriminate.
        + apply bind_ok in H1. destruct H1 as (e' & cx2 & H1 & H2). minv. cbn [names_input names_stmt fold_stmt] in NK.
          destruct (@expr_few K mk hash ta n D _ _ _ _ _ P _ _ H1 E0 ER HC ST V PM NK) as (F1 & (t & F2 & F3) & F4).
          rewrite ID in F3. split; [split|].
          * exists (SExpr e' b). split; [reflexivity|]. exists e'. auto.
          * exists t. split; [|exact F3]. apply ei_stmt. constructor. exact F2.
          * intros y x VO. inversion VO; subst. rewrite LV in F4. cbn [semi_ctx] in F4. eapply within_in; eassumption.
        + minv. rewrite E0 in ER. discriminate ER.
      - apply bind_ok in EI. destruct EI as (e' & cx1 & H1 & H2). minv. cbn [t_input names_input] in NK |- *.
        destruct (@expr_few K mk hash ta n D _ _ _ _ _ P _ _ H1 E0 ER HC ST V PM NK) as (F1 & (t & F2 & F3) & F4).
        rewrite ID in F3. split; [split|].
        + exists e'. auto.
        + exists t. split; [|exact F3]. apply ei_expr. exact F2.
        + intros y x VO. inversion VO; subst. rewrite LV in F4. cbn [semi_ctx] in F4. eapply within_in; eassumption.
      - minv. cbn in ER. rewrite E0 in ER. discriminate ER. }
    destruct GO as ((TI & t & ED & CO) & VB). split; [|exact VB]. exists i1. split.
    - eapply input_changes; eassumption.
    - rewrite <- LV. eapply own_uses_grow; eassumption.
  Qed.
End Whole.
