(** Expansions make exactly the changes of Changes.v. *)

Require Import Coq.Strings.String Coq.Lists.List Coq.Bool.Bool Coq.Arith.Arith Coq.NArith.NArith.
Require Import Verif.Syntax Verif.Context Verif.ExprModel Verif.TypeAnalysis Verif.AutoEnum Verif.Edits.
Require Import Verif.AstInd Verif.RunLemmas Verif.NoValueSpec Verif.NoValueRun Verif.ArgsSpec Verif.ArgsRun.
Require Import Verif.Tails Verif.Twin Verif.TwinBase Verif.TailRun Verif.Changes.
Import ListNotations.
Open Scope string_scope.
Open Scope list_scope.

(** ** Attributes *)

Lemma removes_ok a name x a' : find_remove_attr a name = Some (x, a') -> removes name a x a'.
Proof.
  unfold find_remove_attr. revert x a'. induction a as [|y a IH]; cbn [find_remove]; intros x a'; [discriminate|].
  destruct (is_ident (attr_path y) name) eqn:E.
  - intros X. injection X as <- <-. exists [], a. auto.
  - destruct (find_remove _ a) as [[z b]|] eqn:F; [|discriminate]. intros X. injection X as <- <-.
    destruct (IH _ _ eq_refl) as (l & r & -> & -> & I & N). exists (y :: l), r. repeat split; auto.
    cbn. rewrite E. exact N.
Qed.
Lemma named_none a name : find_remove_attr a name = None -> attr_named name a = false.
Proof.
  unfold find_remove_attr, attr_named. induction a as [|y a IH]; cbn; [reflexivity|].
  destruct (is_ident (attr_path y) name); [discriminate|]. destruct (find_remove _ a) as [[]|]; [discriminate|]. auto.
Qed.
Lemma path_only a : is_path_only a = true -> a = MPath (attr_path a).
Proof. destruct a; [reflexivity|discriminate|discriminate]. Qed.

(** ** Contexts *)

Definition takes_of (m : visit_mode) (sc : scope) : takes :=
  match m with
  | VDefault => TakesNone
  | VReturn _ => if sc_closure sc then TakesNone else TakesReturns
  | VTry => if sc_closure sc || sc_try_block sc then TakesNone else TakesQuestions
  end.
Definition given (P : ctx) : bool := match cx_args P with [] => false | _ => true end.
Definition who_of (P : ctx) (sc : scope) : who :=
  Who (cx_ident P) (cx_marker P) (cx_markers P) (cx_root P) (given P) (visit_last P) (takes_of (cx_mode P) sc) (sc_foreign sc).

Lemma past_of P sc a : past a (who_of P sc) = who_of P (scope_below sc a).
Proof.
  unfold past, scope_below. change (attr_named "auto_enum" a) with (any_attr a NAME).
  destruct sc as [c t f], (any_attr a NAME); cbn; [rewrite orb_true_r|rewrite orb_false_r]; reflexivity.
Qed.
Lemma enter_of P sc e : enter e (who_of P sc) = who_of P (check_expr (scope_below sc (e_attrs e)) e).
Proof.
  unfold enter. rewrite past_of. set (sc1 := scope_below sc (e_attrs e)).
  assert (T1 : w_exits (who_of P sc1) = w_exits (who_of P sc)) by (subst sc1; unfold scope_below; destruct (any_attr _ _); reflexivity).
  destruct e; try reflexivity.
  - destruct k; try reflexivity. rewrite <- T1. destruct sc1 as [c t f]. unfold who_of, check_expr, set_exits. cbn.
    destruct (cx_mode P), c, t; reflexivity.
  - destruct sc1 as [c t f]. unfold who_of, check_expr, set_exits. cbn. destruct (cx_mode P); reflexivity.
Qed.
Lemma mark_of P sc s : w_mark (who_of P sc) s <-> ctx_marker P s.
Proof. reflexivity. Qed.

(** ** Steps *)

Lemma never_iff a : any_empty_attr a NEVER = true <-> has_plain "never" a.
Proof. apply empty_attr_iff. Qed.
Lemma never_false a : any_empty_attr a NEVER = false -> ~ has_plain "never" a.
Proof. intros E H. apply never_iff in H. congruence. Qed.

Lemma exit_none w e : (match e with EReturn _ _ | ETry _ _ => False | _ => True end) -> exit_step w e e.
Proof. intros H. apply xs_none. intros [_ T]. destruct e; cbn in T; contradiction. Qed.

Lemma return_step P sc e e' c : cx_mode P = VReturn c -> t_return P sc e e' -> exit_step (who_of P sc) e e'.
Proof.
  intros M. unfold t_return. destruct (sc_closure sc) eqn:SC.
  { intros ->. apply xs_none. intros [_ T]. destruct e; try contradiction; cbn in T; rewrite M in T; cbn in T; rewrite SC in T; contradiction. }
  destruct (any_empty_attr (e_attrs e) NEVER) eqn:N.
  { intros ->. apply xs_none. intros [T _]. apply T, never_iff, N. }
  cbn [negb andb]. destruct e; try (intros ->; apply exit_none; exact I);
    try (intros ->; apply xs_none; intros [_ T]; cbn in T; rewrite M in T; cbn in T; rewrite ?SC in T; exact T).
  destruct (match e with Some y => is_marker_expr P y | None => false end) eqn:MK.
  - intros ->. apply xs_none. intros [_ T]. cbn in T. rewrite M in T. cbn in T. rewrite SC in T. apply T.
    destruct e as [y|]; [|discriminate]. exists y. split; [reflexivity|]. apply is_mark_iff. exact MK.
  - intros (x' & -> & v & ->). apply (xs_return (who_of P sc)). split; [apply never_false; exact N|]. cbn. rewrite M. cbn. rewrite SC.
    intros (y & -> & K). apply is_mark_iff in K. congruence.
Qed.
Lemma try_step P sc e e' : cx_mode P = VTry -> t_try P sc e e' -> exit_step (who_of P sc) e e'.
Proof.
  intros M. unfold t_try. destruct (sc_try_block sc) eqn:ST.
  { intros ->. apply xs_none. intros [_ T]. destruct e; try contradiction; cbn in T; rewrite M in T; cbn in T; rewrite ST, orb_true_r in T; contradiction. }
  destruct (sc_closure sc) eqn:SC.
  { intros ->. apply xs_none. intros [_ T]. destruct e; try contradiction; cbn in T; rewrite M in T; cbn in T; rewrite SC in T; contradiction. }
  destruct (any_empty_attr (e_attrs e) NEVER) eqn:N.
  { intros ->. apply xs_none. intros [T _]. apply T, never_iff, N. }
  cbn [negb andb]. destruct e; try (intros ->; apply exit_none; exact I);
    try (intros ->; apply xs_none; intros [_ T]; cbn in T; rewrite M in T; cbn in T; rewrite ?SC, ?ST in T; exact T).
  destruct (is_marker_expr P e) eqn:MK.
  - intros ->. apply xs_none. intros [_ T]. cbn in T. rewrite M in T. cbn in T. rewrite SC, ST in T. apply T. apply is_mark_iff. exact MK.
  - intros (v & ->). apply (xs_question (who_of P sc)). split; [apply never_false; exact N|]. cbn. rewrite M. cbn. rewrite SC, ST. cbn.
    intros K. apply is_mark_iff in K. congruence.
Qed.
Lemma exit_of P sc e e' :
  match cx_mode P with
  | VReturn _ => t_return P sc e e'
  | VTry => t_try P sc e e'
  | VDefault => e' = e
  end -> exit_step (who_of P sc) e e'.
Proof.
  destruct (cx_mode P) eqn:M; intros H.
  - subst. apply xs_none. intros [_ T]. destruct e; try contradiction; cbn in T; rewrite M in T; exact T.
  - eapply return_step; eassumption.
  - eapply try_step; eassumption.
Qed.

Lemma branches_of P sc t e e' : tails P t e e' -> branches (who_of P sc) t e e'.
Proof. exact (fun H => H). Qed.

Lemma nested_of P sc e e' :
  (if sc_foreign sc then e' = e
   else match find_remove_attr (e_attrs e) NESTED with
        | Some (at_, a') => t_nested P (set_attrs e a') e' at_
        | None => e' = e
        end) -> nested_step (who_of P sc) e e'.
Proof.
  destruct (sc_foreign sc) eqn:F; [intros ->; apply ns_none; auto|].
  destruct (find_remove_attr (e_attrs e) NESTED) as [[at_ a']|] eqn:R.
  - intros (PO & _ & n & k & T). apply removes_ok in R. rewrite (path_only _ PO) in R. eapply ns_nested; eassumption.
  - intros ->. apply ns_none. right. apply named_none. exact R.
Qed.

Lemma marker_of P sc e e' : t_marker P e e' -> marker_step (who_of P sc) e e'.
Proof.
  unfold t_marker. destruct e; try (intros ->; apply ms_none; intros; discriminate). destruct m as [p x].
  destruct (is_ident p (cx_marker P)) eqn:I.
  - intros (y & v & -> & ->). apply (ms_mark (who_of P sc)). exact I.
  - intros ->. apply ms_none. intros ? ? ? E. injection E as <- <- <-. exact I.
Qed.
Lemma attrs_of P sc a a' : t_attrs sc a a' -> attrs_step (who_of P sc) a a'.
Proof.
  unfold t_attrs. destruct (sc_foreign sc) eqn:F; [intros ->; apply at_foreign; exact F|].
  intros (R & H). apply named_none in R. destruct (find_remove_attr a NEVER) as [[x a1]|] eqn:N.
  - destruct H as (PO & ->). apply removes_ok in N. rewrite (path_only _ PO) in N. eapply at_never; eassumption.
  - subst. apply at_none; [exact F|apply named_none; exact N|exact R].
Qed.

(** ** Arguments *)

Lemma child_of P h toks C sc sc0 : sc_foreign sc0 = false -> nested_ctx P (enum_name h) toks C -> child (who_of P sc) toks (who_of C sc0).
Proof.
  unfold nested_ctx, ctx_new. intros F. destruct (parse_args toks) as [er|[ps mo]] eqn:A; [discriminate|].
  apply parse_args_grammar in A. destruct A as (l & AL & TL & ML).
  assert (G : match mo with Some m => if existsb (String.eqb m) (cx_markers P) then inl (ErrMarkerInUse m) else inr m | None => inr DEFAULT_MARKER end = inr (cx_marker C)
     /\ C = Ctx (enum_name h) [] (cx_marker C) (cx_markers P ++ [cx_marker C]) false false VDefault LDefault [] ps [] -> child (who_of P sc) toks (who_of C sc0)).
  { intros [E1 E2]. unfold child. rewrite E2. cbn [who_of w_enum w_root w_branches w_exits w_foreign w_markers w_marker w_given cx_ident cx_marker cx_markers cx_root cx_mode takes_of visit_last cx_last andb given cx_args].
    split; [apply gen_enum_name|]. split; [reflexivity|]. split; [reflexivity|]. split; [reflexivity|]. split; [exact F|]. split; [reflexivity|].
    exists l. split; [exact AL|]. split.
    - unfold given. cbn [cx_args]. rewrite TL. destruct ps; split; intros X; try discriminate; try reflexivity; congruence.
    - rewrite ML. destruct mo as [m|]; [|injection E1 as E1; rewrite <- E1; reflexivity].
      destruct (existsb (String.eqb m) (cx_markers P)) eqn:X; [discriminate|]. injection E1 as E1. split; [symmetry; exact E1|].
      intros I. assert (existsb (String.eqb m) (cx_markers P) = true); [|congruence].
      apply existsb_exists. exists m. split; [exact I|apply String.eqb_refl]. }
  clear ML AL TL. destruct (match mo with Some _ => _ | None => _ end) as [|cur] eqn:K; [discriminate|]. intros E. injection E as <-.
  apply G. cbn. split; reflexivity.
Qed.

(** ** Congruence *)

Lemma seq2_of {A} (R R' : A -> A -> Prop) l l' : (forall x x', R x x' -> R' x x') -> all2 R l l' -> seq2 (fun _ => R') [] l l'.
Proof.
  intros H. revert l'. induction l as [|x l IH]; cbn [all2]; intros l'; [intros ->; constructor|].
  intros (y & s & -> & Hx & Hl). apply (sq_cons (fun _ => R') [] []); auto.
Qed.
Lemma maybe2_of {A} (R R' : A -> A -> Prop) o o' : (forall x x', R x x' -> R' x x') -> opt2 R o o' -> maybe2 (fun _ => R') [] o o'.
Proof. intros H. destruct o; cbn [opt2]; [intros (y & -> & Hy); constructor; auto|intros ->; constructor]. Qed.

Lemma parts_of V (Re : expr -> expr -> Prop) (Rs : stmt -> stmt -> Prop) (Ra : arm -> arm -> Prop) e e' :
  (forall x x', o_expr V x x' -> Re x x') -> (forall x x', o_stmt V x x' -> Rs x x') -> (forall x x', o_arm V x x' -> Ra x x') ->
  t_walk V e e' -> parts (fun _ => Re) (fun _ => Rs) (fun _ => Ra) [] e e'.
Proof.
  intros He Hs Ha. unfold t_walk.
  destruct e; intros H; repeat match goal with H : ex _ |- _ => destruct H | H : _ /\ _ |- _ => destruct H end; subst;
    first [constructor|apply (p_match _ _ _ [] [])|apply (p_if _ _ _ [] [] [])|apply (p_while _ _ _ [] [])|apply (p_for _ _ _ [] [])
          |apply (p_method _ _ _ [] [])|apply (p_call _ _ _ [] [])];
    auto; (eapply seq2_of; [|eassumption]; auto) || (eapply maybe2_of; [|eassumption]; auto).
Qed.

(** ** The engine *)

Section Engine.
  Variables (hash : node -> N) (ta : bool) (T : tengine).

  Record changes : Prop := Changes {
    g_vexpr : forall P sc semi e e', q_vexpr T P sc semi e e' -> done (who_of P sc) semi e e';
    g_vstmt : forall P sc s s', q_vstmt T P sc s s' -> done_stmt (who_of P sc) s s';
    g_varm : forall P sc s s', q_varm T P sc s s' -> done_arm (who_of P sc) s s';
    g_vlocal : forall P sc s s', q_vlocal T P sc s s' -> done_local (who_of P sc) s s';
    g_dexpr : forall P sc e e', q_dexpr T P e e' -> quiet (who_of P sc) e e';
    g_dstmt : forall P sc s s', q_dstmt T P s s' -> quiet_stmt (who_of P sc) s s'
  }.
  Hypothesis G : changes.

  Lemma vparts P sc e e' : t_walk (tv_vis T sc P) e e' ->
    parts (fun _ => done (who_of P sc) false) (fun _ => done_stmt (who_of P sc)) (fun _ => done_arm (who_of P sc)) [] e e'.
  Proof. apply parts_of; cbn; apply G. Qed.
  Lemma qarm P sc x x' : t_arm (q_dexpr T P) x x' -> quiet_arm (who_of P sc) x x'.
  Proof.
    destruct x. cbn. intros (g' & b' & -> & Hg & Hb). constructor; [eapply maybe2_of; [|exact Hg]|]; intros; apply G; assumption.
  Qed.
  Lemma qlocal P sc x x' : t_local (q_dexpr T P) x x' -> quiet_local (who_of P sc) x x'.
  Proof.
    destruct x. cbn. intros (g' & b' & -> & Hg & Hb). constructor; (eapply maybe2_of; [|eassumption]); intros; apply G; assumption.
  Qed.
  Lemma qparts P sc e e' : t_walk (td_vis T P) e e' ->
    parts (fun _ => quiet (who_of P sc)) (fun _ => quiet_stmt (who_of P sc)) (fun _ => quiet_arm (who_of P sc)) [] e e'.
  Proof. apply parts_of; cbn; [apply G|apply G|apply qarm]. Qed.

  Lemma body_of P e e' : t_body ta T P e e' -> body (who_of P scope0) e e'.
  Proof.
    intros (e1 & k & _ & B & [((_ & A & c & M & _) & -> & Q)|D]).
    - eapply bd_early with (e1 := e1); [cbn; unfold given; rewrite A; reflexivity|cbn; rewrite M; reflexivity|exact B|apply G; exact Q].
    - eapply bd_done; [exact B|apply G; exact D].
  Qed.

  Lemma mode_last P md : visit_last P = true ->
    visit_last (set_mode md P) = match takes_of md scope0 with TakesQuestions => false | _ => true end.
  Proof. unfold visit_last. cbn. destruct (cx_last P); [|discriminate]. destruct md; reflexivity. Qed.
  Lemma who_mode P md : visit_last P = true ->
    who_of (set_mode md P) scope0
    = set_branches (match takes_of md scope0 with TakesQuestions => false | _ => true end) (set_exits (takes_of md scope0) (who_of P scope0)).
  Proof.
    intros L. pose proof (mode_last P md L) as E. unfold who_of, set_branches, set_exits, given in *.
    rewrite E. cbn. destruct md; reflexivity.
  Qed.

  Lemma inside_of P e e' : t_expand ta T P e e' -> inside (who_of P scope0) e e'.
  Proof.
    unfold t_expand. destruct e; try (intros H; apply in_other; [exact I|apply body_of; exact H]).
    destruct (visit_last P) eqn:L; [|intros H; apply in_other; [exact L|apply body_of; exact H]].
    intros (b' & -> & B). apply body_of in B. rewrite who_mode in B by exact L.
    eapply in_closure; [exact L| |exact B]. unfold closure_mode. destruct (2 <=? _)%nat; cbn; auto.
  Qed.

  Lemma declared_of P e e' : t_build_expr P e e' -> declared (cx_ident P) e e'.
  Proof. intros [->|(n & N & ->)]; [left; reflexivity|right]. exists n, (cx_args P ++ cx_traits P). auto. Qed.

  Lemma semi_of P semi : cx_mode P = VDefault -> cx_last P = LDefault ->
    who_of (semi_ctx semi P) scope0 = if semi then set_branches false (who_of P scope0) else who_of P scope0.
  Proof. intros M L. destruct semi; [|reflexivity]. unfold who_of, set_branches, visit_last. cbn. rewrite M. reflexivity. Qed.

  Lemma expands_of P e semi e' : cx_mode P = VDefault -> cx_last P = LDefault -> cx_traits P = [] -> t_parent_expr ta T P e semi e' ->
    expands (if semi then set_branches false (who_of P scope0) else who_of P scope0) e e'.
  Proof.
    intros M L TR. unfold t_parent_expr. rewrite <- (semi_of P semi M L).
    assert (GV : given (semi_ctx semi P) = negb (is_dummy P)).
    { unfold given, is_dummy. rewrite TR. destruct semi; cbn; destruct (cx_args P); reflexivity. }
    destruct (is_dummy P) eqn:D.
    - intros H. apply ex_quiet; [exact GV|]. apply G. exact H.
    - intros (e1 & X & B). eapply ex_code; [exact GV|apply inside_of; exact X|]. apply declared_of. exact B.
  Qed.

  Lemma type_cases P t : t_type ta P t = t \/ t_type ta P t = None.
  Proof. unfold t_type. destruct t; [|auto]. destruct (ta && _); auto. Qed.
  Lemma collect_who P t sc : who_of (t_collect ta P t) sc = who_of P sc.
  Proof. unfold t_collect. destruct t; [|reflexivity]. destruct ta; reflexivity. Qed.

  Lemma expands_local_of P l l' : t_parent_local ta T P l l' -> expands_local (who_of P scope0) l l'.
  Proof.
    destruct l as [a p t i d]. cbn [t_parent_local]. cbv zeta. intros (i' & d' & -> & H).
    assert (TC : t_type ta P t = t \/ t_type ta P t = None) by apply type_cases.
    destruct (is_dummy (t_collect ta P t)) eqn:D.
    - destruct H as [H1 H2]. apply el_quiet; [|exact TC| |].
      + cbn. unfold given. unfold is_dummy, t_collect in D. destruct t; [destruct ta|]; cbn in D; destruct (cx_args P); congruence.
      + eapply maybe2_of; [|exact H1]. intros. rewrite <- (collect_who P t). apply G. assumption.
      + eapply maybe2_of; [|exact H2]. intros. rewrite <- (collect_who P t). apply G. assumption.
    - destruct H as (-> & e & e1 & e2 & -> & -> & X & B). eapply el_code; [exact TC| |].
      + rewrite <- (collect_who P t). apply inside_of. exact X.
      + apply declared_of in B. assert (E : cx_ident (t_collect ta P t) = cx_ident P) by (unfold t_collect; destruct t; [destruct ta|]; reflexivity).
        rewrite E in B. exact B.
  Qed.

  Lemma child_facts P h toks C : nested_ctx P (enum_name h) toks C -> cx_mode C = VDefault /\ cx_last C = LDefault /\ cx_traits C = [].
  Proof.
    unfold nested_ctx, ctx_new. destruct (parse_args toks) as [er|[ps mo]]; [discriminate|].
    destruct (match mo with Some _ => _ | None => _ end) as [|cur]; [discriminate|]. intros E. injection E as <-. auto.
  Qed.

  Lemma lent_of P sc : lent (who_of P sc) = who_of (set_markers [] P) sc.
  Proof. reflexivity. Qed.

  Lemma under_of P sc e semi e' : t_vs_expr hash ta T (tv_vis T sc) P e semi e' -> under (who_of P sc) semi e e'.
  Proof.
    unfold t_vs_expr. destruct (find_remove_attr (e_attrs e) NAME) as [[at_ a']|] eqn:F.
    - cbv zeta. intros (p & toks & C & e1 & -> & NC & W & X). destruct (child_facts _ _ _ _ NC) as (C1 & C2 & C3).
      eapply un_child; [apply removes_ok; exact F|apply (vparts (set_markers [] P)); exact W|apply child_of with (sc0 := scope0) (2 := NC); reflexivity|].
      apply expands_of; assumption.
    - intros W. apply un_parts; [apply named_none; exact F|]. apply vparts. exact W.
  Qed.
  Lemma quiet_of P sc e e' : t_vs_expr hash ta T (td_vis T) P e false e' -> quiet (who_of P sc) e e'.
  Proof.
    unfold t_vs_expr. destruct (find_remove_attr (e_attrs e) NAME) as [[at_ a']|] eqn:F.
    - cbv zeta. intros (p & toks & C & e1 & -> & NC & W & X). destruct (child_facts _ _ _ _ NC) as (C1 & C2 & C3).
      eapply qt_child; [apply removes_ok; exact F|apply (qparts (set_markers [] P)); exact W|apply child_of with (sc0 := scope0) (2 := NC); reflexivity|].
      apply (expands_of C e1 false); assumption.
    - intros W. apply qt_parts; [apply named_none; exact F|]. apply qparts. exact W.
  Qed.

  Lemma let_attr at_ toks : (match at_ with MPath _ => toks = [] | MList _ ts => toks = ts | MNameValue _ _ => False end) ->
    at_ = MPath (attr_path at_) /\ toks = [] \/ at_ = MList (attr_path at_) toks.
  Proof. destruct at_; intros H; [left; auto|subst; right; reflexivity|contradiction]. Qed.

  Lemma stmt_of P sc s s' : match s with SExpr _ _ => False | _ => True end ->
    t_vs_stmt hash ta T (tv_vis T (scope_below sc (s_attrs s))) P s s' -> done_stmt (who_of P sc) s s'.
  Proof.
    intros NE. destruct s as [[a p t i d]| | |]; cbn [t_vs_stmt s_attrs]; try (intros ->; constructor); try contradiction.
    destruct (find_remove_attr a NAME) as [[at_ a']|] eqn:F.
    - cbv zeta. intros (toks & C & l1 & l' & A & NC & W & -> & X). 
      eapply ds_child; [apply removes_ok; exact F|apply let_attr; exact A| |apply child_of with (sc0 := scope0) (2 := NC); reflexivity|apply expands_local_of; exact X].
      rewrite past_of, lent_of. apply G. exact W.
    - intros (l' & -> & W). apply named_none in F. apply ds_local; [exact F|].
      unfold scope_below in W. cbn in W; change (any_attr a NAME) with (attr_named "auto_enum" a) in W. 
      assert (E : (if attr_named "auto_enum" a then set_foreign sc else sc) = sc) by (change NAME with "auto_enum" in F; rewrite F; reflexivity).
      rewrite E in W. apply G. exact W.
  Qed.
  Lemma quiet_stmt_of P sc s s' : t_vs_stmt hash ta T (td_vis T) P s s' -> quiet_stmt (who_of P sc) s s'.
  Proof.
    destruct s as [[a p t i d]|it|e semi|]; cbn [t_vs_stmt]; try (intros ->; constructor).
    - destruct (find_remove_attr a NAME) as [[at_ a']|] eqn:F.
      + cbv zeta. intros (toks & C & l1 & l' & A & NC & W & -> & X).
        eapply qs_let; [apply removes_ok; exact F|apply let_attr; exact A| |apply child_of with (sc0 := scope0) (2 := NC); reflexivity|apply expands_local_of; exact X].
        rewrite lent_of. apply qlocal. exact W.
      + intros (l' & -> & W). apply named_none in F. apply qs_local; [exact F|]. apply qlocal. exact W.
    - intros (e' & -> & H). unfold t_vs_expr in H. destruct (find_remove_attr (e_attrs e) NAME) as [[at_ a']|] eqn:F.
      + cbv zeta in H. destruct H as (p & toks & C & e1 & -> & NC & W & X). destruct (child_facts _ _ _ _ NC) as (C1 & C2 & C3).
        eapply qs_child; [apply removes_ok; exact F|apply (qparts (set_markers [] P)); exact W|apply child_of with (sc0 := scope0) (2 := NC); reflexivity|].
        apply expands_of; assumption.
      + apply qs_expr; [apply named_none; exact F|]. apply qt_parts; [apply named_none; exact F|]. apply qparts. exact H.
  Qed.

  Lemma visit_of P sc semi e e' : t_visit_expr hash ta T P sc semi e e' -> done (who_of P sc) semi e e'.
  Proof.
    unfold t_visit_expr. cbv zeta. intros (e1 & e2 & e3 & H1 & H2 & H3 & H4).
    eapply dn; rewrite enter_of; [apply exit_of; exact H1|apply nested_of; exact H2|apply under_of; exact H3|].
    set (sc1 := check_expr _ _) in *. destruct (negb (sc_foreign sc1) || negb (cx_marker P =? DEFAULT_MARKER)) eqn:FO.
    - destruct H4 as (e4 & a' & M & A & ->). apply cs_other; [|apply marker_of; exact M|apply attrs_of; exact A].
      cbn. apply orb_true_iff in FO. destruct FO as [FO|FO]; apply negb_true_iff in FO; [left; exact FO|right].
      intros E. rewrite E in FO. discriminate.
    - subst. apply orb_false_iff in FO. destruct FO as [F1 F2]. apply negb_false_iff in F1, F2. apply cs_default; [exact F1|].
      apply String.eqb_eq in F2. exact F2.
  Qed.

  Lemma arm_of P sc x x' : t_visit_arm T P sc x x' -> done_arm (who_of P sc) x x'.
  Proof.
    destruct x as [a p g b c]. cbn [t_visit_arm]. intros (a1 & b1 & g2 & b2 & a2 & H1 & Hg & Hb & A & ->).
    eapply da with (a := a1) (b := b1) (g := g).
    - destruct (sc_foreign sc) eqn:F; [destruct H1 as [-> ->]; apply na_none; auto|].
      destruct (find_remove_attr a NESTED) as [[at_ a']|] eqn:R; [|destruct H1 as [-> ->]; apply na_none; right; apply named_none; exact R].
      destruct H1 as (-> & PO & _ & n & k & T0). apply removes_ok in R. rewrite (path_only _ PO) in R. eapply na_nested; eassumption.
    - eapply maybe2_of; [|exact Hg]. intros. apply G. assumption.
    - apply G. exact Hb.
    - apply attrs_of. exact A.
  Qed.
  Lemma local_of P sc x x' : t_visit_local T P sc x x' -> done_local (who_of P sc) x x'.
  Proof.
    destruct x as [a p t i d]. cbn [t_visit_local]. intros (a1 & i1 & i2 & d2 & a2 & H1 & Hi & Hd & A & ->).
    eapply dl with (a := a1) (i := i1) (d := d).
    - destruct (sc_foreign sc) eqn:F; [destruct H1 as [-> ->]; apply nl_none; auto|].
      destruct (find_remove_attr a NESTED) as [[at_ a']|] eqn:R; [|destruct H1 as [-> ->]; apply nl_none; right; apply named_none; exact R].
      destruct H1 as (-> & H1). apply removes_ok in R. destruct i as [i|]; cbn [opt2] in H1.
      + destruct H1 as (y & -> & PO & _ & n & k & T0). rewrite (path_only _ PO) in R. eapply nl_nested; eassumption.
      + subst. eapply nl_uninit; eassumption.
    - eapply maybe2_of; [|exact Hi]. intros. apply G. assumption.
    - eapply maybe2_of; [|exact Hd]. intros. apply G. assumption.
    - apply attrs_of. exact A.
  Qed.
End Engine.

Lemma changes_step hash ta T : changes T -> changes (t_step hash ta T).
Proof.
  intros G. constructor; cbn [q_vexpr q_vstmt q_varm q_vlocal q_dexpr q_dstmt t_step]; intros P sc.
  - intros semi e e'. apply visit_of. exact G.
  - intros s s'. unfold t_visit_stmt. destruct s; try (apply stmt_of; [exact G|exact I]).
    intros (e' & -> & H). constructor. apply G. exact H.
  - apply arm_of. exact G.
  - apply local_of. exact G.
  - intros e e'. apply quiet_of. exact G.
  - intros s s'. apply quiet_stmt_of. exact G.
Qed.

Theorem changes_engine hash ta n : changes (tengine_n hash ta n).
Proof.
  induction n as [|n IH]; cbn [tengine_n]; [|apply changes_step; exact IH].
  constructor; cbn; intros; contradiction.
Qed.
