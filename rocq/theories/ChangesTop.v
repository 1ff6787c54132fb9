(** Specification and proof: what the outermost attribute makes of its code (Changes.v). *)

Require Import Coq.Strings.String Coq.Lists.List Coq.Bool.Bool Coq.Arith.Arith Coq.NArith.NArith.
Require Import Verif.Syntax Verif.Context Verif.ExprModel Verif.TypeAnalysis Verif.AutoEnum Verif.Edits.
Require Import Verif.RunLemmas Verif.Tails Verif.Twin Verif.TwinRun Verif.Exits Verif.ExitsTop Verif.Changes Verif.ChangesRun.
Import ListNotations.
Open Scope string_scope.
Open Scope list_scope.

(** ** Specification *)

(** The outermost attribute, with traits as arguments. *)
Definition outermost (own m : string) (x : takes) : who :=
  Who own m [m] true true (match x with TakesQuestions => false | _ => true end) x false.

(** A closure takes its [?]s if there are two of them, otherwise its [return]s. *)
Definition closure_takes (m : string) (b : expr) : takes :=
  if (2 <=? questions m (exits false (Place false false) b))%nat then TakesQuestions else TakesReturns.
(** A function: its [return]s if it returns [impl ..], its [?]s if it returns [Result<_, impl ..>] and has two of them. *)
Inductive fn_takes (m : string) (b : list stmt) : option ty -> takes -> Prop :=
| ft_impl bs : fn_takes m b (Some (TImpl bs)) TakesReturns
| ft_result t : result_impl t -> 2 <= questions m (body_exits false b) -> fn_takes m b (Some t) TakesQuestions
| ft_other out : (forall bs, out <> Some (TImpl bs)) ->
    (forall t, out = Some t -> result_impl t -> questions m (body_exits false b) < 2) -> fn_takes m b out TakesNone.

Section Expanded.
  Variables own m : string.

  Inductive code : expr -> expr -> Prop :=
  | cd_closure a ps b b' : body (outermost own m (closure_takes m b)) b b' -> code (EClosure a ps b) (EClosure a ps b')
  | cd_other e e' : match e with EClosure _ _ _ => False | _ => True end -> body (outermost own m TakesNone) e e' -> code e e'.

  Inductive expanded : input -> input -> Prop :=
  | xp_expr e e1 e' : code e e1 -> declared own e1 e' -> expanded (InExpr e) (InExpr e')
  | xp_stmt e e1 e' : code e e1 -> declared own e1 e' -> expanded (InStmt (SExpr e false)) (InStmt (SExpr e' false))
  | xp_semi e e1 e' : body (set_branches false (outermost own m TakesNone)) e e1 -> declared own e1 e' ->
      expanded (InStmt (SExpr e true)) (InStmt (SExpr e' true))
  | xp_let a p t t' e e1 e' d : t' = t \/ t' = None -> code e e1 -> declared own e1 e' ->
      expanded (InStmt (SLocal (Local a p t (Some e) d))) (InStmt (SLocal (Local a p t' (Some e') d)))
  | xp_fn a sg out x k b b1 b2 b' : fn_takes m b out x -> b <> [] ->
      branches_body (outermost own m x) (from 0 k) b b1 -> seq2 (fun _ => done_stmt (outermost own m x)) [] b1 b2 -> declared_in own b2 b' ->
      expanded (InStmt (SItem (IFn a sg out b))) (InStmt (SItem (IFn a sg out b')))
  | xp_macro a mc semi : expanded (InStmt (SMacro a mc semi)) (InStmt (SMacro a mc semi)).
End Expanded.

(** ** Proofs *)

Section Proofs.
  Variables (hash : node -> N) (ta : bool) (n : nat) (args : list token) (ps : list path) (mo : option string).
  Hypothesis parsed : parse_args args = inr (ps, mo).
  Hypothesis some : ps <> [].
  Let T := tengine_n hash ta n.
  Let G : changes T := changes_engine hash ta n.

  Lemma root_who P id : ctx_root id args = inr P -> who_of P scope0 = outermost id (own_marker mo) TakesNone
    /\ cx_mode P = VDefault /\ cx_last P = LDefault /\ cx_traits P = [] /\ cx_args P = ps /\ cx_root P = true /\ cx_marker P = own_marker mo.
  Proof.
    unfold ctx_root, ctx_new. rewrite parsed. intros E. destruct mo as [m|]; cbn in E; injection E as <-; (split; [|repeat split; reflexivity]);
      unfold who_of, given; cbn; (destruct ps; [congruence|reflexivity]).
  Qed.

  Lemma code_of P id e e1 : who_of P scope0 = outermost id (own_marker mo) TakesNone -> cx_root P = true -> cx_marker P = own_marker mo ->
    t_expand ta T P e e1 -> code id (own_marker mo) e e1.
  Proof.
    intros W R M. unfold t_expand. destruct e; try (intros H; apply cd_other; [exact I|rewrite <- W; eapply body_of; eassumption]).
    assert (L : visit_last P = true) by (change (w_branches (who_of P scope0) = true); rewrite W; reflexivity).
    rewrite L. intros (b' & -> & B). apply cd_closure. apply (body_of _ _ G) in B. rewrite (who_mode P _ L), W in B.
    unfold closure_takes. destruct (count_exits P R) as (E & _). rewrite <- M, <- (E e (Place false false) eq_refl).
    rewrite M. unfold closure_mode, visit_fn_expr in B. destruct (2 <=? fst (fn_count_expr P e))%nat; exact B.
  Qed.

  Lemma fn_who P own out b : who_of P scope0 = outermost own (own_marker mo) TakesNone -> cx_mode P = VDefault -> cx_last P = LDefault ->
    cx_root P = true -> cx_marker P = own_marker mo ->
    exists x, who_of (fn_ctx ta P out b) scope0 = outermost own (own_marker mo) x /\ fn_takes (own_marker mo) b out x.
  Proof.
    intros W MD L R M. exists (takes_of (t_fn_mode P out b) scope0).
    set (x := takes_of (t_fn_mode P out b) scope0).
    split.
      { unfold fn_ctx. rewrite collect_who, who_mode.
        - rewrite W. fold x. destruct x; reflexivity.
        - unfold visit_last. rewrite MD, L. reflexivity. }
      { unfold x, t_fn_mode. rewrite L. destruct out as [t|].
        2: { rewrite MD. apply ft_other; intros; discriminate. }
        assert (Y : (forall bs, t <> TImpl bs) ->
          fn_takes (own_marker mo) b (Some t) (takes_of (if is_result_impl t && (2 <=? fst (visit_fn_block P b))%nat then VTry else cx_mode P) scope0)).
        { intros NI. rewrite (count_body P b R), M, MD. destruct (is_result_impl t) eqn:RI; cbn [andb].
          - destruct (2 <=? questions (own_marker mo) (body_exits false b))%nat eqn:Q.
            + apply ft_result; [apply result_impl_true; exact RI|apply Nat.leb_le; exact Q].
            + apply ft_other; [intros bs Z; injection Z; apply NI|]. intros t0 _ _. apply Nat.leb_gt. exact Q.
          - apply ft_other; [intros bs Z; injection Z; apply NI|]. intros t0 Z RI0. injection Z as <-. apply result_impl_iff in RI0. congruence. }
        destruct t; try (apply Y; intros; discriminate). cbn [takes_of sc_closure scope0]. apply ft_impl. }
  Qed.

  Theorem input_changes P i i' :
    ctx_root (enum_name (hash (NInput i))) args = inr P -> t_input ta T P i i' ->
    expanded (enum_name (hash (NInput i))) (own_marker mo) i i'.
  Proof.
    intros E H. destruct (root_who P _ E) as (W & MD & L & TR & A & R & M).
    set (own := enum_name (hash (NInput i))) in *.
    assert (ID : cx_ident P = own) by (change (w_enum (who_of P scope0) = own); rewrite W; reflexivity).
    assert (ND : is_dummy P = false) by (unfold is_dummy; rewrite A; destruct ps; congruence).
    assert (X : forall e e', t_parent_expr ta T P e false e' -> exists e1, code own (own_marker mo) e e1 /\ declared own e1 e').
    { intros e e'. unfold t_parent_expr. rewrite ND. intros (e1 & X & B). exists e1. split; [eapply code_of; eassumption|].
      apply declared_of in B. cbn [semi_ctx] in B. rewrite ID in B. exact B. }
    destruct i as [s|e|]; cbn [t_input] in H; [|destruct H as (e' & -> & H); destruct (X _ _ H) as (e1 & H1 & H2); eapply xp_expr; eassumption|contradiction].
    destruct H as (s' & -> & H). destruct s as [l|it|e semi|a mc semi]; cbn [t_parent_stmt] in H.
    - destruct H as (l' & -> & H). destruct l as [a p t i0 d]. cbn [t_parent_local] in H. cbv zeta in H. destruct H as (i' & d' & -> & H).
      assert (ND1 : is_dummy (t_collect ta P t) = false) by (unfold is_dummy, t_collect; destruct t; [destruct ta|]; cbn; rewrite A; destruct ps; congruence).
      rewrite ND1 in H. destruct H as (-> & e & e1 & e2 & -> & -> & XE & B). eapply xp_let; [apply type_cases| |].
      + eapply (code_of (t_collect ta P t)).
        * rewrite collect_who. exact W.
        * unfold t_collect. destruct t; [destruct ta|]; assumption.
        * unfold t_collect. destruct t; [destruct ta|]; assumption.
        * exact XE.
      + apply declared_of in B. replace (cx_ident (t_collect ta P t)) with own in B; [exact B|].
        rewrite <- ID. unfold t_collect; destruct t; [destruct ta|]; reflexivity.
    - destruct it as [a sg out b| |]; try contradiction. destruct H as (b' & -> & H). unfold t_parent_fn in H. cbv zeta in H.
      set (P1 := fn_ctx ta P out b) in *.
      assert (A1 : cx_args P1 = ps) by (unfold P1, fn_ctx, t_collect; destruct out; [destruct ta|]; exact A).
      assert (I1 : cx_ident P1 = own) by (unfold P1, fn_ctx, t_collect; destruct out; [destruct ta|]; exact ID).
      assert (ND1 : is_dummy P1 = false) by (unfold is_dummy; rewrite A1; destruct ps; congruence).
      rewrite ND1 in H. destruct H as (NE & b1 & k & _ & TB & H).
      destruct (fn_who P own out b W MD L R M) as (x & W1 & FT). fold P1 in W1.
      destruct H as [[(_ & AE & _) _]|(b2 & V & B)]; [congruence|].
      eapply xp_fn with (k := k) (b1 := b1) (b2 := b2); [exact FT|exact NE| | |].
      + rewrite <- W1. exact TB.
      + rewrite <- W1. eapply seq2_of; [|exact V]. intros. apply G. assumption.
      + destruct B as [->|(j & J & ->)]; [left; reflexivity|right]. exists j, (cx_args P1 ++ cx_traits P1). rewrite <- I1. auto.
    - destruct H as (e' & -> & H). destruct semi.
      + unfold t_parent_expr in H. rewrite ND in H. destruct H as (e1 & XE & B). apply declared_of in B. cbn [semi_ctx set_last cx_ident] in B. rewrite ID in B.
        eapply xp_semi; [|exact B]. rewrite <- W. pose proof (semi_of P true MD L) as SO. cbn [semi_ctx] in *. rewrite <- SO.
        unfold t_expand in XE. assert (VL : visit_last (set_last LNever P) = false) by reflexivity. rewrite VL in XE.
        eapply body_of; [exact G|]. destruct e; exact XE.
      + destruct (X _ _ H) as (e1 & H1 & H2). eapply xp_stmt; eassumption.
    - subst. constructor.
  Qed.

  Theorem attribute_changes i i' cx :
    attribute hash ta n args i = ROk (Code i' cx) -> expanded (enum_name (hash (NInput i))) (own_marker mo) i i'.
  Proof. intros H. apply attribute_twin in H. destruct H as (P & E & H). eapply input_changes; eassumption. Qed.
End Proofs.
