(** The edits disappear when the code is erased. *)

Require Import Coq.Strings.String Coq.Lists.List Coq.Bool.Bool Coq.NArith.NArith Lia.
Require Import Verif.Syntax Verif.Context Verif.AutoEnum Verif.AstInd Verif.Edits Verif.Erase.
Require Import Verif.RunLemmas Verif.AttributeRun.
Import ListNotations.
Open Scope string_scope.
Open Scope list_scope.

(** Not a block [{ e }]. *)
Definition nf (e : expr) : Prop :=
  match e with EBlock [] None [SExpr _ false] => False | _ => True end.
Definition nf_stmt (s : stmt) : Prop := match s with SExpr e _ => nf e | _ => True end.

Lemma nf_attributed a e : nf e -> nf (attributed a e).
Proof. destruct a; cbn; auto. Qed.

(** The two ways to see a normal expression as a block body. *)
Lemma open_cases e :
  nf e -> (e = EBlock [] None (open_block e) /\ (forall x, open_block e <> [SExpr x false]))
          \/ open_block e = [SExpr e false].
Proof.
  intros H. destruct e as [a l b| | | | | | | | | | | | | | | | | | |]; auto.
  destruct a; auto. destruct l; auto. left. cbn. split; [reflexivity|].
  intros x ->. exact H.
Qed.

Lemma block_open e : nf e -> block_expr [] None (open_block e) = e.
Proof.
  intros H. destruct (open_cases e H) as [[E N]|E].
  - rewrite E at 2. destruct (open_block e) as [|[| |x []|] []]; try reflexivity.
    destruct (N x). reflexivity.
  - rewrite E. reflexivity.
Qed.

(** What [body] does. *)
Lemma body_cases b :
  Forall nf_stmt b ->
  (exists e, nf e /\ body b = open_block e) \/ (body b = b /\ forall x, b <> [SExpr x false]).
Proof.
  intros H. destruct b as [|s1 r]; [right; split; [reflexivity|discriminate]|].
  inversion H; subst. destruct s1 as [l|it|e semi|a m semi].
  - right. split; [reflexivity|discriminate].
  - destruct it as [| g|]; try (right; split; [reflexivity|discriminate]).
    destruct r as [|[| |e []|] []]; try (right; split; [reflexivity|discriminate]). cbn.
    destruct (gen_name (g_ident g)); [|right; split; [reflexivity|discriminate]].
    left. exists e. inversion H3; subst. auto.
  - destruct semi; [right; split; [reflexivity|discriminate]|].
    destruct r; [|right; split; [reflexivity|discriminate]].
    left. exists e. auto.
  - right. split; [reflexivity|discriminate].
Qed.

Lemma nf_block a l b : Forall nf_stmt b -> nf (block_expr a l (body b)).
Proof.
  intros H. destruct a; [|exact I]. destruct l; [exact I|].
  destruct (body_cases b H) as [(e & N & E)|[E N]]; rewrite E.
  - rewrite block_open by assumption. assumption.
  - destruct b as [|[| |x []|] []]; try exact I. destruct (N x). reflexivity.
Qed.

(** The body of a branch is unchanged by [{ E::V({ .. }) }]. *)
Lemma body_block b :
  Forall nf_stmt b -> body [SExpr (block_expr [] None (body b)) false] = body b.
Proof.
  intros H. change (body [SExpr (block_expr [] None (body b)) false])
    with (open_block (block_expr [] None (body b))).
  destruct (body_cases b H) as [(e & N & E)|[E N]]; rewrite E.
  - rewrite block_open by assumption. reflexivity.
  - destruct b as [|[| |x []|] []]; try reflexivity. destruct (N x). reflexivity.
Qed.

Section EraseRun.
  Variable mk : string -> bool.
  Notation er := (erase_expr mk).
  Notation ers := (erase_stmt mk).
  Notation era := (erase_arm mk).
  Notation erl := (erase_local mk).

  Lemma erase_nf :
    (forall e, nf (er e)) /\ (forall s, nf_stmt (ers s)) /\ (forall x : arm, True) /\ (forall x : local, True).
  Proof.
    assert (FM : forall b, Forall (fun s => nf_stmt (ers s)) b -> Forall nf_stmt (map ers b)).
    { intros b H. apply Forall_map. exact H. }
    apply ast_ind; intros; try exact I; cbn [erase_expr erase_stmt nf_stmt]; try exact I; try assumption.
    - apply nf_block. auto.
    - unfold match_expr. destruct (is_question _); exact I.
    - destruct e as [x|]; [|exact I]. destruct (is_marker mk p); [|exact I]. apply nf_attributed. assumption.
    - unfold call_expr. destruct (er f) as [| | | | | | | | | | | | | | | | |[] []| |]; try exact I.
      destruct args as [|x []]; try exact I. cbn [map]. destruct (is_ctor p); [|exact I].
      inversion H0; subst. apply nf_attributed. assumption.
  Qed.

  Lemma stmts_nf b : Forall nf_stmt (map ers b).
  Proof. apply Forall_forall. intros s H. apply in_map_iff in H. destruct H as (x & <- & _). apply erase_nf. Qed.

  Lemma strip_app a b : strip (a ++ b) = strip a ++ strip b.
  Proof. apply filter_app. Qed.

  Lemma strip_drop a a' : drops_attr a a' -> strip a' = strip a.
  Proof.
    intros (l & x & r & -> & -> & H). rewrite !strip_app. f_equal.
    unfold strip at 2. cbn [filter]. rewrite H. reflexivity.
  Qed.

  Lemma erase_attrs e a' : strip a' = strip (e_attrs e) -> er (set_attrs e a') = er e.
  Proof.
    intros H. destruct e; cbn [set_attrs erase_expr e_attrs] in *; rewrite ?H; try reflexivity.
  Qed.

  Lemma erase_wrap i v e : gen_name i = true -> er (wrap i v e) = er e.
  Proof. intros H. cbn. rewrite H. reflexivity. Qed.

  Lemma erase_branch i v b :
    gen_name i = true -> body (map ers (wrap_branch i v b)) = body (map ers b).
  Proof.
    intros H. unfold wrap_branch. cbn [map erase_stmt]. rewrite erase_wrap by assumption.
    cbn [erase_expr strip filter]. apply body_block, stmts_nf.
  Qed.

  Lemma erase_operand o : no_unit (option_map er (Some (operand o))) = no_unit (option_map er o).
  Proof. destruct o; reflexivity. Qed.

  Lemma is_question_arms i v :
    gen_name i = true -> is_question (map era (question_arms i v)) = true.
  Proof. intros H. unfold question_arms. cbn. rewrite H. reflexivity. Qed.

  Lemma is_marker_ident p m : mk m = true -> is_ident p m = true -> is_marker mk p = true.
  Proof.
    destruct p as [[] [|[i []] []]]; try discriminate. cbn. intros H E.
    apply String.eqb_eq in E. subst. assumption.
  Qed.

  Ltac ecbn := cbn [erase_expr erase_stmt erase_arm erase_local map option_map];
    fold (erase_expr mk) (erase_stmt mk) (erase_arm mk) (erase_local mk).

  Ltac cl := repeat match goal with
    | H : forallb clean (_ ++ _) = true |- _ => rewrite forallb_app in H
    | H : _ && _ = true |- _ => apply andb_true_iff in H; destruct H
    end.

  Lemma erase_edit :
    (forall t e e', ed_expr mk t e e' -> forallb clean t = true -> er e' = er e)
    /\ (forall t l l', ed_exprs mk t l l' -> forallb clean t = true -> map er l' = map er l)
    /\ (forall t o o', ed_opt mk t o o' -> forallb clean t = true -> option_map er o' = option_map er o)
    /\ (forall t s s', ed_stmt mk t s s' -> forallb clean t = true -> ers s' = ers s)
    /\ (forall t l l', ed_stmts mk t l l' -> forallb clean t = true -> map ers l' = map ers l)
    /\ (forall t x x', ed_arm mk t x x' -> forallb clean t = true -> era x' = era x)
    /\ (forall t l l', ed_arms mk t l l' -> forallb clean t = true -> map era l' = map era l)
    /\ (forall t x x', ed_local mk t x x' -> forallb clean t = true -> erl x' = erl x).
  Proof.
    apply (ed_ind mk); intros; cl; try discriminate; try reflexivity;
      try (ecbn;
           repeat match goal with
             | H : forallb clean ?t = true -> _, C : forallb clean ?t = true |- _ => specialize (H C); rewrite H
             end; reflexivity).
    - apply erase_attrs, strip_drop. assumption.
    - cbn in H. cl. ecbn. rewrite erase_branch by assumption. reflexivity.
    - cbn in H. cl. ecbn. rewrite erase_branch by assumption. reflexivity.
    - cbn in H. cl. ecbn. rewrite erase_wrap by assumption.
      change (Some (er (operand o))) with (option_map er (Some (operand o))).
      rewrite erase_operand. reflexivity.
    - cbn in H. cl. ecbn. rewrite erase_wrap by assumption.
      change (Some (er (operand o))) with (option_map er (Some (operand o))).
      rewrite erase_operand. reflexivity.
    - cbn in H. cl. ecbn. unfold match_expr. rewrite is_question_arms by assumption. reflexivity.
    - cbn in H. cl. ecbn. rewrite (is_marker_ident p m) by assumption.
      unfold call_expr. cbn. rewrite H. reflexivity.
    - cbn [forallb clean] in H0. cl. ecbn. cbn [strip filter body].
      cbn [g_ident enum_of] in *. rewrite H0, (H H2). apply block_open, erase_nf.
    - ecbn. rewrite (strip_drop _ _ d). reflexivity.
    - cbn in H. cl. ecbn. rewrite erase_wrap by assumption. reflexivity.
    - ecbn. rewrite (strip_drop _ _ d0). reflexivity.
    - ecbn. cbn [let_type]. rewrite e. reflexivity.
  Qed.

  Lemma erase_input t i i' : ed_input mk t i i' -> forallb clean t = true -> erase mk i' = erase mk i.
  Proof.
    destruct erase_edit as (He & _ & _ & Hs & Hss & _).
    intros H C. inversion H; subst; cbn [erase].
    - rewrite (He _ _ _ H0 C). reflexivity.
    - assert (E : ers s' = ers s) by eauto.
      inversion H0; subst; cbn [erase_stmt] in *; congruence.
    - match goal with HB : ed_body _ _ _ _ |- _ => inversion HB; subst end.
      + erewrite Hss; eauto.
      + cbn [forallb clean] in C. cl. cbn [map erase_stmt no_enums]. cbn [g_ident enum_of] in *.
        rewrite H3. erewrite Hss; eauto.
  Qed.
End EraseRun.

Theorem erase_output hash ta n args i i' cx :
  attribute hash ta n args i = ROk (Code i' cx) ->
  erase (marker_name args i) i' = erase (marker_name args i) i.
Proof.
  intros H. destruct (attribute_edits _ _ _ _ _ _ _ H) as (t & R & [C _] & _).
  eapply erase_input; eassumption.
Qed.
