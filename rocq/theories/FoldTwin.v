(** Folds over related trees: if a relation holds for the folds of the children, it holds for the fold. *)

Require Import Coq.Strings.String Coq.Lists.List Coq.Bool.Bool Coq.Arith.Arith Coq.NArith.NArith.
Require Import Verif.Syntax Verif.Context Verif.ExprModel Verif.AutoEnum Verif.Edits.
Require Import Verif.AstInd Verif.Twin Verif.TwinEdits.
Import ListNotations.
Open Scope string_scope.
Open Scope list_scope.

Section Folds.
  Context {A B : Type} (plus : A -> A -> A) (zero : A) (plus' : B -> B -> B) (zero' : B) (R : A -> B -> Prop).
  Hypothesis R0 : R zero zero'.
  Hypothesis Rp : forall a a' b b', R a a' -> R b b' -> R (plus a b) (plus' a' b').

  Lemma fold_list2 {C D} (f : C -> A) (g : D -> B) l l' :
    Forall2 (fun x y => R (f x) (g y)) l l' -> R (fold_list plus zero f l) (fold_list plus' zero' g l').
  Proof. induction 1; cbn; auto. Qed.
  Lemma fold_all2 {C} (Q : C -> C -> Prop) (f : C -> A) (g : C -> B) l l' :
    Forall (fun x => forall y, Q x y -> R (f x) (g y)) l -> all2 Q l l' ->
    R (fold_list plus zero f l) (fold_list plus' zero' g l').
  Proof.
    intros H. revert l'. induction H as [|x l H1 H2 IH]; cbn [all2]; intros l'; [intros ->; exact R0|].
    intros (y & s & -> & K1 & K2). apply Rp; [apply H1; exact K1|apply IH; exact K2].
  Qed.
  Lemma fold_opt2 {C} (Q : C -> C -> Prop) (f : C -> A) (g : C -> B) o o' :
    opt_all (fun x => forall y, Q x y -> R (f x) (g y)) o -> opt2 Q o o' ->
    R (fold_opt zero f o) (fold_opt zero' g o').
  Proof. destruct o; cbn; [intros H (y & -> & K); cbn; auto|intros _ ->; auto]. Qed.

  Variables (fe : expr -> A) (fs : stmt -> A) (fa : arm -> A) (fl : local -> A).
  Variables (ge : expr -> B) (gs : stmt -> B) (ga : arm -> B) (gl : local -> B).

  Lemma fold_walk V e e' :
    kids (fun x => forall x', o_expr V x x' -> R (fe x) (ge x')) (fun x => forall x', o_stmt V x x' -> R (fs x) (gs x'))
         (fun x => forall x', o_arm V x x' -> R (fa x) (ga x')) e ->
    t_walk V e e' ->
    R (fold_expr plus zero fe fs fa e) (fold_expr plus' zero' ge gs ga e').
  Proof.
    assert (L := fun b b' => fold_all2 (o_stmt V) fs gs b b').
    assert (LE := fun b b' => fold_all2 (o_expr V) fe ge b b').
    assert (LA := fun b b' => fold_all2 (o_arm V) fa ga b b').
    assert (O := fun b b' => fold_opt2 (o_expr V) fe ge b b').
    destruct e; cbn [kids t_walk]; intros K W;
      repeat match goal with H : exists _, _ |- _ => destruct H | H : _ /\ _ |- _ => destruct H end; subst;
      cbn [fold_expr]; auto.
  Qed.
  Lemma fold_arm2 (f : expr -> expr -> Prop) x x' :
    match x with Arm _ _ g b _ => opt_all (fun e => forall e', f e e' -> R (fe e) (ge e')) g
                   /\ (forall e', f b e' -> R (fe b) (ge e')) end ->
    t_arm f x x' -> R (fold_arm plus zero fe x) (fold_arm plus' zero' ge x').
  Proof.
    destruct x. cbn. intros [H1 H2] (g' & b' & -> & K1 & K2). cbn. apply Rp; [|auto].
    eapply fold_opt2; eassumption.
  Qed.
  Lemma fold_local2 (f : expr -> expr -> Prop) x x' :
    match x with Local _ _ _ i d => opt_all (fun e => forall e', f e e' -> R (fe e) (ge e')) i
                   /\ opt_all (fun e => forall e', f e e' -> R (fe e) (ge e')) d end ->
    t_local f x x' -> R (fold_local plus zero fe x) (fold_local plus' zero' ge x').
  Proof.
    destruct x. cbn. intros [H1 H2] (g' & b' & -> & K1 & K2). cbn. apply Rp; eapply fold_opt2; eassumption.
  Qed.
  Lemma fold_stmt2 (f : expr -> expr -> Prop) (h : local -> local -> Prop) s s' :
    match s with SExpr e _ => forall e', f e e' -> R (fe e) (ge e') | SLocal l => forall l', h l l' -> R (fl l) (gl l')
    | _ => True end ->
    t_stmt f h s s' -> R (fold_stmt zero fe fl s) (fold_stmt zero' ge gl s').
  Proof.
    destruct s; cbn; intros H; [intros (l' & -> & K)|intros ->|intros (l' & -> & K)|intros ->]; cbn; auto.
  Qed.
End Folds.

(** The head of a walked expression. *)
Lemma walk_attrs V e e' : t_walk V e e' -> e_attrs e' = e_attrs e.
Proof.
  destruct e; cbn [t_walk]; intros W;
    repeat match goal with H : exists _, _ |- _ => destruct H | H : _ /\ _ |- _ => destruct H end; subst; reflexivity.
Qed.
