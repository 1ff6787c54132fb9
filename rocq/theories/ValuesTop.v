(** Executions of annotated code and of the expanded code. *)

Require Import Coq.Strings.String Coq.Lists.List Coq.Bool.Bool Coq.Arith.Arith Coq.NArith.NArith.
Require Import Verif.Syntax Verif.Context Verif.ExprModel Verif.AutoEnum Verif.Edits Verif.Tails Verif.RunLemmas Verif.Changes Verif.ChangesTop Verif.Branches
  Verif.BranchesRun Verif.BranchesClean Verif.Values Verif.Eval Verif.EvalRun Verif.ValuesRun.
Import ListNotations.
Open Scope string_scope.
Open Scope list_scope.

Section Top.
  Context {W : Type}.
  Variables (O : ops W) (mk : string -> bool) (own m : string).
  Hypothesis GEN : gen_name own = true.
  Hypothesis MK : forall s, mk s = true -> s = m.

  Lemma outermost_fit x : fit own m x (outermost own m x).
  Proof. repeat split. Qed.

  Lemma eval_is n e en w : eval W O mk n e en w = ev W O mk n (calls W O mk n) false e en w.
  Proof. destruct n; reflexivity. Qed.

  (** An expression. *)
  Lemma body_lifts n e e1 e' : body (outermost own m TakesNone) e e1 -> declared own e1 e' ->
    covered m e -> tidy m TakesNone e = true -> forall en w, lifts own true none false (eval W O mk n e en w) (eval W O mk n e' en w).
  Proof.
    intros B D C T en w. rewrite !eval_is. set (self := calls W O mk n).
    assert (K : lifts own true none false (ev W O mk n self false e en w) (ev W O mk n self false e1 en w)).
    { inversion B as [? ? e0 k ? BR DN|? ? ? ? G]; subst; [|discriminate]. eapply lifts_trans.
      - eapply tail_lifted; [exact GEN|exact MK|apply outermost_mark|exact BR|exact C|exact T].
      - eapply (proj1 (done_lifts O mk n self own GEN m TakesNone MK ltac:(discriminate))); [exact DN|apply outermost_fit|].
        eapply tail_tidy; [exact BR|exact T]. }
    destruct D as [->|(j & dv & _ & ->)]; [exact K|].
    assert (E : ev W O mk n self false (EBlock [] None [SItem (IEnum (enum_of own (variants j) dv)); SExpr e1 false]) en w = ev W O mk n self false e1 en w).
    { change (labelled W None (match as_stmt W [] (fun x => x) (ev W O mk n self false e1 en w) with SGo _ _ x w1 => (ONorm x, w1) | SOut _ o w1 => (o, w1) end)
        = ev W O mk n self false e1 en w). destruct (ev W O mk n self false e1 en w) as [[] u]; reflexivity. }
    rewrite E. exact K.
  Qed.

  (** The body of a closure that takes its [return]s; the closure itself. *)
  Lemma closure_lifts n b b' : body (outermost own m TakesReturns) b b' -> covered m b -> tidy m TakesReturns b = true ->
    forall en w, lifts own true none true (eval W O mk n b en w) (eval W O mk n b' en w).
  Proof.
    intros B C T en w. rewrite !eval_is. set (self := calls W O mk n).
    inversion B as [? ? e0 k ? BR DN|? ? ? ? G]; subst; [|discriminate]. eapply lifts_trans.
    - eapply tail_lifted; [exact GEN|exact MK|apply outermost_mark|exact BR|exact C|exact T].
    - eapply (proj1 (done_lifts O mk n self own GEN m TakesReturns MK ltac:(discriminate))); [exact DN|apply outermost_fit|].
      eapply tail_tidy; [exact BR|exact T].
  Qed.
  Lemma declared_closure n a ps b e' en w : declared own (EClosure a ps b) e' -> eval W O mk n e' en w = (ONorm (VClos ps b en), w).
  Proof. rewrite eval_is. intros [->|(j & dv & _ & ->)]; reflexivity. Qed.

  Lemma tail_body_tidy x mp t b b' : tail_body own mp t b b' -> Forall (fun s => tidy_stmt m x s = true) b -> Forall (fun s => tidy_stmt m x s = true) b'.
  Proof.
    intros H F. destruct H as [t r e e' H|b E]; [|exact F]. apply Forall_app in F. destruct F as [F1 F2]. inversion F2; subst. apply Forall_app. split; [exact F1|].
    constructor; [|constructor]. eapply tail_tidy; [exact H|assumption].
  Qed.

  (** The body of a function that takes its [return]s. *)
  Lemma fn_lifts n k b b1 b2 b' : b <> [] -> branches_body (outermost own m TakesReturns) (from 0 k) b b1 ->
    seq2 (fun _ => done_stmt (outermost own m TakesReturns)) [] b1 b2 -> declared_in own b2 b' ->
    covered_body m b -> forallb (tidy_stmt m TakesReturns) b = true ->
    forall en w, lifts own true none true (eval_block W O mk n b en w) (eval_block W O mk n b' en w).
  Proof.
    intros NE BB DS D C T en w. unfold eval_block. set (self := calls W O mk n).
    assert (F : Forall (fun s => tidy_stmt m TakesReturns s = true) b) by (apply Forall_forall; rewrite forallb_forall in T; exact T).
    assert (K : lifts own true none true (ev_stmts W (ev_stmt W O mk n self) false b en w) (ev_stmts W (ev_stmt W O mk n self) false b2 en w)).
    { eapply lifts_trans.
      - eapply body_lifted; [exact GEN|exact MK|apply outermost_mark|exact BB|exact C|exact T].
      - apply stmts_same. apply tail_body_tidy with (x := TakesReturns) in BB; [|exact F].
        clear -DS BB GEN MK. remember (@nil string) as t eqn:E. clear E. induction DS; constructor; inversion BB; subst; [|auto].
        eapply (proj2 (done_lifts O mk n self own GEN m TakesReturns MK ltac:(discriminate))); [eassumption|apply outermost_fit|assumption]. }
    assert (N2 : b2 <> []).
    { apply seq2_length in DS. destruct BB as [t r e e' _|b0 _]; intros ->; [rewrite app_length in DS; cbn in DS; rewrite Nat.add_comm in DS; discriminate|].
      destruct b0; [congruence|discriminate]. }
    destruct D as [->|(j & dv & _ & ->)]; [exact K|]. cbn [ev_stmts Eval.ev_stmt]. destruct b2; [congruence|exact K].
  Qed.

  Lemma lifts_in_variant r r' : lifts own true none false r r' -> in_variant own (as_stmt W [] (fun x => x) r) (as_stmt W [] (fun x => x) r').
  Proof. destruct 1; cbn in *; subst; try reflexivity. destruct H as (v & ->). eauto. Qed.
  Lemma finish_in_variant r r' : lifts own true none true r r' -> in_variant own (as_stmt W [] (fun x => x) (finish W r)) (as_stmt W [] (fun x => x) (finish W r')).
  Proof. destruct 1; cbn in *; subst; try reflexivity; destruct H as (v & ->); eauto. Qed.
End Top.
