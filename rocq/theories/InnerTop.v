(** Executions of expanded code with nested attributes. *)

Require Import Coq.Strings.String Coq.Lists.List Coq.Bool.Bool Coq.Arith.Arith.
Require Import Verif.Syntax Verif.AstInd Verif.Context Verif.ExprModel Verif.AutoEnum Verif.Edits Verif.NoValueSpec Verif.Excused Verif.Tails Verif.TwinEdits Verif.RunLemmas Verif.Loops Verif.Changes Verif.ChangesTop Verif.Branches
  Verif.BranchesRun Verif.BranchesClean Verif.Values Verif.Eval Verif.EvalRun Verif.NoValueEval Verif.ValuesRun Verif.ValuesTop Verif.Exits Verif.ExitsTop Verif.Annotated Verif.AnnotatedRun Verif.AnnotatedTop Verif.Inner Verif.InnerRun.
Import ListNotations.
Open Scope string_scope.
Open Scope list_scope.

Lemma returns_good own m l l' : Forall2 (return_wrapped own m) l l' -> returns_taken m l = true -> Forall (good own) l'.
Proof.
  intros H. induction H as [|y y' l l' R _ IH]; intros T; [constructor|]. cbn in T. apply andb_true_iff in T. destruct T as [T1 T2].
  constructor; [|apply IH; exact T2]. unfold return_wrapped in R. destruct (snd y) as [a o| |]; try discriminate. apply negb_true_iff in T1. rewrite T1 in R.
  destruct R as (a' & v & z & E & _). exists a', v, z. exact E.
Qed.

Section Top.
  Context {W : Type}.
  Variables (O : ops W) (mk : string -> bool) (own m : string) (halts : expr -> Prop) (n : nat).
  Hypothesis GEN : gen_name own = true.
  Hypothesis HALT : forall e, halts e -> forall en w y u, eval W O mk n e en w <> (ONorm y, u).
  Let self := calls W O mk n.

  Lemma body_owned x e e' : x <> TakesQuestions -> body (outermost own m x) e e' -> ends mk m x halts e ->
    forall en w y u, eval W O mk n e' en w = (ONorm y, u) -> mine own y.
  Proof.
    intros XQ B S en w y u. rewrite !eval_is. destruct (outermost_fits own m x) as [F|]; [|congruence].
    inversion B as [? ? e0 k0 ? BR DN|? ? ? ? G]; subst; [|discriminate].
    unfold branches in BR. rewrite (proj2 F) in BR. cbn [w_enum outermost] in BR.
    refine (proj1 (ends_owned O mk n self own GEN m x halts XQ _) e S _ (fits_mark own m x _ F) _ _ _ _ _ F BR DN en w y u).
    intros e1 H1. apply halt_ev with (halts := halts); [exact HALT|exact H1].
  Qed.

  Lemma fn_owned k b b1 b2 b' : b <> [] -> branches_body (outermost own m TakesReturns) (from 0 k) b b1 ->
    seq2 (fun _ => done_stmt (outermost own m TakesReturns)) [] b1 b2 -> declared_in own b2 b' -> ends_body mk m TakesReturns halts b ->
    forall en w y u, eval_block W O mk n b' en w = (ONorm y, u) -> mine own y.
  Proof.
    intros NE BB DS D C. unfold eval_block. change (calls W O mk n) with self.
    assert (XQ : TakesReturns <> TakesQuestions) by discriminate.
    assert (F : fits own m TakesReturns (outermost own m TakesReturns)) by (split; [apply outermost_fit|reflexivity]).
    pose proof (fits_mark own m TakesReturns _ F) as MP.
    assert (H : forall e, halts e -> forall en w y u, ev W O mk n self false e en w <> (ONorm y, u)) by (intros e1 H1; apply halt_ev with (halts := halts); [exact HALT|exact H1]).
    assert (LV : forall r s b2, leaving_stmt mk m s -> seq2 (fun _ => done_stmt (outermost own m TakesReturns)) [] (r ++ [s]) b2 ->
      forall en w y u, ev_stmts W (ev_stmt W O mk n self) false b2 en w = (ONorm y, u) -> mine own y).
    { intros r s l L X en w y u E. apply (snoc_done) in X. destruct X as (r' & s' & -> & X).
      pose proof (proj2 (leaving_done O mk n self own m TakesReturns) s L _ _ F X) as N.
      exfalso. revert en w E. induction r' as [|s0 r' IH]; intros en w; cbn [app]; rewrite (ev_stmts_cons mk O n self).
      - specialize (N (false && true) en w). pose proof (out_not_norm O mk n self (false && true) s' en w) as Y.
        destruct (ev_stmt W O mk n self (false && true) s' en w); [contradiction|]. intros E. injection E as -> _. contradiction.
      - destruct (r' ++ [s']) eqn:E; [destruct r'; discriminate|]. pose proof (out_not_norm O mk n self (false && false) s0 en w) as Y.
        destruct (ev_stmt W O mk n self (false && false) s0 en w); [apply IH|]. intros K. injection K as -> _. contradiction. }
    assert (K : forall en w y u, ev_stmts W (ev_stmt W O mk n self) false b2 en w = (ONorm y, u) -> mine own y).
    { cbn [branches_body w_branches outermost] in BB. destruct C as [r e SP|r s L].
      - inversion BB as [t r0 e0 e1 TL E|b0 EV]; subst; [|rewrite ends_in_value_snoc in EV; discriminate].
        match goal with E : _ ++ [_] = _ ++ [_] |- _ => apply app_inj_tail in E; destruct E as [-> E]; injection E as -> end.
        apply last_done in DS. destruct DS as (r' & e' & -> & DD). apply last_owned.
        eapply (proj1 (ends_owned O mk n self own GEN m TakesReturns halts XQ H) e SP _ MP); [exact F|exact TL|exact DD].
      - inversion BB as [t r0 e0 e1 TL E|b0 EV]; subst.
        + match goal with E : _ ++ [_] = _ ++ [_] |- _ => apply app_inj_tail in E; destruct E as [-> <-] end.
          eapply LV; [|exact DS]. constructor. inversion L; subst. eapply leaving_tail; eassumption.
        + eapply LV; [exact L|exact DS]. }
    assert (N2 : b2 <> []).
    { apply seq2_length in DS. destruct BB as [t r e e' _|b0 _]; intros ->; [rewrite app_length in DS; cbn in DS; rewrite Nat.add_comm in DS; discriminate|].
      destruct b0; [congruence|discriminate]. }
    destruct D as [->|(j & dv & _ & ->)]; [exact K|]. cbn [ev_stmts Eval.ev_stmt]. destruct b2; [congruence|exact K].
  Qed.

  (** The result of a function or closure whose [return]s and whose end are in a variant. *)
  Lemma finish_owned (r : result W) : safe own r -> (forall y u, r = (ONorm y, u) -> mine own y) -> one_variant own (as_stmt W [] (fun x => x) (finish W r)).
  Proof. destruct r as [[] u]; cbn; intros S N; auto. exact (N _ _ eq_refl). Qed.
  Lemma block_safe b : Forall (good own) (body_exits false b) -> forall en w, safe own (eval_block W O mk n b en w).
  Proof.
    intros G en w. unfold eval_block. apply safe_stmts. unfold body_exits in G.
    eapply (good_list own (exits_stmt false (Place false false))); [exact G|]. apply Forall_forall. intros s _ GS pl en1 w1.
    exact (proj1 (proj2 (safe_all O mk n self own GEN)) s _ GS pl en1 w1).
  Qed.
  Lemma code_safe pl e : Forall (good own) (exits false pl e) -> forall en w, safe own (eval W O mk n e en w).
  Proof. intros G en w. rewrite eval_is. exact (proj1 (safe_all O mk n self own GEN) e _ G false en w). Qed.
End Top.
