(** Executions of code with markers, [#[nested]] and [#[never]] and of the expanded code. *)

Require Import Coq.Strings.String Coq.Lists.List Coq.Bool.Bool Coq.Arith.Arith Coq.NArith.NArith.
Require Import Verif.Syntax Verif.AstInd Verif.Context Verif.ExprModel Verif.AutoEnum Verif.Edits Verif.NoValueSpec Verif.Excused Verif.Tails Verif.TwinEdits Verif.RunLemmas Verif.Loops Verif.Changes Verif.ChangesTop Verif.Branches
  Verif.BranchesRun Verif.BranchesClean Verif.Values Verif.Eval Verif.EvalRun Verif.NoValueEval Verif.ValuesRun Verif.ValuesTop Verif.Annotated Verif.AnnotatedRun.
Import ListNotations.
Open Scope string_scope.
Open Scope list_scope.

(** Code without annotations is a special case. *)
Section Covered.
  Variables (m : string) (x : Changes.takes) (halts : expr -> Prop).

  Lemma chain_spread e : covered_chain m e -> tidy m x e = true -> spread m x halts e.
  Proof.
    intros C. induction C as [a c b1 ea b2 S1 S2|a c b e S C IH]; intros T; pose proof (tidy_help _ _ _ T) as N;
      destruct (tidy_kids _ _ _ T eq_refl) as (_ & T0 & T1 & T2); cbn [opt_all] in T2; apply tidy_forall in T1.
    - apply sp_if; [exact N|exact T0|apply sb_whole; assumption|]. destruct (tidy_kids _ _ _ T2 eq_refl) as (_ & T3). apply tidy_forall in T3.
      apply se_block; [exact (tidy_help _ _ _ T2)|]. apply sb_whole; assumption.
    - apply sp_if; [exact N|exact T0|apply sb_whole; assumption|]. destruct C; apply se_if; auto.
  Qed.
  Lemma covered_spread e : covered m e -> tidy m x e = true -> spread m x halts e.
  Proof.
    intros C. induction C as [e NN XX|a s arms S|e C|a l b S|a b e C IH|a b e C IH|a e C IH]; intros T; pose proof (tidy_help _ _ _ T) as N.
    - apply sp_no_value; assumption.
    - destruct (tidy_kids _ _ _ T eq_refl) as (_ & T0 & T1). apply sp_match; [exact N|exact T0|]. clear -S T1.
      induction S as [|[a p g b c] arms S _ IH]; constructor; inversion T1 as [|? ? Q R]; subst; try (apply IH; assumption);
        cbn in Q; apply andb_true_iff in Q; destruct Q as [N Q]; apply andb_true_iff in Q; destruct Q as [Q1 Q2]; [exact Q1|].
      apply sm_whole; assumption.
    - apply chain_spread; assumption.
    - apply sp_loop; assumption.
    - destruct (tidy_kids _ _ _ T eq_refl) as (_ & T1). apply Forall_app in T1. destruct T1 as [T1 T2]. inversion T2; subst.
      apply sp_block; [exact N|apply tidy_forall; exact T1|auto].
    - destruct (tidy_kids _ _ _ T eq_refl) as (_ & T1). apply Forall_app in T1. destruct T1 as [T1 T2]. inversion T2; subst.
      apply sp_unsafe; [exact N|apply tidy_forall; exact T1|auto].
    - destruct (tidy_kids _ _ _ T eq_refl) as (_ & T1). apply sp_paren; [exact N|auto].
  Qed.
  Lemma covered_body_spread b : covered_body m b -> forallb (tidy_stmt m x) b = true -> spread_body m x halts b.
  Proof.
    intros C T. destruct C as [b e C|b s N X].
    - rewrite forallb_app in T. apply andb_true_iff in T. destruct T as [T1 T2]. cbn in T2. rewrite andb_true_r in T2.
      apply sy_value; [exact T1|]. apply covered_spread; assumption.
    - apply sy_exit; assumption.
  Qed.
End Covered.

Section Top.
  Context {W : Type}.
  Variables (O : ops W) (mk : string -> bool) (own m : string) (halts : expr -> Prop) (n : nat).
  Hypothesis GEN : gen_name own = true.
  Hypothesis MK : forall s, mk s = true <-> s = m.
  Hypothesis HALT : forall e, halts e -> forall en w y u, eval W O mk n e en w <> (ONorm y, u).
  Let self := calls W O mk n.
  Let MK1 s : mk s = true -> s = m := proj1 (MK s).

  Lemma halt_ev e : halts e -> forall en w y u, ev W O mk n self false e en w <> (ONorm y, u).
  Proof. intros H en w y u. unfold self. rewrite <- eval_is. apply HALT. exact H. Qed.
  Lemma outermost_fits x : fits own m x (outermost own m x) \/ x = TakesQuestions.
  Proof. destruct x; [left|left|right; reflexivity]; (split; [apply outermost_fit|reflexivity]). Qed.

  Lemma body_given x e e' : x <> TakesQuestions -> body (outermost own m x) e e' -> spread m x halts e ->
    forall en w, lifts own true none (with_returns x) (eval W O mk n e en w) (eval W O mk n e' en w).
  Proof.
    intros XQ B S en w. rewrite !eval_is. destruct (outermost_fits x) as [F|]; [|congruence].
    inversion B as [? ? e0 k0 ? BR DN|? ? ? ? G]; subst; [|discriminate].
    unfold branches in BR. rewrite (proj2 F) in BR. cbn [w_enum outermost] in BR.
    exact (proj1 (spread_given O mk n self own GEN m x MK XQ halts halt_ev) e S _ (fits_mark own m x _ F) _ _ _ _ _ F BR DN en w).
  Qed.
  Lemma declared_given e1 e' en w : declared own e1 e' -> eval W O mk n e' en w = eval W O mk n e1 en w.
  Proof.
    rewrite !eval_is. intros [->|(j & dv & _ & ->)]; [reflexivity|].
    change (labelled W None (match as_stmt W [] (fun x => x) (ev W O mk n self false e1 en w) with SGo _ _ x w1 => (ONorm x, w1) | SOut _ o w1 => (o, w1) end)
        = ev W O mk n self false e1 en w). destruct (ev W O mk n self false e1 en w) as [[] u]; reflexivity.
  Qed.

  Lemma fn_given k b b1 b2 b' : b <> [] -> branches_body (outermost own m TakesReturns) (from 0 k) b b1 ->
    seq2 (fun _ => done_stmt (outermost own m TakesReturns)) [] b1 b2 -> declared_in own b2 b' -> spread_body m TakesReturns halts b ->
    forall en w, lifts own true none true (eval_block W O mk n b en w) (eval_block W O mk n b' en w).
  Proof.
    intros NE BB DS D C en w. unfold eval_block. change (calls W O mk n) with self.
    assert (XQ : TakesReturns <> TakesQuestions) by discriminate.
    assert (F : fits own m TakesReturns (outermost own m TakesReturns)) by (split; [apply outermost_fit|reflexivity]).
    pose proof (fits_mark own m TakesReturns _ F) as MP.
    assert (EXIT : forall r s, forallb (tidy_stmt m TakesReturns) (r ++ [s]) = true -> no_value_stmt (fun s => s = m) s -> ~ excused_stmt (fun s => s = m) s ->
      b = r ++ [s] -> b1 = b -> lifts own true none true (ev_stmts W (ev_stmt W O mk n self) false b en w) (ev_stmts W (ev_stmt W O mk n self) false b2 en w)).
    { intros r s T N X -> ->. destruct (proj2 (proj2 (no_value_eval O mk n self _ MK1)) s N) as [H|H]; [contradiction|].
      eapply lifts_any; [apply stmts_same; eapply (done_stmts O mk n self own GEN m TakesReturns MK XQ); [exact F|exact T|exact DS]|].
      intros (y & u1 & E). apply (stmts_nv O mk n self r s H false en w). rewrite E. exact I. }
    assert (K : lifts own true none true (ev_stmts W (ev_stmt W O mk n self) false b en w) (ev_stmts W (ev_stmt W O mk n self) false b2 en w)).
    { destruct C as [r e T SP|r s T N X].
      - cbn [branches_body w_branches outermost] in BB. inversion BB as [t r0 e0 e1 TL E|b0 EV]; subst; [|rewrite ends_in_value_snoc in EV; discriminate].
        match goal with E : _ ++ [_] = _ ++ [_] |- _ => apply app_inj_tail in E; destruct E as [-> E]; injection E as -> end.
        apply seq2_in in DS. apply Forall2_app_inv_l in DS. destruct DS as (r' & s' & D1 & D2 & ->). inversion D2 as [|? s2 ? ? DE DN]; subst. inversion DN; subst.
        inversion DE as [? ? e3 ? DD| | | |]; subst.
        eapply (last_given O mk n self own TakesReturns).
        + eapply (done_stmts O mk n self own GEN m TakesReturns MK XQ); [exact F|exact T|apply seq2_in; exact D1].
        + eapply (proj1 (spread_given O mk n self own GEN m TakesReturns MK XQ halts halt_ev) e SP _ MP); [exact F|exact TL|exact DD].
      - eapply EXIT; try eassumption; [reflexivity|]. cbn [branches_body w_branches outermost] in BB.
        inversion BB as [t r0 e0 e1 TL E|b0 EV]; subst; [|reflexivity].
        match goal with E : _ ++ [_] = _ ++ [_] |- _ => apply app_inj_tail in E; destruct E as [-> <-] end. do 3 f_equal.
        rewrite forallb_app in T. apply andb_true_iff in T. destruct T as [_ T]. cbn in T. rewrite andb_true_r in T.
        assert (NV : no_value (fun s => s = m) e0) by (inversion N; assumption).
        eapply (whole_tail own m TakesReturns); [exact MP|exact T|exact NV|exact TL]. }
    assert (N2 : b2 <> []).
    { apply seq2_length in DS. destruct BB as [t r e e' _|b0 _]; intros ->; [rewrite app_length in DS; cbn in DS; rewrite Nat.add_comm in DS; discriminate|].
      destruct b0; [congruence|discriminate]. }
    destruct D as [->|(j & dv & _ & ->)]; [exact K|]. cbn [ev_stmts Eval.ev_stmt]. destruct b2; [congruence|exact K].
  Qed.
End Top.
