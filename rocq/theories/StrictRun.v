(** Code whose [?]s check that their operand is a [Result] runs like the original code, or it gets stuck. *)

Require Import Coq.Strings.String Coq.Lists.List Coq.Bool.Bool.
Require Import Verif.Syntax Verif.AstInd Verif.ExprModel Verif.Edits Verif.NoValueSpec Verif.Excused Verif.Tails Verif.RunLemmas Verif.Changes Verif.ChangesTop Verif.Branches Verif.BranchesRun
  Verif.Eval Verif.EvalRun Verif.NoValueEval Verif.Values Verif.ValuesRun Verif.ValuesTop Verif.Results Verif.ResultsRun.
Import ListNotations.
Open Scope string_scope.
Open Scope list_scope.

Section Strict.
  Context {W : Type} (O : ops W) (mk : string -> bool) (k : nat) (self : expr -> env -> W -> result W).
  Notation ev := (ev W O mk k self).
  Notation ev_stmt := (ev_stmt W O mk k self).
  Notation ev_local := (ev_local W O mk k self).
  Notation ev_arm := (ev_arm W O mk k self).
  Notation ev_stmts := (ev_stmts W ev_stmt).
  Notation ev_arms := (ev_arms W ev_arm).

  Definition le (r r' : result W) : Prop := r' = r \/ exists w, r' = (OStuck, w).
  Definition sle (r r' : sres W) : Prop := r' = r \/ exists w, r' = SOut _ OStuck w.
  Definition ale (r r' : ares W) : Prop := r' = r \/ exists w, r' = ATake _ (OStuck, w).
  Lemma le_same r : le r r. Proof. left. reflexivity. Qed.
  Lemma le_stuck r w : le r (OStuck, w). Proof. right. eauto. Qed.
  Hint Resolve le_same le_stuck : core.

  Lemma le_bnd r r' f f' : le r r' -> (forall x w, le (f x w) (f' x w)) -> le (bnd _ r f) (bnd _ r' f').
  Proof. intros [->|[w ->]] F; [|cbn; auto]. destruct r as [[] u]; cbn; auto. Qed.
  Lemma le_labelled l r r' : le r r' -> le (labelled _ l r) (labelled _ l r').
  Proof. intros [->|[w ->]]; [auto|]. destruct l; cbn; auto. Qed.
  Lemma le_iterate n l f f' w : (forall w, le (f w) (f' w)) -> le (iterate _ n l f w) (iterate _ n l f' w).
  Proof.
    intros F. revert w. induction n as [|n IH]; intros w; cbn [iterate]; [auto|]. destruct (F w) as [->|[u ->]]; [|auto].
    destruct (f w) as [[] u]; auto; destruct (catches l l0); auto.
  Qed.

  Definition LE (e : expr) : Prop := forall pl en w, le (ev pl e en w) (ev pl (strict e) en w).
  Definition LS (s : stmt) : Prop := forall pl en w, sle (ev_stmt pl s en w) (ev_stmt pl (strict_stmt s) en w).
  Definition LA (y : arm) : Prop := forall x en w, ale (ev_arm x y en w) (ev_arm x (strict_arm y) en w).
  Definition LL (y : local) : Prop := forall en w, sle (ev_local y en w) (ev_local (strict_local y) en w).

  Lemma le_list mode more f es : Forall LE es -> forall got en w, le (ev_list _ ev mode more es got en w f) (ev_list _ ev mode more (map strict es) got en w f).
  Proof.
    intros H. induction H as [|e r H _ IH]; intros got en w; cbn [ev_list map]; [auto|]. destruct (more got w); [|auto]. apply le_bnd; [apply H|]. intros. apply IH.
  Qed.
  Lemma le_stmts b : Forall LS b -> forall pl en w, le (ev_stmts pl b en w) (ev_stmts pl (map strict_stmt b) en w).
  Proof.
    intros H. induction H as [|s r H _ IH]; intros pl en w; [cbn; auto|]. cbn [map]. rewrite !(ev_stmts_cons mk O k self).
    replace (match map strict_stmt r with [] => true | _ => false end) with (match r with [] => true | _ => false end) by (destruct r; reflexivity).
    destruct (H (pl && match r with [] => true | _ => false end) en w) as [->|[u ->]]; [|auto].
    destruct (ev_stmt (pl && match r with [] => true | _ => false end) s en w); [|auto].
    destruct r; [cbn; auto|]. apply IH.
  Qed.
  Lemma le_arms x b : Forall LA b -> forall en w, le (ev_arms x b en w) (ev_arms x (map strict_arm b) en w).
  Proof.
    intros H. induction H as [|s r H _ IH]; intros en w; [cbn; auto|]. cbn [map]. rewrite !(ev_arms_cons mk O k self).
    destruct (H x en w) as [->|[u ->]]; [|auto]. destruct (ev_arm x s en w); auto.
  Qed.
  Lemma le_checked x en w : le (ev false x en w) (ev false (checked x) en w).
  Proof.
    change (ev false (checked x) en w) with (bnd W (ev false x en w) (fun v w1 => ev_arms v [back "Ok"; back "Err"] en w1)).
    destruct (ev false x en w) as [[] u]; cbn [bnd]; auto. destruct x0; try (right; eexists; reflexivity). rewrite checked_arms.
    destruct ("Ok" =? c) eqn:E1; [apply String.eqb_eq in E1; subst; auto|]. destruct ("Err" =? c) eqn:E2; [apply String.eqb_eq in E2; subst; auto|]. auto.
  Qed.
  Lemma le_trans a b c : le a b -> le b c -> le a c.
  Proof. intros [->|[w ->]]; [auto|]. intros [->|[u ->]]; auto. Qed.

  Theorem strict_le : (forall e, LE e) /\ (forall s, LS s) /\ (forall y, LA y) /\ (forall y, LL y).
  Proof.
    apply (ast_ind LE LS LA LL).
    - intros a l b H pl en w. cbn [strict]. rewrite !(ev_block mk O k self). apply le_labelled, le_stmts, H.
    - intros k0 a b H pl en w. destruct k0; cbn [strict]; auto; apply (le_stmts b H).
    - intros a s arms H1 H2 pl en w. cbn [strict]. rewrite !(ev_match mk O k self). apply le_bnd; [apply H1|]. intros. apply le_arms, H2.
    - intros a c t els H1 H2 H3 pl en w. cbn [strict]. rewrite !(ev_if mk O k self). apply le_bnd; [apply H1|]. intros x w1. destruct (cond x); auto; [apply le_stmts, H2|].
      destruct els; cbn; [apply H3|auto].
    - intros a p e H pl en w. cbn [strict Eval.ev]. apply le_bnd; [apply H|]. auto.
    - intros a l b H pl en w. cbn [strict]. rewrite !(ev_loop mk O k self). apply le_iterate. intros. apply le_stmts, H.
    - intros a l c b H1 H2 pl en w. cbn [strict]. rewrite !(ev_while mk O k self). apply le_iterate. intros w1. apply le_bnd; [apply H1|]. intros x w2. destruct (cond x); auto. apply le_stmts, H2.
    - intros a l p it b H1 H2 pl en w. cbn [strict]. rewrite !(ev_for mk O k self). apply le_bnd; [apply H1|]. intros. apply le_bnd; [auto|]. intros. apply le_iterate. intros. apply le_bnd; [auto|].
      intros y w4. destruct y; auto. destruct (pmatch W O p y w4) as [[] w5]; auto. apply le_stmts, H2.
    - intros a l e H pl en w. destruct e; cbn [strict option_map Eval.ev]; auto. apply le_bnd; [apply H|]. auto.
    - intros a l pl en w. auto.
    - intros a e H pl en w. destruct e; cbn [strict option_map Eval.ev]; auto. apply le_bnd; [apply H|]. auto.
    - intros a e H pl en w. cbn [strict]. change (ev pl (ETry a e) en w) with (bnd W (ev false e en w) (fun v w1 =>
              match v with
              | VCon c y => if c =? "Err" then (ORet v, w1) else (ONorm y, w1)
              | VNone => (ORet VNone, w1)
              | _ => (OStuck, w1)
              end)).
      change (ev pl (ETry a (checked (strict e))) en w) with (bnd W (ev false (checked (strict e)) en w) (fun v w1 =>
              match v with
              | VCon c y => if c =? "Err" then (ORet v, w1) else (ONorm y, w1)
              | VNone => (ORet VNone, w1)
              | _ => (OStuck, w1)
              end)). apply le_bnd; [|auto]. eapply le_trans; [apply H|apply le_checked].
    - intros a ps b _ pl en w. auto.
    - intros a p e _ pl en w. auto.
    - intros a r m args H1 H2 pl en w. cbn [strict Eval.ev]. apply le_bnd; [apply H1|]. intros. apply le_list, H2.
    - intros a e H pl en w. cbn [strict Eval.ev]. apply H.
    - intros a f args H1 H2 pl en w. cbn [strict]. rewrite !(ev_call mk O k self). apply le_bnd; [apply H1|]. intros. apply le_list, H2.
    - intros a q p pl en w. auto.
    - intros a k0 es H pl en w. destruct es as [|e es]; [auto|].
      change (le (ev_list _ ev (o_mode W O k0) (o_more W O k0) (e :: es) [] en w (fun xs w1 => act_in _ O self w1 (o_other W O k0 pl xs w1)))
        (ev_list _ ev (o_mode W O k0) (o_more W O k0) (map strict (e :: es)) [] en w (fun xs w1 => act_in _ O self w1 (o_other W O k0 pl xs w1)))). apply le_list, H.
    - intros s pl en w. auto.
    - intros l H pl en w. apply H.
    - intros i _ pl en w. left. reflexivity.
    - intros e semi H pl en w. cbn [strict_stmt]. rewrite !(ev_sexpr mk O k self). destruct (H (pl && negb semi) en w) as [->|[u ->]]; [left; reflexivity|]. right. eexists. reflexivity.
    - intros a p e semi _ pl en w. left. reflexivity.
    - intros a p t i d H1 H2 en w. cbn [strict_local]. destruct i as [e|]; cbn [option_map]; [|left; reflexivity]. rewrite !(ev_local_some mk O k self).
      destruct (H1 false en w) as [->|[u ->]]; [|right; eauto]. destruct (ev false e en w) as [[] u]; try (left; reflexivity).
      destruct (pmatch W O p x u) as [[] u1]; try (left; reflexivity). destruct d as [y|]; cbn [option_map]; [|left; reflexivity].
      destruct (H2 false en u1) as [->|[u2 ->]]; [left; reflexivity|right; eauto].
    - intros a p g b c H1 H2 x en w. cbn [strict_arm]. rewrite !(ev_arm_eq mk O k self). destruct (pmatch W O p x w) as [[] u]; try (left; reflexivity).
      assert (B : forall en w, ale (ATake W (ev false b en w)) (ATake W (ev false (strict b) en w))).
      { intros en0 w0. destruct (H2 false en0 w0) as [->|[u2 ->]]; [left; reflexivity|right; eauto]. }
      destruct g as [g|]; cbn [option_map]; [|apply B]. destruct (H1 false (bs ++ en) u) as [->|[u2 ->]]; [|right; eauto].
      destruct (ev false g (bs ++ en) u) as [[] u3]; try (left; reflexivity). destruct (cond x0); [apply B|left; reflexivity..].
  Qed.

  (** ** The value of [ok_value] *)

  Variable m : string.
  Hypothesis MK : forall s, mk s = true -> s = m.
  Let marker (s : string) : Prop := s = m.

  Scheme ok_value_s := Induction for ok_value Sort Prop
  with ok_arms_s := Induction for ok_arms Sort Prop
  with ok_block_s := Induction for ok_block Sort Prop.
  Definition fine (r : result W) : Prop := match r with (ONorm x, _) => exists y, x = VCon "Ok" y | _ => True end.
  Lemma fine_bnd r f : (forall x w, fine (f x w)) -> fine (bnd _ r f).
  Proof. intros F. destruct r as [[] u]; cbn; auto. Qed.
  Lemma fine_last b s : (forall pl en w, match ev_stmt pl s en w with SGo _ _ x _ => exists y, x = VCon "Ok" y | SOut _ _ _ => True end) ->
    forall pl en w, fine (ev_stmts pl (b ++ [s]) en w).
  Proof.
    intros H. induction b as [|s0 b IH]; intros pl en w; cbn [app]; rewrite (ev_stmts_cons mk O k self).
    - pose proof (H (pl && true) en w) as X. pose proof (out_not_norm O mk k self (pl && true) s en w) as Y.
      destruct (ev_stmt (pl && true) s en w); [exact X|]. destruct o; try exact I. contradiction.
    - set (q := pl && _). pose proof (out_not_norm O mk k self q s0 en w) as Y.
      destruct (ev_stmt q s0 en w); [|destruct o; try exact I; contradiction].
      destruct (b ++ [s]) eqn:E; [destruct b; discriminate|]. apply IH.
  Qed.

  Lemma ok_value_eval :
    (forall e, ok_value m e -> forall pl en w, fine (ev pl e en w)) /\ (forall b, ok_block m b -> forall pl en w, fine (ev_stmts pl b en w)).
  Proof.
    assert (NV : forall e, no_value marker e -> ~ excused marker e -> forall pl en w, fine (ev pl e en w)).
    { intros e N X pl en w. destruct (proj1 (no_value_eval O mk k self marker MK) e N) as [H|H]; [contradiction|].
      specialize (H pl en w). destruct (ev pl e en w) as [[] u]; try exact I. exfalso. apply H. exact I. }
    pose (Pe e (_ : ok_value m e) := forall pl en w, fine (ev pl e en w)).
    pose (Pa l (_ : ok_arms m l) := forall x en w, fine (ev_arms x l en w)).
    pose (Pb b (_ : ok_block m b) := forall pl en w, fine (ev_stmts pl b en w)).
    assert (H1 : forall e o, Pe e o) by
      (apply (ok_value_s m Pe Pa Pb); unfold Pe, Pa, Pb;
       [intros e H pl en w; pose proof (ok_call_eval O mk k self e pl en w H) as Q; destruct (ev pl e en w) as [[] u]; exact Q
       |intros e N X; apply NV; assumption
       |intros a s l _ IH pl en w; rewrite (ev_match mk O k self); apply fine_bnd; intros; apply IH
       |intros a c b e _ IH1 _ IH2 pl en w; rewrite (ev_if mk O k self); apply fine_bnd; intros x w1; destruct (cond x); [apply IH1|apply IH2|exact I]
       |intros a b _ IH pl en w; rewrite (ev_block mk O k self); apply IH
       |intros a b _ IH pl en w; exact (IH pl en w)
       |intros a e _ IH pl en w; exact (IH pl en w)
       |intros x en w; exact I
       |intros a p g b c l _ IH1 _ IH2 x en w; rewrite (ev_arms_cons mk O k self), (ev_arm_eq mk O k self); destruct (pmatch W O p x w) as [[] u]; [|apply IH2|exact I];
        destruct g; [|apply IH1]; destruct (ev false e (bs ++ en) u) as [[] u1]; try exact I; destruct (cond x0); [apply IH1|apply IH2|exact I]
       |intros b e _ IH; apply fine_last; intros pl en w; rewrite (ev_sexpr mk O k self); specialize (IH (pl && negb false) en w);
        destruct (ev (pl && negb false) e en w) as [[] u]; cbn in *; auto
       |intros b s N X; apply fine_last; intros pl en w; destruct (proj2 (proj2 (no_value_eval O mk k self marker MK)) s N) as [H|H]; [contradiction|];
        specialize (H pl en w); destruct (ev_stmt pl s en w); [contradiction|exact I]]).
    split; [exact H1|]. intros b H. destruct H as [b e H|b s N X].
    - apply fine_last. intros pl en w. rewrite (ev_sexpr mk O k self). specialize (H1 e H (pl && negb false) en w). destruct (ev (pl && negb false) e en w) as [[] u]; cbn in *; auto.
    - apply fine_last. intros pl en w. destruct (proj2 (proj2 (no_value_eval O mk k self marker MK)) s N) as [H|H]; [contradiction|].
      specialize (H pl en w). destruct (ev_stmt pl s en w); [contradiction|exact I].
  Qed.
End Strict.

Section Top.
  Context {W : Type}.
  Variables (O : ops W) (mk : string -> bool) (own m : string).
  Hypothesis GEN : gen_name own = true.
  Hypothesis MK : forall s, mk s = true -> s = m.

  (** The end of the body and the [return]s. *)
  Lemma finish_error r r0 r' : le r0 r -> fine r0 -> lifts own false none Errs r r' ->
    error_in_variant own (as_stmt W [] (fun x => x) (finish W r)) (as_stmt W [] (fun x => x) (finish W r'))
    /\ sle (as_stmt W [] (fun x => x) (finish W r0)) (as_stmt W [] (fun x => x) (finish W r)).
  Proof.
    intros L F H. split.
    - destruct H as [x x' u E|? ? ? ? E|? ?|x x' u E|?|?|?]; cbn in *; try reflexivity.
      + subst x'. destruct L as [<-|[u1 E]]; [|discriminate]. left. destruct F as [y ->]. eauto.
      + destruct E as [(y & -> & ->)|(y & v & -> & ->)]; [left|right]; eauto.
    - destruct L as [->|[u ->]]; [left; reflexivity|right; eexists; reflexivity].
  Qed.

  (** A function. *)
  Lemma fn_errors n b b2 b' : b <> [] -> seq2 (fun _ => done_stmt (outermost own m TakesQuestions)) [] b b2 -> declared_in own b2 b' ->
    ok_block m b -> forallb (passing_stmt m) b = true -> forall en w,
    lifts own false none Errs (eval_block W O mk n (map strict_stmt b) en w) (eval_block W O mk n b' en w)
    /\ le (eval_block W O mk n b en w) (eval_block W O mk n (map strict_stmt b) en w) /\ fine (eval_block W O mk n b en w).
  Proof.
    intros NE DS D C T en w. unfold eval_block. set (self := calls W O mk n). split; [|split].
    - assert (F : Forall (fun s => passing_stmt m s = true) b) by (apply Forall_forall; rewrite forallb_forall in T; exact T).
      assert (K : lifts own false none Errs (ev_stmts W (ev_stmt W O mk n self) false (map strict_stmt b) en w) (ev_stmts W (ev_stmt W O mk n self) false b2 en w)).
      { apply stmts_same. clear -DS F GEN MK. remember (@nil string) as t eqn:E. clear E. induction DS; constructor; inversion F; subst; [|auto].
        eapply (proj2 (done_passing O mk n self own m GEN MK)); [eassumption|repeat split|assumption]. }
      assert (N2 : b2 <> []) by (apply seq2_length in DS; intros ->; destruct b; [congruence|discriminate]).
      destruct D as [->|(j & dv & _ & ->)]; [exact K|]. cbn [ev_stmts Eval.ev_stmt]. destruct b2; [congruence|exact K].
    - apply le_stmts. apply Forall_forall. intros s _. apply (proj1 (proj2 (strict_le O mk n self))).
    - apply (proj2 (ok_value_eval O mk n self m MK) b C).
  Qed.

  (** The body of a closure. *)
  Lemma closure_errors n b b' : body (outermost own m TakesQuestions) b b' -> ok_value m b -> passing m b = true -> forall en w,
    lifts own false none Errs (eval W O mk n (strict b) en w) (eval W O mk n b' en w)
    /\ le (eval W O mk n b en w) (eval W O mk n (strict b) en w) /\ fine (eval W O mk n b en w).
  Proof.
    intros B C T en w. rewrite !eval_is. set (self := calls W O mk n). split; [|split].
    - inversion B as [? ? e0 k ? BR DN|? ? ? ? G]; subst; [|discriminate]. destruct BR as [_ ->].
      eapply (proj1 (done_passing O mk n self own m GEN MK)); [exact DN|repeat split|exact T].
    - apply (proj1 (strict_le O mk n self)).
    - apply (proj1 (ok_value_eval O mk n self m MK) b C).
  Qed.
End Top.
