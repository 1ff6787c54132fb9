(** Code that counts as producing no value does not finish normally, except for the reasons in Excused.v. *)

Require Import Coq.Strings.String Coq.Lists.List Coq.Bool.Bool Coq.Arith.Arith Lia.
Require Import Verif.Syntax Verif.AstInd Verif.Edits Verif.ArgsSpec Verif.NoValueSpec Verif.Excused Verif.Eval Verif.EvalRun.
Import ListNotations.
Open Scope string_scope.
Open Scope list_scope.

Section World.
  Context {W : Type} (O : ops W) (mk : string -> bool) (k : nat) (self : expr -> env -> W -> result W).

  Notation ev := (ev W O mk k self).
  Notation ev_stmt := (ev_stmt W O mk k self).
  Notation ev_local := (ev_local W O mk k self).
  Notation ev_arm := (ev_arm W O mk k self).
  Notation ev_stmts := (ev_stmts W ev_stmt).
  Notation ev_arms := (ev_arms W ev_arm).

  (** ** Labels *)

  Section Label.
    Variable l : string.
    Definition leaves (o : out) : Prop := match o with OBreak (Some x) _ => x = l | _ => False end.
    Definition stays (r : result W) : Prop := ~ leaves (fst r).

    Lemma stays_bnd r f : stays r -> (forall x w, stays (f x w)) -> stays (bnd _ r f).
    Proof. destruct r as [[] w]; cbn; auto. Qed.
    Lemma stays_iterate n own f w : (forall w1, stays (f w1)) -> stays (iterate _ n own f w).
    Proof.
      intros H. revert w. induction n as [|n IH]; intros w; cbn [iterate]; [intros []|].
      pose proof (H w) as S. destruct (f w) as [[] u]; try exact S; try apply IH.
      - destruct (catches own l0); [intros []|exact S].
      - destruct (catches own l0); [apply IH|intros []].
    Qed.
    Lemma stays_labelled own r : stays r -> stays (labelled _ own r).
    Proof.
      destruct own as [y|]; [|auto]. destruct r as [[] w]; cbn; auto. destruct l0; auto.
      destruct (s =? y); auto. intros _ [].
    Qed.
    Lemma stays_apply f xs w : stays (apply_fn _ O self f xs w).
    Proof.
      unfold apply_fn. destruct (peel f); try (intros []; fail).
      - destruct xs as [|x [|]]; intros [].
      - destruct xs as [|x [|]]; intros [].
      - destruct (pmatches _ (pmatch _ O) ps xs w) as [[] u]; try (intros []; fail).
        destruct (self body (bs ++ env) u) as [[] u']; intros [].
    Qed.
    Lemma stays_act a : forall w, stays (act_in _ O self w a).
    Proof.
      induction a as [x w|w| |f xs w g IH]; intros w0; cbn; try (intros []; fail).
      pose proof (stays_apply f xs w) as S. destruct (apply_fn _ O self f xs w) as [[] u]; try exact S. apply IH.
    Qed.
    Lemma stays_list mode more es f :
      Forall (fun e => forall pl en w, stays (ev pl e en w)) es -> (forall xs w, stays (f xs w)) ->
      forall got en w, stays (ev_list _ ev mode more es got en w f).
    Proof.
      intros H F. induction H as [|e r E _ IH]; intros got en w; cbn [ev_list]; [apply F|].
      destruct (more got w); [|apply F]. apply stays_bnd; [apply E|]. intros. apply IH.
    Qed.
    Lemma stays_stmts b : Forall (fun s => forall pl en w, match ev_stmt pl s en w with SOut _ o _ => ~ leaves o | _ => True end) b ->
      forall pl en w, stays (ev_stmts pl b en w).
    Proof.
      intros H. induction H as [|s r S _ IH]; intros pl en w; [intros []|].
      rewrite (ev_stmts_cons mk O k self). pose proof (S (pl && match r with [] => true | _ => false end) en w) as X.
      destruct (ev_stmt (pl && match r with [] => true | _ => false end) s en w); [|exact X].
      destruct r; [intros []|]. apply IH.
    Qed.
    Lemma stays_arms x arms : Forall (fun s => forall en w, match ev_arm x s en w with ATake _ r => stays r | _ => True end) arms ->
      forall en w, stays (ev_arms x arms en w).
    Proof.
      intros H. induction H as [|s r S _ IH]; intros en w; [intros []|].
      rewrite (ev_arms_cons mk O k self). pose proof (S en w) as X. destruct (ev_arm x s en w); [exact X|apply IH].
    Qed.

    Definition skeeps (s : stmt) : Prop :=
      breaks_to_stmt l s = false -> forall pl en w, match ev_stmt pl s en w with SOut _ o _ => ~ leaves o | _ => True end.
    Definition ekeeps (e : expr) : Prop := breaks_to l e = false -> forall pl en w, stays (ev pl e en w).

    Lemma false_all {A} (f : A -> bool) (P : A -> Prop) b :
      existsb f b = false -> Forall (fun x => f x = false -> P x) b -> Forall P b.
    Proof.
      intros H. induction 1 as [|x r X _ IH]; [constructor|]. cbn in H. apply orb_false_iff in H. destruct H.
      constructor; auto.
    Qed.

    Lemma keeps_label :
      (forall e, ekeeps e) /\ (forall s, skeeps s)
      /\ (forall x, breaks_to_arm l x = false -> forall y en w, match ev_arm y x en w with ATake _ r => stays r | _ => True end)
      /\ (forall x, breaks_to_local l x = false -> forall en w, match ev_local x en w with SOut _ o _ => ~ leaves o | _ => True end).
    Proof.
      assert (BL : forall b, existsb (breaks_to_stmt l) b = false -> Forall skeeps b -> forall pl en w, stays (ev_stmts pl b en w)).
      { intros b H K. apply stays_stmts. eapply false_all; eassumption. }
      assert (LI : forall es, existsb (breaks_to l) es = false -> Forall ekeeps es -> forall mode more got en w f,
                 (forall xs w, stays (f xs w)) -> stays (ev_list _ ev mode more es got en w f)).
      { intros es H K mode more got en w f F. apply stays_list; [|exact F]. eapply false_all; eassumption. }
      assert (NO : forall x w, stays (ONorm x, w)) by (intros x w []).
      assert (ST : forall w, stays (OStuck, w)) by (intros w []).
      apply ast_ind; unfold ekeeps, skeeps; intros;
        repeat match goal with
          | H : breaks_to _ _ = false |- _ => cbn in H
          | H : breaks_to_stmt _ _ = false |- _ => cbn in H
          | H : breaks_to_local _ _ = false |- _ => cbn in H
          | H : breaks_to_arm _ _ = false |- _ => cbn in H
          | H : _ || _ = false |- _ => apply orb_false_iff in H; destruct H
          end.
      - rewrite (ev_block mk O k self). apply stays_labelled. auto.
      - destruct k0; try (intros []; fail); apply BL; assumption.
      - rewrite (ev_match mk O k self). apply stays_bnd; [auto|]. intros. apply stays_arms.
        apply Forall_forall. intros m Hm en1 w1. rewrite Forall_forall in H0. apply H0; [assumption|].
        destruct (breaks_to_arm l m) eqn:B; [|reflexivity]. exfalso.
        assert (existsb (breaks_to_arm l) arms = true) by (apply existsb_exists; eauto). congruence.
      - rewrite (ev_if mk O k self). apply stays_bnd; [auto|]. intros x w1. destruct (cond x); [auto| |auto].
        destruct els; [auto|auto].
      - cbn [Eval.ev]. apply stays_bnd; [auto|]. intros x w1. destruct (pmatch _ O p x w1) as [[] w2]; intros [].
      - rewrite (ev_loop mk O k self). apply stays_iterate. auto.
      - rewrite (ev_while mk O k self). apply stays_iterate. intros. apply stays_bnd; [auto|]. intros x w2.
        destruct (cond x); [auto|intros []|auto].
      - rewrite (ev_for mk O k self). apply stays_bnd; [auto|]. intros. apply stays_bnd; [apply stays_act|]. intros.
        apply stays_iterate. intros. apply stays_bnd; [apply stays_act|]. intros y w4. destruct y; try (intros []; fail).
        destruct (pmatch _ O p y w4) as [[] w5]; try (intros []; fail). auto.
      - cbn [Eval.ev]. assert (F : forall x w, stays (OBreak l0 x, w)).
        { intros x w0. cbn. intros E. destruct l0 as [z|]; [|exact E]. cbn in E. subst z. rewrite String.eqb_refl in H0. discriminate. }
        destruct e; [|auto]. apply stays_bnd; auto.
      - intros [].
      - cbn [Eval.ev]. destruct e; [|intros []]. apply stays_bnd; [auto|]. intros x w0 [].
      - cbn [Eval.ev]. apply stays_bnd; [auto|]. intros x w1. destruct x; try (intros []; fail). destruct (c =? "Err"); intros [].
      - intros [].
      - cbn [Eval.ev]. destruct (is_marker mk p); [destruct e; [auto|intros []]|]. destruct (panic_of p); [intros []|apply stays_act].
      - cbn [Eval.ev]. apply stays_bnd; [auto|]. intros. apply LI; try assumption. intros. apply stays_act.
      - cbn [Eval.ev]. auto.
      - rewrite (ev_call mk O k self). apply stays_bnd; [auto|]. intros. apply LI; try assumption. intros.
        destruct (is_fn x); [apply stays_apply|apply stays_act].
      - cbn [Eval.ev]. destruct (con_of p); [intros []|]. destruct (none_of p); [intros []|]. destruct (variant_of p) as [[]|]; [intros []|].
        destruct (match var_of p with Some x => lookup x en | None => None end) as [[[] ?]|]; intros [].
      - cbn [Eval.ev]. destruct es; [destruct (k0 =? "Tuple"); [intros []|apply stays_act]|].
        apply LI; try assumption. intros. apply stays_act.
      - cbn [Eval.ev]. apply stays_act.
      - exact (H H0 en w).
      - exact I.
      - rewrite (ev_sexpr mk O k self). pose proof (H H0 (pl && negb semi) en w) as S. destruct (ev (pl && negb semi) e en w) as [[] u]; cbn; auto.
      - cbn [Eval.ev_stmt]. destruct (is_marker mk p).
        + destruct e; [|intros []]. cbn in H. pose proof (H H0 false en w) as S.
          change (match as_stmt W [] (fun x => if semi then VUnit else x) (ev false e en w) with SGo _ _ _ _ => True | SOut _ o _ => ~ leaves o end).
          destruct (ev false e en w) as [[] u]; cbn; auto.
        + destruct (panic_of p); [intros []|]. pose proof (stays_act (o_macro W O p e en w) w) as S.
          destruct (act_in _ O self w (o_macro W O p e en w)) as [[] u]; cbn; auto.
      - destruct i as [x|].
        + rewrite (ev_local_some mk O k self). cbn in H. pose proof (H H1 false en w) as S. destruct (ev false x en w) as [[] u]; try exact S.
          destruct (pmatch _ O p x0 u) as [[] v]; try exact I; try (intros []; fail).
          destruct d; [|intros []]. cbn in H0. pose proof (H0 H2 false en v) as S2. destruct (ev false e en v) as [[] z]; exact S2.
        + cbn [Eval.ev_local]. destruct (o_decl W O w). destruct p; try exact I; intros [].
      - rewrite (ev_arm_eq mk O k self). destruct (pmatch _ O p y w) as [[] u]; try exact I; try (intros []; fail).
        destruct g as [z|]; [|auto]. cbn in H. pose proof (H H1 false (bs ++ en) u) as S.
        destruct (ev false z (bs ++ en) u) as [[] v]; try exact S. destruct (cond x); try exact I; auto.
    Qed.
  End Label.

  (** ** No value *)

  Variable marker : string -> Prop.
  Hypothesis MK : forall s, mk s = true -> marker s.

  Definition gives (r : result W) : Prop := match fst r with ONorm _ => True | _ => False end.

  Lemma names_named p m n : names p m n -> named p m n = true.
  Proof.
    unfold names, named, ids_eqb. intros [E|[E|E]]; rewrite E.
    - destruct (list_eq_dec string_dec [n] [n]); [reflexivity|contradiction].
    - destruct (list_eq_dec string_dec ("std" :: m ++ [n]) ("std" :: m ++ [n])); [|contradiction].
      rewrite orb_true_r. reflexivity.
    - destruct (list_eq_dec string_dec ("core" :: m ++ [n]) ("core" :: m ++ [n])); [|contradiction].
      apply orb_true_r.
  Qed.

  Lemma gives_bnd r f : ~ gives r -> ~ gives (bnd _ r f).
  Proof. destruct r as [[] w]; cbn; auto. Qed.

  Definition ev_nv (e : expr) : Prop := excused marker e \/ forall pl en w, ~ gives (ev pl e en w).
  Definition arms_nv (arms : list arm) : Prop :=
    (exists m, In m arms /\ excused_arm marker m) \/ forall x en w, ~ gives (ev_arms x arms en w).
  Definition stmt_nv (s : stmt) : Prop :=
    excused_stmt marker s \/ forall pl en w, match ev_stmt pl s en w with SGo _ _ _ _ => False | _ => True end.

  Lemma out_not_norm pl s en w : match ev_stmt pl s en w with SOut _ (ONorm _) _ => False | _ => True end.
  Proof.
    destruct s as [l|i|e semi|a [p o] semi].
    - change (match ev_local l en w with SOut _ (ONorm _) _ => False | _ => True end). destruct l as [a p t [x|] d].
      + rewrite (ev_local_some mk O k self). destruct (ev false x en w) as [[] u]; try exact I.
        destruct (pmatch _ O p x0 u) as [[] v]; try exact I. destruct d; [|exact I].
        destruct (ev false e en v) as [[] z]; exact I.
      + cbn [Eval.ev_local]. destruct (o_decl W O w). destruct p; exact I.
    - exact I.
    - rewrite (ev_sexpr mk O k self). destruct (ev (pl && negb semi) e en w) as [[] u]; exact I.
    - cbn [Eval.ev_stmt].
      match goal with |- context [as_stmt _ _ _ ?r] => destruct r as [[] u]; exact I end.
  Qed.

  Lemma stmts_nv b s : (forall pl en w, match ev_stmt pl s en w with SGo _ _ _ _ => False | _ => True end) ->
    forall pl en w, ~ gives (ev_stmts pl (b ++ [s]) en w).
  Proof.
    intros H. induction b as [|s0 b IH]; intros pl en w; cbn [app]; rewrite (ev_stmts_cons mk O k self).
    - pose proof (H (pl && true) en w) as X. pose proof (out_not_norm (pl && true) s en w) as Y.
      destruct (ev_stmt (pl && true) s en w); [contradiction|]. destruct o; try (intros []; fail). contradiction.
    - set (q := pl && _). pose proof (out_not_norm q s0 en w) as Y.
      destruct (ev_stmt q s0 en w).
      + destruct (b ++ [s]) eqn:E; [destruct b; discriminate|]. apply IH.
      + destruct o; try (intros []; fail). contradiction.
  Qed.

  Lemma panics_not m p : panics p -> is_marker mk p = true -> marker_mac marker (Mac p m).
  Proof.
    intros _ H. unfold is_marker in H. destruct p as [[] [|[i []] []]]; try discriminate. exists i. split; [apply MK; exact H|].
    cbn. apply String.eqb_refl.
  Qed.

  Lemma macro_nv p o : no_value_macro marker (Mac p o) ->
    marker_mac marker (Mac p o) \/ (is_marker mk p = false /\ panic_of p = true).
  Proof.
    intros [H|H]; [|left; exact H]. destruct (is_marker mk p) eqn:M; [left; eapply panics_not; eassumption|right].
    split; [reflexivity|]. unfold panic_of. destruct H as [H|H]; apply names_named in H; rewrite H; [reflexivity|apply orb_true_r].
  Qed.

  Theorem no_value_eval :
    (forall e, no_value marker e -> ev_nv e) /\ (forall l, no_value_arms marker l -> arms_nv l)
    /\ (forall s, no_value_stmt marker s -> stmt_nv s).
  Proof.
    apply (no_value_ind3 marker (fun e _ => ev_nv e) (fun l _ => arms_nv l) (fun s _ => stmt_nv s));
      unfold ev_nv, arms_nv, stmt_nv; intros.
    - left. apply ex_never. assumption.
    - left. apply ex_auto_enum. assumption.
    - destruct H as [H|H]; [left; apply ex_block; assumption|].
      destruct l as [l|].
      + destruct (existsb (breaks_to_stmt l) (b ++ [s])) eqn:B; [left; apply ex_label; assumption|right].
        intros pl en w. rewrite (ev_block mk O k self). pose proof (stmts_nv b s H pl en w) as G.
        assert (S : stays l (ev_stmts pl (b ++ [s]) en w)).
        { apply stays_stmts. apply Forall_forall. intros s0 Hs. apply (proj1 (proj2 (keeps_label l))).
          destruct (breaks_to_stmt l s0) eqn:E; [|reflexivity]. exfalso.
          assert (existsb (breaks_to_stmt l) (b ++ [s]) = true) by (apply existsb_exists; eauto). congruence. }
        destruct (ev_stmts pl (b ++ [s]) en w) as [[] u]; cbn; auto.
        destruct l0 as [z|]; [|auto]. destruct (z =? l) eqn:E; [|auto]. apply String.eqb_eq in E. exfalso. apply S. exact E.
      + right. intros pl en w. rewrite (ev_block mk O k self). apply stmts_nv. assumption.
    - destruct H as [H|H]; [left; apply ex_unsafe; assumption|]. right. intros pl en w.
      change (~ gives (ev_stmts pl (b ++ [s]) en w)). apply stmts_nv. assumption.
    - right. intros pl en w. cbn [Eval.ev]. destruct o; [|intros []].
      destruct (ev false e en w) as [[] u] eqn:E; cbn; intros [].
    - right. intros pl en w [].
    - right. intros pl en w. cbn [Eval.ev]. destruct o; [|intros []].
      destruct (ev false e en w) as [[] u] eqn:E; cbn; intros [].
    - destruct m as [p o]. destruct (macro_nv _ _ n) as [M|[M1 M2]]; [left; apply ex_macro; assumption|].
      right. intros pl en w. cbn [Eval.ev]. rewrite M1, M2. intros [].
    - right. intros pl en w. inversion s; subst.
      + cbn [Eval.ev]. apply names_named in H. unfold none_of. rewrite H.
        destruct (con_of p) as [c|] eqn:C; [|intros []]. cbn. intros [].
      + change (~ gives (bnd W (ev false (ECall a0 (EPath b false p) [e0]) en w) (fun v w1 =>
              match v with
              | VCon c y => if c =? "Err" then (ORet v, w1) else (ONorm y, w1)
              | VNone => (ORet VNone, w1)
              | _ => (OStuck, w1)
              end))).
        rewrite (ev_call mk O k self). cbn [Eval.ev].
        assert (C : con_of p = Some "Err").
        { unfold con_of. assert (X : named p ["result"; "Result"] "Ok" = false).
          { destruct H as [H|[H|H]]; unfold named; rewrite H; reflexivity. }
          rewrite X, (names_named _ _ _ H). reflexivity. }
        rewrite C. cbn [bnd]. unfold ev_list, values, all. cbn [length].
        destruct (ev false e0 en w) as [[] u]; cbn; intros [].
    - destruct H as [(m & H1 & H2)|H]; [left; eapply ex_match; eassumption|right]. intros pl en w.
      rewrite (ev_match mk O k self). destruct (ev false s en w) as [[] u]; try (intros []; fail). apply H.
    - destruct H as [H|H]; [left; apply ex_method; assumption|right]. intros pl en w. cbn [Eval.ev]. apply gives_bnd. apply H.
    - destruct H as [H|H]; [left; apply ex_paren; assumption|right]. intros pl en w. cbn [Eval.ev]. apply H.
    - right. intros x en w [].
    - left. exists (Arm a p g b c). split; [left; reflexivity|]. apply exa_never. assumption.
    - destruct H0 as [(m & X & Y)|H0]; [left; exists m; split; [right; exact X|exact Y]|].
      destruct H as [H|H]; [left; exists (Arm a p g b c); split; [left; reflexivity|apply exa_body; exact H]|].
      right. intros x en w. rewrite (ev_arms_cons mk O k self), (ev_arm_eq mk O k self).
      destruct (pmatch _ O p x w) as [[] u]; [|apply H0|intros []].
      destruct g as [z|]; [|apply H]. destruct (ev false z (bs ++ en) u) as [[] v]; try (intros []; fail).
      destruct (cond x0); [apply H|apply H0|intros []].
    - destruct H as [H|H]; [left; apply exs_expr; exact H|right]. intros pl en w. rewrite (ev_sexpr mk O k self).
      pose proof (H (pl && negb semi) en w) as X. destruct (ev (pl && negb semi) e en w) as [[] u]; try exact I. apply X. exact I.
    - destruct H as [H|H]; [left; apply exs_let; exact H|right]. intros pl en w.
      change (match ev_local (Local a p t (Some e) d) en w with SGo _ _ _ _ => False | SOut _ _ _ => True end).
      rewrite (ev_local_some mk O k self). pose proof (H false en w) as X. destruct (ev false e en w) as [[] u]; try exact I.
      exfalso. apply X. exact I.
    - left. apply exs_item.
    - destruct m as [p o]. destruct (macro_nv _ _ n) as [M|[M1 M2]]; [left; apply exs_macro; assumption|].
      right. intros pl en w. cbn [Eval.ev_stmt]. rewrite M1, M2. exact I.
  Qed.
End World.
