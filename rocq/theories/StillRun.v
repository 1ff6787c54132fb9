(** Code without branches is not changed by the search for branches. *)

Require Import Coq.Strings.String Coq.Lists.List Coq.Bool.Bool Coq.Arith.Arith Coq.NArith.NArith Lia.
Require Import Verif.Syntax Verif.Context Verif.ExprModel Verif.TypeAnalysis Verif.AutoEnum Verif.Edits.
Require Import Verif.AstInd Verif.RunLemmas Verif.NoValueSpec Verif.NoValueRun Verif.Tails Verif.Twin Verif.TwinBase Verif.TailRun.
Import ListNotations.
Open Scope string_scope.
Open Scope list_scope.

Section Still.
  Variable cx : ctx.
  Notation own := (cx_ident cx).
  Notation mk := (ctx_marker cx).
  (** Nothing happens. *)
  Definition idle {A} (m : M A) (a : A) : Prop := m cx = ROk (a, cx).

  Lemma idle_bind {A B} (m : M A) a (k : A -> M B) b : idle m a -> idle (k a) b -> idle (bind m k) b.
  Proof. unfold idle, bind. intros -> H. exact H. Qed.
  Lemma idle_ret {A} (a : A) : idle (ret a) a.
  Proof. reflexivity. Qed.

  Lemma idle_seq {A} (R : list string -> A -> A -> Prop) (f : A -> M A) t l l' :
    Forall (fun x => forall x', R [] x x' -> idle (f x) x) l -> seq2 R t l l' -> t = [] -> idle (mapM f l) l.
  Proof.
    intros F S. induction S as [|t1 t2 x x' l l' HR S IH]; intros E; [reflexivity|]. inversion F; subst.
    apply app_eq_nil in E. destruct E as [-> ->]. cbn [mapM]. eapply idle_bind; [eauto|]. eapply idle_bind; [auto|reflexivity].
  Qed.
  Lemma idle_opt {A} (R : list string -> A -> A -> Prop) (f : A -> M A) t o o' :
    opt_all (fun x => forall x', R [] x x' -> idle (f x) x) o -> maybe2 R t o o' -> t = [] -> idle (optM f o) o.
  Proof. intros F S E. destruct S; subst; cbn in *; [reflexivity|]. eapply idle_bind; [eauto|reflexivity]. Qed.

  Lemma idle_walk V (Re : list string -> expr -> expr -> Prop) (Rs : list string -> stmt -> stmt -> Prop)
      (Ra : list string -> arm -> arm -> Prop) e e' :
    kids (fun x => forall x', Re [] x x' -> idle (on_expr V x) x) (fun x => forall x', Rs [] x x' -> idle (on_stmt V x) x)
         (fun x => forall x', Ra [] x x' -> idle (on_arm V x) x) e ->
    parts Re Rs Ra [] e e' -> idle (walk_expr V e) e.
  Proof.
    intros K H. remember [] as t0 eqn:E.
    destruct H; cbn [walk_expr kids] in *; repeat match goal with H : _ /\ _ |- _ => destruct H end;
      repeat match goal with H : _ ++ _ = [] |- _ => apply app_eq_nil in H; destruct H end; subst;
      repeat first [ reflexivity
        | eapply idle_bind; [first [ eapply idle_seq; [eassumption|eassumption|reflexivity] | eapply idle_opt; [eassumption|eassumption|reflexivity]
                             | match goal with H : forall x', _ -> idle _ _ |- _ => eapply H; eassumption end ]|] ].
  Qed.

  Lemma never_iff a : any_empty_attr a NEVER = true <-> has_plain "never" a.
  Proof. apply empty_attr_iff. Qed.

  Ltac pair_nil := repeat match goal with H : _ ++ _ = [] |- _ => apply app_eq_nil in H; destruct H; subst end.

  Lemma idle_loop :
    (forall e label inner, (label = None -> inner = false) -> forall e', breaks own mk label inner [] e e' -> idle (loop_expr label inner e) e)
    /\ (forall s label inner, (label = None -> inner = false) -> forall s', breaks_stmt own mk label inner [] s s' -> idle (loop_stmt label inner s) s)
    /\ (forall x label inner, (label = None -> inner = false) -> forall x', breaks_arm own mk label inner [] x x' -> idle (loop_arm label inner x) x)
    /\ (forall x label inner, (label = None -> inner = false) -> forall x', breaks_local own mk label inner [] x x' -> idle (loop_local label inner x) x).
  Proof.
    assert (S : forall A (f : option string -> bool -> A -> M A) (g : option string -> bool -> list string -> A -> A -> Prop) l la n,
      (la = None -> n = false) ->
      Forall (fun x => forall la n, (la = None -> n = false) -> forall x', g la n [] x x' -> idle (f la n x) x) l ->
      Forall (fun x => forall x', g la n [] x x' -> idle (f la n x) x) l).
    { intros. eapply Forall_impl; [|eassumption]. cbn. eauto. }
    assert (O : forall A (f : option string -> bool -> A -> M A) (g : option string -> bool -> list string -> A -> A -> Prop) l la n,
      (la = None -> n = false) ->
      opt_all (fun x => forall la n, (la = None -> n = false) -> forall x', g la n [] x x' -> idle (f la n x) x) l ->
      opt_all (fun x => forall x', g la n [] x x' -> idle (f la n x) x) l).
    { intros A f g [] la n; cbn; eauto. }
    assert (W : forall la n e e', (la = None -> n = false) ->
      kids (fun x => forall la n, (la = None -> n = false) -> forall x', breaks own mk la n [] x x' -> idle (loop_expr la n x) x)
           (fun x => forall la n, (la = None -> n = false) -> forall x', breaks_stmt own mk la n [] x x' -> idle (loop_stmt la n x) x)
           (fun x => forall la n, (la = None -> n = false) -> forall x', breaks_arm own mk la n [] x x' -> idle (loop_arm la n x) x) e ->
      parts (breaks own mk la n) (breaks_stmt own mk la n) (breaks_arm own mk la n) [] e e' ->
      idle (walk_expr (Vis (loop_expr la n) (loop_stmt la n) (loop_arm la n) (loop_local la n)) e) e).
    { intros la n e e' HN K H. eapply idle_walk; [|exact H]. cbn [on_expr on_stmt on_arm].
      destruct e; cbn [kids] in *; repeat match goal with H : _ /\ _ |- _ => destruct H end; repeat match goal with |- _ /\ _ => split end; eauto;
        first [ apply (S _ loop_stmt (breaks_stmt own mk)); assumption | apply (S _ loop_arm (breaks_arm own mk)); assumption
              | apply (S _ loop_expr (breaks own mk)); assumption | apply (O _ loop_expr (breaks own mk)); assumption ]. }
    assert (E : forall e label inner, (label = None -> inner = false) ->
      kids (fun x => forall la n, (la = None -> n = false) -> forall x', breaks own mk la n [] x x' -> idle (loop_expr la n x) x)
           (fun x => forall la n, (la = None -> n = false) -> forall x', breaks_stmt own mk la n [] x x' -> idle (loop_stmt la n x) x)
           (fun x => forall la n, (la = None -> n = false) -> forall x', breaks_arm own mk la n [] x x' -> idle (loop_arm la n x) x) e ->
      forall e', breaks own mk label inner [] e e' -> idle (loop_expr label inner e) e).
    { intros e label inner HN K e' H.
      assert (N0 : any_empty_attr (e_attrs e) NEVER = true -> idle (loop_expr label inner e) e)
        by (intros X; destruct e; cbn [loop_expr e_attrs] in *; rewrite X; reflexivity).
      destruct (any_empty_attr (e_attrs e) NEVER) eqn:X; [auto|]. clear N0.
      inversion H; subst.
      - apply never_iff in H0. congruence.
      - cbn [loop_expr e_attrs] in *. rewrite X. reflexivity.
      - cbn [loop_expr e_attrs] in *. rewrite X. reflexivity.
      - destruct e'; try discriminate; cbn [loop_expr e_attrs] in *; rewrite X; reflexivity.
      - assert (idle (walk_expr (Vis (loop_expr label true) (loop_stmt label true) (loop_arm label true) (loop_local label true)) e) e) as Y
          by (eapply W; [intros; congruence|exact K|eassumption]).
        destruct label; [|congruence].
        destruct e; try discriminate; cbn [loop_expr e_attrs] in *; rewrite X; exact Y.
      - cbn [kids opt_all] in K. cbn [loop_expr e_attrs] in *. rewrite X. fold (own_break label inner l).
        match goal with L : leaves _ _ _ |- _ => rewrite (proj2 (own_break_iff label inner l HN) L) end.
        unfold idle. unfold gets, bind at 1. match goal with L : is_mark _ _ |- _ => rewrite (proj2 (is_mark_iff cx e0) L) end.
        change (idle (y' <- loop_expr label inner e0 ;; ret (EBreak a l (Some y'))) (EBreak a l (Some e0))).
        eapply idle_bind; [eapply K; eassumption|reflexivity].
      - cbn [kids] in K. cbn [loop_expr e_attrs] in *. rewrite X. fold (own_break label inner l).
        destruct (own_break label inner l) eqn:OB; [apply (own_break_iff label inner l HN) in OB; contradiction|].
        eapply idle_bind; [eapply idle_opt; [|eassumption|reflexivity]; apply (O _ loop_expr (breaks own mk)); assumption|reflexivity].
      - assert (idle (walk_expr (Vis (loop_expr label inner) (loop_stmt label inner) (loop_arm label inner) (loop_local label inner)) e) e) as Y
          by (eapply W; [exact HN|exact K|eassumption]).
        destruct e; try discriminate; cbn [loop_expr e_attrs] in *; rewrite X; try exact Y. destruct k; try exact Y; discriminate. }
    apply ast_ind; intros; try (eapply E; [eassumption|cbn [kids]; auto|eassumption]; fail).
    - inversion H1; subst. inversion H2; subst. cbn. eapply idle_bind; [eauto|reflexivity].
    - reflexivity.
    - inversion H1; subst. inversion H2; subst. cbn. eapply idle_bind; [eauto|reflexivity].
    - reflexivity.
    - inversion H2; subst. inversion H3; subst. pair_nil. cbn [loop_local walk_local].
      eapply idle_bind; [eapply idle_opt; [|eassumption|reflexivity]; apply (O _ loop_expr (breaks own mk)); assumption|].
      eapply idle_bind; [eapply idle_opt; [|eassumption|reflexivity]; apply (O _ loop_expr (breaks own mk)); assumption|reflexivity].
    - inversion H2; subst. inversion H3; subst. pair_nil. cbn [loop_arm walk_arm].
      eapply idle_bind; [eapply idle_opt; [|eassumption|reflexivity]; apply (O _ loop_expr (breaks own mk)); assumption|].
      eapply idle_bind; [eauto|reflexivity].
  Qed.

  Lemma idle_block t b b' : branch_wrapped own mk t b b' -> t = [] -> idle (visit_last_block b) b.
  Proof.
    intros H E. destruct H; [|discriminate]. unfold visit_last_block, idle, bind, gets.
    rewrite (proj2 (branch_skipped_iff cx b) H). reflexivity.
  Qed.
  Lemma idle_arm t x x' : arm_wrapped own mk t x x' -> t = [] -> idle (visit_last_arm x) x.
  Proof.
    intros H E. destruct H; [|discriminate]. unfold visit_last_arm, idle, bind, gets.
    rewrite (proj2 (arm_skipped_iff cx x) H). reflexivity.
  Qed.
  Lemma idle_if t e e' : if_wrapped own mk t e e' -> t = [] -> idle (visit_last_expr_if e) e.
  Proof.
    induction 1; intros E; pair_nil; cbn [visit_last_expr_if].
    - eapply idle_bind; [eapply idle_block; eauto|].
      eapply idle_bind; [eapply idle_bind; [eapply idle_block; eauto|reflexivity]|reflexivity].
    - eapply idle_bind; [eapply idle_block; eauto|].
      destruct H0; (eapply idle_bind; [|reflexivity]); (eapply idle_bind; [apply IHif_wrapped; reflexivity|reflexivity]).
  Qed.

  Lemma idle_last f r e : idle (f e) e -> idle (map_last_expr f (r ++ [SExpr e false])) (r ++ [SExpr e false]).
  Proof.
    intros H. induction r as [|s r IH]; [cbn; eapply idle_bind; [exact H|reflexivity]|].
    cbn [app]. destruct (r ++ [SExpr e false]) as [|s2 r2] eqn:X; [destruct r; discriminate|].
    change (map_last_expr f (s :: s2 :: r2)) with (r' <- map_last_expr f (s2 :: r2) ;; ret (s :: r')).
    eapply idle_bind; [exact IH|reflexivity].
  Qed.
  Lemma idle_last_other f b : ends_in_value b = false -> idle (map_last_expr f b) b.
  Proof.
    induction b as [|s r IH]; [reflexivity|]. destruct r as [|s2 r].
    - cbn. destruct s as [| |? []|]; try reflexivity. discriminate.
    - intros H. change (map_last_expr f (s :: s2 :: r)) with (r' <- map_last_expr f (s2 :: r) ;; ret (s :: r')).
      eapply idle_bind; [apply IH; exact H|reflexivity].
  Qed.

  Lemma idle_tail t e e' : tail own mk t e e' -> t = [] -> idle (child_expr e) e.
  Proof.
    assert (G : forall e m, child_expr e = (stop <- gets (fun cx => negb (visit_last cx) || is_unreachable cx e) ;; if (stop : bool) then ret e else m) ->
      (~ no_value mk e -> idle m e) -> idle (child_expr e) e).
    { intros x m -> H. unfold idle, bind, gets. destruct (negb (visit_last cx) || is_unreachable cx x) eqn:X; [reflexivity|].
      apply H. intros Y. apply (unreachable_iff cx) in Y. rewrite Y, orb_true_r in X. discriminate. }
    induction 1; intros E; try (eapply G; [reflexivity|intros _]); cbn zeta.
    - unfold idle. assert (X : forall m, child_expr e = (stop <- gets (fun cx => negb (visit_last cx) || is_unreachable cx e) ;; if (stop : bool) then ret e else m) -> child_expr e cx = ROk (e, cx)).
      { intros m ->. unfold bind, gets. rewrite (proj2 (unreachable_iff cx e) H), orb_true_r. reflexivity. }
      destruct e; eapply X; reflexivity.
    - destruct e; try discriminate; try (eapply G; [reflexivity|intros _]; reflexivity); cbn in H.
      + eapply G; [reflexivity|intros _]. eapply idle_bind; [apply idle_last_other; apply negb_true_iff; exact H|reflexivity].
      + destruct k; try (eapply G; [reflexivity|intros _]; reflexivity).
        eapply G; [reflexivity|intros _]. eapply idle_bind; [apply idle_last_other; apply negb_true_iff; exact H|reflexivity].
    - eapply idle_bind; [|reflexivity]. subst t. eapply idle_seq; [|eassumption|reflexivity].
      apply Forall_forall. intros y _ y' Hy. eapply idle_arm; eauto.
    - eapply idle_if; eauto.
    - eapply idle_bind; [|reflexivity]. subst t. unfold visit_last_expr_loop. eapply idle_seq; [|eassumption|reflexivity].
      apply Forall_forall. intros y _ y' Hy. eapply (proj1 (proj2 idle_loop)); [auto|exact Hy].
    - eapply idle_bind; [apply idle_last; apply IHtail; exact E|reflexivity].
    - eapply idle_bind; [apply idle_last; apply IHtail; exact E|reflexivity].
    - eapply idle_bind; [apply IHtail; exact E|reflexivity].
    - eapply idle_bind; [apply IHtail; exact E|reflexivity].
  Qed.

  Lemma idle_body t b b' : tail_body own mk t b b' -> t = [] -> idle (map_last_expr child_expr b) b.
  Proof.
    intros H E. destruct H; [apply idle_last; eapply idle_tail; eauto|apply idle_last_other; assumption].
  Qed.
End Still.
