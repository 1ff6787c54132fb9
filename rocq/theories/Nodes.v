(** A condition on all nodes of a piece of code, and that wrapping branches adds only harmless nodes. *)

Require Import Coq.Strings.String Coq.Lists.List Coq.Bool.Bool.
Require Import Verif.Syntax Verif.ExprModel Verif.Edits Verif.NoValueSpec Verif.Tails Verif.AstInd Verif.TwinEdits.
Require Import Verif.Changes Verif.LoopsRun Verif.BranchesClean.
Import ListNotations.
Open Scope string_scope.
Open Scope list_scope.

(** ** Specification *)

(** An expression without its parts; macro arguments are no parts. *)
Definition nothing : expr := EVerbatim "".
Definition node_of (e : expr) : expr :=
  match e with
  | EBlock a l _ => EBlock a l []
  | EBlk k a _ => EBlk k a []
  | EMatch a _ _ => EMatch a nothing []
  | EIf a _ _ _ => EIf a nothing [] None
  | ELet a p _ => ELet a p nothing
  | ELoop a l _ => ELoop a l []
  | EWhile a l _ _ => EWhile a l nothing []
  | EFor a l p _ _ => EFor a l p nothing []
  | EBreak a l _ => EBreak a l None
  | EReturn a _ => EReturn a None
  | ETry a _ => ETry a nothing
  | EClosure a ps _ => EClosure a ps nothing
  | EMethodCall a _ m _ => EMethodCall a nothing m []
  | EParen a _ => EParen a nothing
  | ECall a _ _ => ECall a nothing []
  | EOther a k _ => EOther a k []
  | EContinue _ _ | EMacro _ _ | EPath _ _ _ | EVerbatim _ => e
  end.

(** What is asked of a node in the context [c], and the context of its parts. *)
Record rule {C : Type} := Rule {
  r_expr : C -> expr -> bool;
  r_in : C -> expr -> C;
  r_arm : C -> list attr -> bool;
  (* of a [let]; whether it has a value *)
  r_let : C -> list attr -> bool -> bool;
  (* the value of a [let]; its node *)
  r_value : C -> list attr -> expr -> C;
  r_else : C -> list attr -> C
}.
Arguments rule : clear implicits.

Section All.
  Context {C : Type} (r : rule C).
  (** All nodes, items and macro arguments aside. *)
  Fixpoint all (c : C) (e : expr) : bool :=
    r_expr r c (node_of e)
    && fold_expr andb true (all (r_in r c (node_of e))) (all_stmt (r_in r c (node_of e))) (all_arm (r_in r c (node_of e))) e
  with all_stmt (c : C) (s : stmt) : bool := fold_stmt true (all c) (all_local c) s
  with all_arm (c : C) (y : arm) : bool := match y with Arm a _ _ _ _ => r_arm r c a && fold_arm andb true (all c) y end
  with all_local (c : C) (y : local) : bool :=
    match y with
    | Local a _ _ i d =>
        r_let r c a (match i with Some _ => true | None => false end)
        && (fold_opt true (fun e => all (r_value r c a (node_of e)) e) i && fold_opt true (all (r_else r c a)) d)
    end.
  Definition all_block (c : C) (b : list stmt) : bool := forallb (all_stmt c) b.
End All.

(** ** Proofs *)

Section Generic.
  Context {C : Type} (r : rule C).
  Lemma all_split c e : all r c e = r_expr r c (node_of e)
    && fold_expr andb true (all r (r_in r c (node_of e))) (all_stmt r (r_in r c (node_of e))) (all_arm r (r_in r c (node_of e))) e.
  Proof. destruct e; reflexivity. Qed.
  Lemma all_arm_eq c a p g b x : all_arm r c (Arm a p g b x) = r_arm r c a && (fold_opt true (all r c) g && all r c b).
  Proof. reflexivity. Qed.
  Lemma all_local_eq c a p t i d : all_local r c (Local a p t i d) =
    r_let r c a (match i with Some _ => true | None => false end) && (fold_opt true (fun e => all r (r_value r c a (node_of e)) e) i && fold_opt true (all r (r_else r c a)) d).
  Proof. reflexivity. Qed.
  Lemma all_let_eq c l : all_stmt r c (SLocal l) = all_local r c l.
  Proof. reflexivity. Qed.
  Lemma all_stmt_eq c e semi : all_stmt r c (SExpr e semi) = all r c e.
  Proof. reflexivity. Qed.
  Lemma all_stmts c b : fold_list andb true (all_stmt r c) b = all_block r c b.
  Proof. unfold all_block. induction b as [|s b IH]; [reflexivity|]. cbn. rewrite <- IH. reflexivity. Qed.
  Lemma node_parts Re Rs Ra t e e' : parts Re Rs Ra t e e' -> node_of e' = node_of e.
  Proof. destruct 1; reflexivity. Qed.

  (** The nodes that wrapping adds. *)
  Definition added (e : expr) : Prop :=
    e = ECall [] nothing [] \/ (exists p, e = EPath [] false p) \/ e = EBlock [] None [] \/ e = EOther [] "Tuple" [] \/ e = EReturn [] None.
  Hypothesis HA : forall c e, added e -> r_expr r c e = true /\ r_in r c e = c.

  Lemma all_ctor c p : all r c (EPath [] false p) = true.
  Proof. rewrite all_split. cbn [node_of fold_expr]. destruct (HA c (EPath [] false p)) as [-> _]; [unfold added; eauto|reflexivity]. Qed.
  Lemma all_call c p e : all r c (ECall [] (EPath [] false p) [e]) = all r c e.
  Proof.
    rewrite all_split. cbn [node_of fold_expr fold_list fold_right]. destruct (HA c (ECall [] nothing [])) as [-> ->]; [unfold added; eauto|].
    rewrite all_ctor, andb_true_r. reflexivity.
  Qed.
  Lemma all_wrap c own v e : all r c (wrap own v e) = all r c e.
  Proof. apply all_call. Qed.
  Lemma all_bare_block c b : all r c (EBlock [] None b) = all_block r c b.
  Proof.
    rewrite all_split. cbn [node_of fold_expr]. destruct (HA c (EBlock [] None [])) as [-> ->]; [unfold added; auto|]. cbn. apply all_stmts.
  Qed.
  Lemma all_wrap_branch c own v b : all_block r c (wrap_branch own v b) = all_block r c b.
  Proof. unfold wrap_branch. cbn [all_block forallb all_stmt fold_stmt]. rewrite andb_true_r. rewrite all_wrap. apply all_bare_block. Qed.
  Lemma all_operand c o : fold_opt true (all r c) o = all r c (operand o).
  Proof.
    destruct o as [e|]; [reflexivity|]. cbn [operand fold_opt]. rewrite all_split. cbn [node_of fold_expr fold_list fold_right].
    destruct (HA c (EOther [] "Tuple" [])) as [-> _]; [unfold added; auto 6|reflexivity].
  Qed.
  Lemma all_declared c own e e' : declared own e e' -> all r c e' = all r c e.
  Proof.
    intros [->|(n & d & _ & ->)]; [reflexivity|]. rewrite all_bare_block. cbn [all_block forallb all_stmt fold_stmt]. rewrite andb_true_r. reflexivity.
  Qed.
  Lemma all_declared_in c own b b' : declared_in own b b' -> all_block r c b' = all_block r c b.
  Proof. intros [->|(n & d & _ & ->)]; reflexivity. Qed.

  Section Breaks.
    Variables (own : string) (mk : string -> Prop) (l : option string).
    Definition level {A} (f : C -> A -> bool) (R : bool -> list string -> A -> A -> Prop) (y : A) : Prop :=
      forall inner t y', R inner t y y' -> forall c, f c y = f c y'.
    Let S (t : list string) (a b : bool) : Prop := a = b.

    Lemma breaks_node inner t e e' : breaks own mk l inner t e e' -> node_of e' = node_of e.
    Proof. destruct 1; try reflexivity; eapply node_parts; eassumption. Qed.
    Lemma breaks_all :
      (forall e, level (all r) (breaks own mk l) e)
      /\ (forall s, level (all_stmt r) (breaks_stmt own mk l) s)
      /\ (forall y, level (all_arm r) (breaks_arm own mk l) y)
      /\ (forall y, level (all_local r) (breaks_local own mk l) y).
    Proof.
      assert (SP : forall t1 t2 a a' b b', S t1 a a' -> S t2 b b' -> S (t1 ++ t2) (a && b) (a' && b')) by (unfold S; intros; congruence).
      assert (S0 : S [] true true) by reflexivity.
      assert (K1 : forall x e, kids (level (all r) (breaks own mk l)) (level (all_stmt r) (breaks_stmt own mk l))
          (level (all_arm r) (breaks_arm own mk l)) e -> forall inner,
        kids (fun e => forall t e', breaks own mk l inner t e e' -> S t (all r x e) (all r x e'))
             (fun e => forall t e', breaks_stmt own mk l inner t e e' -> S t (all_stmt r x e) (all_stmt r x e'))
             (fun e => forall t e', breaks_arm own mk l inner t e e' -> S t (all_arm r x e) (all_arm r x e')) e).
      { intros z e K inner. revert K. apply kids_map; unfold level, S; intros; eauto. }
      assert (P : forall e, kids (level (all r) (breaks own mk l)) (level (all_stmt r) (breaks_stmt own mk l))
          (level (all_arm r) (breaks_arm own mk l)) e -> forall inner t e',
        parts (breaks own mk l inner) (breaks_stmt own mk l inner) (breaks_arm own mk l inner) t e e' ->
        forall x, all r x e = all r x e').
      { intros e K inner t e' PT z. rewrite (all_split z e), (all_split z e'), (node_parts _ _ _ _ _ _ PT). f_equal.
        apply (parts_fold andb true andb true S S0 SP _ _ _ _ _ _ (breaks own mk l inner) (breaks_stmt own mk l inner) (breaks_arm own mk l inner) t);
          [apply K1; exact K|exact PT]. }
      assert (W : forall e, kids (level (all r) (breaks own mk l)) (level (all_stmt r) (breaks_stmt own mk l))
          (level (all_arm r) (breaks_arm own mk l)) e -> level (all r) (breaks own mk l) e).
      { intros e K inner t e' H.
        destruct H as [inner e N|inner a ps e|inner a b|inner e L IL|inner t e e' N L IL PT|inner v a l' N LV|inner v t a l' e e' N LV NM H
                      |inner t a l' e e' N LV NM H|inner t a l' o o' N NL H|inner t e e' N PL PT]; auto; try (eapply P; eassumption);
          intros z; rewrite (all_split z (EBreak a l' _)), (all_split z (EBreak a l' _)); cbn [node_of]; f_equal; cbn [fold_expr fold_opt kids opt_all] in *.
        - rewrite all_wrap. symmetry. rewrite <- (all_operand _ None). reflexivity.
        - rewrite all_wrap. exact (K _ _ _ H _).
        - exact (K _ _ _ H _).
        - destruct H as [|t y y' H]; [reflexivity|]. exact (K _ _ _ H _). }
      apply ast_ind; intros; try (apply W; cbn [kids]; auto; fail).
      - intros inner t s' H0 z. inversion H0 as [? ? ? ? H1]; subst. inversion H1; subst. exact (H _ _ _ ltac:(eassumption) _).
      - intros inner t s' H0 z. inversion H0 as [? ? ? ? H1]; subst. inversion H1; subst. reflexivity.
      - intros inner t s' H0 z. inversion H0 as [? ? ? ? H1]; subst. inversion H1; subst. exact (H _ _ _ ltac:(eassumption) _).
      - intros inner t s' H0 z. inversion H0 as [? ? ? ? H1]; subst. inversion H1; subst. reflexivity.
      - intros inner t0 s' H1 z. inversion H1 as [? ? ? ? H2]; subst. inversion H2 as [t1 t2 ? ? ? ? i' ? d' M1 M2]; subst. cbn [all_local].
        f_equal; [destruct M1; reflexivity|]. f_equal.
        + destruct M1 as [|? y y' M]; [reflexivity|]. cbn [fold_opt]. rewrite (breaks_node _ _ _ _ M). exact (H _ _ _ M _).
        + destruct M2; [reflexivity|]. exact (H0 _ _ _ ltac:(eassumption) _).
      - intros inner t0 s' H1 z. inversion H1 as [? ? ? ? H2]; subst. inversion H2 as [t1 t2 ? ? ? g' ? b' ? M1 M2]; subst. cbn [all_arm fold_arm].
        f_equal. f_equal.
        + destruct M1; [reflexivity|]. exact (H _ _ _ ltac:(eassumption) _).
        + exact (H0 _ _ _ ltac:(eassumption) _).
    Qed.
  End Breaks.

  Lemma all_app c b1 b2 : all_block r c (b1 ++ b2) = all_block r c b1 && all_block r c b2.
  Proof. apply forallb_app. Qed.

  Lemma branch_all c own mk t b b' : branch_wrapped own mk t b b' -> all_block r c b' = all_block r c b.
  Proof. destruct 1; [reflexivity|]. apply all_wrap_branch. Qed.
  (** The parts of an expression. *)
  Definition below (c : C) (e : expr) : bool := fold_expr andb true (all r c) (all_stmt r c) (all_arm r c) e.
  Lemma all_below c e : all r c e = r_expr r c (node_of e) && below (r_in r c (node_of e)) e.
  Proof. apply all_split. Qed.
  Lemma if_below own mk t e e' : if_wrapped own mk t e e' -> node_of e' = node_of e /\ forall c, below c e' = below c e.
  Proof.
    induction 1 as [t1 t2 a c b1 b1' ea l b2 b2' H1 H2|t1 t2 a c b1 b1' e2 e2' H1 H2 [IH1 IH2]]; (split; [reflexivity|]); intros z;
      unfold below; cbn [fold_expr fold_opt]; f_equal; rewrite !all_stmts, (branch_all _ _ _ _ _ _ H1); f_equal.
    - rewrite (all_split _ (EBlock ea l b2')), (all_split _ (EBlock ea l b2)). cbn [node_of fold_expr]. f_equal. rewrite !all_stmts.
      apply (branch_all _ _ _ _ _ _ H2).
    - rewrite !all_below, IH1, IH2. reflexivity.
  Qed.
  Lemma arms_all c own mk t x x' : seq2 (arm_wrapped own mk) t x x' -> fold_list andb true (all_arm r c) x' = fold_list andb true (all_arm r c) x.
  Proof.
    induction 1 as [|t1 t2 y y' x x' A H IH]; [reflexivity|]. unfold fold_list in *. cbn [fold_right]. rewrite IH. f_equal. destruct A as [|v a p g b e N]; [reflexivity|].
    cbn [all_arm fold_arm]. rewrite all_wrap. reflexivity.
  Qed.
  Lemma tail_below own mk t e e' : tail own mk t e e' -> node_of e' = node_of e /\ forall c, below c e' = below c e.
  Proof.
    induction 1 as [e N|e B|t a s x x' N A|t a cd b o e' N I|t a l b b' N B|t a l b e e' N H [IH1 IH2]|t a b e e' N H [IH1 IH2]|t a e e' m l N H [IH1 IH2]|t a e e' N H [IH1 IH2]];
      try (split; reflexivity); try (eapply if_below; eassumption); (split; [reflexivity|]); intros c; unfold below; cbn [fold_expr];
      try assert (IH : forall c, all r c e' = all r c e) by (intros; rewrite !all_below, IH1, IH2; reflexivity).
    - f_equal. eapply arms_all; exact A.
    - destruct (breaks_all own mk l) as (_ & BS & _). clear N.
      induction B as [|t1 t2 y y' b b' H1 H2 IH]; [reflexivity|]. unfold fold_list in *. cbn [fold_right]. rewrite IH. f_equal.
      symmetry. exact (BS _ _ _ _ H1 _).
    - rewrite !all_stmts, !all_app. f_equal. cbn. rewrite IH. reflexivity.
    - rewrite !all_stmts, !all_app. f_equal. cbn. rewrite IH. reflexivity.
    - rewrite IH. reflexivity.
    - apply IH.
  Qed.
  Lemma tail_all own mk t e e' : tail own mk t e e' -> forall c, all r c e' = all r c e.
  Proof. intros H c. destruct (tail_below _ _ _ _ _ H) as [H1 H2]. rewrite !all_below, H1, H2. reflexivity. Qed.
  Lemma branches_below w t e e' : branches w t e e' -> node_of e' = node_of e /\ forall c, below c e' = below c e.
  Proof. unfold branches. destruct (w_branches w); [apply tail_below|intros [_ ->]; auto]. Qed.
  Hypothesis HR : forall c, r_arm r c [] = true.
  Lemma exit_below w e e' : exit_step w e e' -> e_attrs e' = e_attrs e /\ forall c, below c e' = below c e.
  Proof.
    destruct 1 as [v a o T|v a x T|e T]; (split; [reflexivity|]); intros c; unfold below; cbn [fold_expr].
    - cbn [fold_opt]. rewrite all_wrap. symmetry. apply all_operand.
    - rewrite <- (andb_true_r (all r c x)) at 2. f_equal. unfold question_arms, fold_list. cbn [fold_right]. rewrite !all_arm_eq. cbn [fold_opt].
      rewrite HR, all_ctor, all_bare_block. unfold all_block. cbn [forallb]. rewrite all_stmt_eq, all_split. cbn [node_of fold_expr fold_opt].
      destruct (HA c (EReturn [] None)) as [-> ->]; [unfold added; auto 8|]. rewrite all_call, all_wrap, all_ctor. reflexivity.
    - reflexivity.
  Qed.
  Lemma branches_all w t e e' : branches w t e e' -> forall c, all r c e' = all r c e.
  Proof. unfold branches. destruct (w_branches w); [apply tail_all|intros [_ ->]; reflexivity]. Qed.
  Lemma body_all w t b b' : branches_body w t b b' -> forall c, all_block r c b' = all_block r c b.
  Proof.
    unfold branches_body. destruct (w_branches w); [|intros [_ ->]; reflexivity]. intros H c. destruct H as [t r0 e e' H|]; [|reflexivity].
    rewrite !all_app. f_equal. cbn. rewrite (tail_all _ _ _ _ _ H). reflexivity.
  Qed.
End Generic.
