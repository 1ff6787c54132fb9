(** Proof: clean code (Branches.v) stays clean when its branches are wrapped, so that the visit afterwards changes nothing. *)

Require Import Coq.Strings.String Coq.Lists.List Coq.Bool.Bool.
Require Import Verif.Syntax Verif.ExprModel Verif.Edits Verif.NoValueSpec Verif.Tails Verif.AstInd Verif.TwinEdits.
Require Import Verif.Changes Verif.ChangesTop Verif.Branches Verif.BranchesRun Verif.CleanRun Verif.LoopsRun.
Import ListNotations.
Open Scope string_scope.
Open Scope list_scope.

Lemma clean_split m x e : clean m x e = true <-> head_clean m x e = true
  /\ fold_expr andb true (clean m (exits_in e x)) (clean_stmt m (exits_in e x)) (clean_arm m (exits_in e x)) e = true.
Proof. destruct e; apply andb_true_iff. Qed.
Lemma clean_wrap own m x v e : clean m x e = true -> clean m x (wrap own v e) = true.
Proof. intros H. unfold wrap. cbn. cbn in H. rewrite H. reflexivity. Qed.
Lemma clean_stmts m x b : fold_list andb true (clean_stmt m x) b = forallb (clean_stmt m x) b.
Proof. induction b as [|s b IH]; [reflexivity|]. cbn. rewrite <- IH. reflexivity. Qed.
Lemma clean_wrap_branch own m x v b : forallb (clean_stmt m x) b = true -> forallb (clean_stmt m x) (wrap_branch own v b) = true.
Proof.
  intros H. unfold wrap_branch. cbn [forallb]. rewrite andb_true_r. cbn [clean_stmt fold_stmt]. apply clean_wrap. cbn.
  rewrite <- clean_stmts in H. exact H.
Qed.

Lemma block_clean w b b' : w_foreign w = false -> forallb (clean_stmt (w_marker w) (w_exits w)) b = true -> block_done w b b' -> b' = b.
Proof.
  intros F C D. destruct done_clean_all as (_ & DS & _). unfold block_done in D. remember (@nil string) as t eqn:E.
  induction D as [|t1 t2 s s' b b' H1 H2 IH]; [reflexivity|]. apply app_eq_nil in E. destruct E; subst. cbn in C. apply andb_true_iff in C.
  destruct C as [C1 C2]. f_equal; [exact (DS _ _ _ H1 F C1)|exact (IH C2 eq_refl)].
Qed.

Lemma arm_clean w t x x' : w_foreign w = false -> clean_arm (w_marker w) (w_exits w) x = true -> arm_outcome w t x x' ->
  arm_wrapped (w_enum w) (w_mark w) t x x'.
Proof.
  intros F C (x1 & A & D). destruct done_clean_all as (_ & _ & DA). rewrite (DA _ _ _ D F); [exact A|].
  destruct A as [x S|v a p g b c S]; [exact C|]. cbn [clean_arm fold_arm] in *. apply andb_true_iff in C. destruct C as [C1 C].
  apply andb_true_iff in C. destruct C as [C2 C3]. rewrite C1, C2. apply clean_wrap. exact C3.
Qed.
Lemma arms_clean w t x x' : w_foreign w = false -> forallb (clean_arm (w_marker w) (w_exits w)) x = true -> seq2 (arm_outcome w) t x x' ->
  seq2 (arm_wrapped (w_enum w) (w_mark w)) t x x'.
Proof.
  intros F C H. induction H; [constructor|]. cbn in C. apply andb_true_iff in C. destruct C. constructor; [apply arm_clean; assumption|auto].
Qed.

Lemma branch_clean w t b b' : w_foreign w = false -> forallb (clean_stmt (w_marker w) (w_exits w)) b = true -> branch_outcome w t b b' ->
  branch_wrapped (w_enum w) (w_mark w) t b b'.
Proof.
  intros F C (b1 & B & D). apply block_clean in D; [subst; exact B|exact F|]. destruct B; [exact C|]. apply clean_wrap_branch. exact C.
Qed.
Lemma chain_clean w t e e' : w_foreign w = false -> clean (w_marker w) (w_exits w) e = true -> chain_outcome w t e e' ->
  if_wrapped (w_enum w) (w_mark w) t e e'.
Proof.
  intros F C H. destruct done_clean_all as (DE & _). induction H as [t1 t2 a c c' b b' ea l eb eb' D B1 B2|t1 t2 a c c' b b' e e' D B H IH];
    apply clean_split in C; destruct C as [_ C]; cbn [fold_expr exits_in fold_opt] in C; apply andb_true_iff in C; destruct C as [C1 C]; apply andb_true_iff in C;
    destruct C as [C2 C3]; rewrite clean_stmts in C2; rewrite (DE _ _ _ _ D F C1).
  - apply clean_split in C3. destruct C3 as [_ C3]. cbn [fold_expr exits_in] in C3. rewrite clean_stmts in C3.
    constructor; apply branch_clean; assumption.
  - constructor; [apply branch_clean; assumption|auto].
Qed.

Lemma kids_map (He He' : expr -> Prop) (Hs Hs' : stmt -> Prop) (Ha Ha' : arm -> Prop) e :
  (forall x, He x -> He' x) -> (forall x, Hs x -> Hs' x) -> (forall x, Ha x -> Ha' x) -> kids He Hs Ha e -> kids He' Hs' Ha' e.
Proof.
  intros H1 H2 H3. assert (O : forall o, opt_all He o -> opt_all He' o) by (intros []; cbn; auto).
  destruct e; cbn; try (intros; exact I); intros K; repeat match goal with H : _ /\ _ |- _ => destruct H end; repeat split; auto;
    eapply Forall_impl; eauto.
Qed.

Section Breaks.
  Variables (own : string) (mk : string -> Prop) (l : option string) (m : string) (x : takes).

  Definition stays_clean {A} (f : takes -> A -> bool) (R : bool -> list string -> A -> A -> Prop) (y : A) : Prop :=
    forall inner t y', R inner t y y' -> forall x, f x y = true -> f x y' = true.
  Let S (t : list string) (a b : bool) : Prop := a = true -> b = true.

  Lemma breaks_clean :
    (forall e, stays_clean (clean m) (breaks own mk l) e)
    /\ (forall s, stays_clean (clean_stmt m) (breaks_stmt own mk l) s)
    /\ (forall y, stays_clean (clean_arm m) (breaks_arm own mk l) y)
    /\ (forall y, stays_clean (clean_local m) (breaks_local own mk l) y).
  Proof.
    assert (SP : forall t1 t2 a a' b b', S t1 a a' -> S t2 b b' -> S (t1 ++ t2) (a && b) (a' && b')).
    { unfold S. intros t1 t2 a a' b b' H1 H2 H. apply andb_true_iff in H. apply andb_true_iff. tauto. }
    assert (S0 : S [] true true) by (unfold S; auto).
    assert (K1 : forall x e, kids (stays_clean (clean m) (breaks own mk l)) (stays_clean (clean_stmt m) (breaks_stmt own mk l))
        (stays_clean (clean_arm m) (breaks_arm own mk l)) e -> forall inner,
      kids (fun e => forall t e', breaks own mk l inner t e e' -> S t (clean m x e) (clean m x e'))
           (fun e => forall t e', breaks_stmt own mk l inner t e e' -> S t (clean_stmt m x e) (clean_stmt m x e'))
           (fun e => forall t e', breaks_arm own mk l inner t e e' -> S t (clean_arm m x e) (clean_arm m x e')) e).
    { intros z e K inner. revert K. apply kids_map; unfold stays_clean, S; intros; eauto. }
    assert (P : forall e, kids (stays_clean (clean m) (breaks own mk l)) (stays_clean (clean_stmt m) (breaks_stmt own mk l))
        (stays_clean (clean_arm m) (breaks_arm own mk l)) e -> forall inner t e',
      parts (breaks own mk l inner) (breaks_stmt own mk l inner) (breaks_arm own mk l inner) t e e' ->
      forall x, clean m x e = true -> clean m x e' = true).
    { intros e K inner t e' PT z C. apply clean_split in C. destruct C as [C1 C2]. apply clean_split.
      assert (Q : head_clean m z e' = true /\ exits_in e' z = exits_in e z).
      { destruct PT; unfold head_clean in *; cbn [e_attrs exits_in] in *; auto. }
      destruct Q as [Q1 Q2]. split; [exact Q1|]. rewrite Q2. revert C2.
      apply (parts_fold andb true andb true S S0 SP _ _ _ _ _ _ (breaks own mk l inner) (breaks_stmt own mk l inner) (breaks_arm own mk l inner) t);
        [apply K1; exact K|exact PT]. }
    assert (W : forall e, kids (stays_clean (clean m) (breaks own mk l)) (stays_clean (clean_stmt m) (breaks_stmt own mk l))
        (stays_clean (clean_arm m) (breaks_arm own mk l)) e -> stays_clean (clean m) (breaks own mk l) e).
    { intros e K inner t e' H.
      destruct H as [inner e N|inner a ps e|inner a b|inner e L IL|inner t e e' N L IL PT|inner v a l' N LV|inner v t a l' e e' N LV NM H
                    |inner t a l' e e' N LV NM H|inner t a l' o o' N NL H|inner t e e' N PL PT]; auto; try (eapply P; eassumption);
        intros z C; apply clean_split in C; destruct C as [C1 C2]; apply clean_split; (split; [exact C1|]); cbn [fold_expr exits_in fold_opt kids opt_all] in *.
      - apply clean_wrap. exact (K _ _ _ H _ C2).
      - exact (K _ _ _ H _ C2).
      - destruct H as [|t y y' H]; [exact C2|]. exact (K _ _ _ H _ C2). }
    apply ast_ind; intros; try (apply W; cbn [kids]; auto; fail).
    - intros inner t s' H0 z C. inversion H0 as [? ? ? ? H1]; subst. inversion H1; subst. exact (H _ _ _ ltac:(eassumption) _ C).
    - intros inner t s' H0 z C. inversion H0 as [? ? ? ? H1]; subst. inversion H1; subst. exact C.
    - intros inner t s' H0 z C. inversion H0 as [? ? ? ? H1]; subst. inversion H1; subst. exact (H _ _ _ ltac:(eassumption) _ C).
    - intros inner t s' H0 z C. inversion H0 as [? ? ? ? H1]; subst. inversion H1; subst. exact C.
    - intros inner t0 s' H1 z C. inversion H1 as [? ? ? ? H2]; subst. inversion H2 as [t1 t2 ? ? ? ? i' ? d' M1 M2]; subst. cbn [clean_local fold_local] in *.
      apply andb_true_iff in C. destruct C as [C0 C]. apply andb_true_iff in C. destruct C as [C1 C2]. rewrite C0. cbn [andb]. apply andb_true_iff. split.
      + destruct M1; [reflexivity|]. exact (H _ _ _ ltac:(eassumption) _ C1).
      + destruct M2; [reflexivity|]. exact (H0 _ _ _ ltac:(eassumption) _ C2).
    - intros inner t0 s' H1 z C. inversion H1 as [? ? ? ? H2]; subst. inversion H2 as [t1 t2 ? ? ? g' ? b' ? M1 M2]; subst. cbn [clean_arm fold_arm] in *.
      apply andb_true_iff in C. destruct C as [C0 C]. apply andb_true_iff in C. destruct C as [C1 C2]. rewrite C0. cbn [andb]. apply andb_true_iff. split.
      + destruct M1; [reflexivity|]. exact (H _ _ _ ltac:(eassumption) _ C1).
      + exact (H0 _ _ _ ltac:(eassumption) _ C2).
  Qed.
End Breaks.

Lemma loop_clean w l t b b' : w_foreign w = false -> forallb (clean_stmt (w_marker w) (w_exits w)) b = true -> loop_outcome w l t b b' ->
  seq2 (breaks_stmt (w_enum w) (w_mark w) l false) t b b'.
Proof.
  intros F C (b1 & B & D). apply block_clean in D; [subst; exact B|exact F|]. destruct (breaks_clean (w_enum w) (w_mark w) l (w_marker w)) as (_ & BS & _).
  clear D. induction B; [reflexivity|]. cbn in *. apply andb_true_iff in C. destruct C. apply andb_true_iff. split; [eapply BS; eassumption|auto].
Qed.

(** Only the name of its own marker counts for the outermost attribute. *)
Lemma outermost_mark own m x s : w_mark (outermost own m x) s <-> s = m.
Proof. unfold w_mark. cbn. split; [intros [H|[H _]]; congruence|auto]. Qed.
