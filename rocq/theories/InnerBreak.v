(** Proof: the value of a loop is in a variant of the enum. *)

Require Import Coq.Strings.String Coq.Lists.List Coq.Bool.Bool Coq.Arith.Arith Lia.
Require Import Verif.Syntax Verif.AstInd Verif.ExprModel Verif.Edits Verif.NoValueSpec Verif.Tails Verif.TwinEdits Verif.Loops Verif.LoopsRun Verif.Changes Verif.Branches Verif.BranchesRun Verif.ChangesInd Verif.ChangesTop Verif.CleanRun Verif.BranchesClean
  Verif.Excused Verif.Values Verif.Eval Verif.EvalRun Verif.NoValueEval Verif.ValuesRun Verif.Exits Verif.Annotated Verif.AnnotatedRun Verif.Inner Verif.InnerLoop.
Import ListNotations.
Open Scope string_scope.
Open Scope list_scope.

Section Listed.
  Variables (own : string) (l : option string).
  Notation kept := (kept own l).
  Notation kept_stmt := (kept_stmt own l).
  Notation kept_arm := (kept_arm own l).
  Notation kept_local := (kept_local own l).
  Notation own_wrap := (own_wrap own).

  (** ** The [break]s that are wrapped *)

  Lemma no_break_kept :
    (forall e, no_break e = true -> forall d n, kept d n e) /\ (forall s, no_break_stmt s = true -> forall d n, kept_stmt d n s)
    /\ (forall s, no_break_arm s = true -> forall d n, kept_arm d n s) /\ (forall s, no_break_local s = true -> forall d n, kept_local d n s).
  Proof.
    assert (L : forall (A : Type) (f : A -> bool) (g : A -> Prop) b, Forall (fun x => f x = true -> g x) b -> fold_list andb true f b = true -> fold_list and True g b).
    { intros A f g b H. induction H as [|x b X _ IH]; intros E; [exact I|]. change (f x && fold_list andb true f b = true) in E. apply andb_true_iff in E. destruct E.
      change (g x /\ fold_list and True g b). auto. }
    assert (LS : forall b d n, Forall (fun s => no_break_stmt s = true -> forall d n, kept_stmt d n s) b -> fold_list andb true no_break_stmt b = true ->
               fold_list and True (kept_stmt d n) b).
    { intros b d n H. apply L. revert H. apply Forall_impl. auto. }
    assert (LE : forall b d n, Forall (fun s => no_break s = true -> forall d n, kept d n s) b -> fold_list andb true no_break b = true ->
               fold_list and True (kept d n) b).
    { intros b d n H. apply L. revert H. apply Forall_impl. auto. }
    assert (LA : forall b d n, Forall (fun s => no_break_arm s = true -> forall d n, kept_arm d n s) b -> fold_list andb true no_break_arm b = true ->
               fold_list and True (kept_arm d n) b).
    { intros b d n H. apply L. revert H. apply Forall_impl. auto. }
    assert (LO : forall o d n, opt_all (fun s => no_break s = true -> forall d n, kept d n s) o -> fold_opt true no_break o = true ->
               fold_opt True (kept d n) o).
    { intros [x|] d n H; cbn in *; auto. }
    apply ast_ind; intros;
      match goal with
      | H : no_break _ = true |- _ => cbn [no_break fold_expr] in H
      | H : no_break_stmt _ = true |- _ => cbn [no_break_stmt fold_stmt] in H
      | H : no_break_arm _ = true |- _ => cbn [no_break_arm fold_arm] in H
      | H : no_break_local _ = true |- _ => cbn [no_break_local fold_local] in H
      end; try discriminate; repeat match goal with H : _ && _ = true |- _ => apply andb_prop in H; destruct H end;
      cbn [InnerLoop.kept InnerLoop.kept_stmt InnerLoop.kept_arm InnerLoop.kept_local fold_expr fold_stmt fold_arm fold_local]; repeat split; auto.
    - destruct k; auto; exact I.
    - destruct e; cbn in *; auto.
    - exact (H H0 d n).
    - exact (H H0 d n).
    - destruct e; [|exact I]. exact (H H0 d n).
    - match goal with A : no_break b = true -> _, B : _ = true |- _ => exact (A B d n) end.
  Qed.

  Definition fine_break (y : a_break) : Prop := b_leaves y = true -> own_wrap (b_value y).
  Lemma listed_kept :
    (forall e p, Forall fine_break (break_list l p e) -> macros_whole e = true -> kept (sp_direct p) (sp_named p) e)
    /\ (forall e p, Forall fine_break (break_list_stmt l p e) -> macros_whole_stmt e = true -> kept_stmt (sp_direct p) (sp_named p) e)
    /\ (forall e p, Forall fine_break (break_list_arm l p e) -> macros_whole_arm e = true -> kept_arm (sp_direct p) (sp_named p) e)
    /\ (forall e p, Forall fine_break (break_list_local l p e) -> macros_whole_local e = true -> kept_local (sp_direct p) (sp_named p) e).
  Proof.
    assert (L : forall (A : Type) (f : A -> list a_break) (h : A -> bool) (g : A -> Prop) b, Forall (fun x => Forall fine_break (f x) -> h x = true -> g x) b ->
              Forall fine_break (fold_list (@app _) [] f b) -> fold_list andb true h b = true -> fold_list and True g b).
    { intros A f h g b H. induction H as [|x b X _ IH]; intros F E; [exact I|]. change (h x && fold_list andb true h b = true) in E. apply andb_true_iff in E. destruct E.
      change (Forall fine_break (f x ++ fold_list (@app _) [] f b)) in F. apply Forall_app in F. destruct F.
      change (g x /\ fold_list and True g b). auto. }
    assert (LS : forall b p, Forall (fun s => forall p, Forall fine_break (break_list_stmt l p s) -> macros_whole_stmt s = true -> kept_stmt (sp_direct p) (sp_named p) s) b ->
               Forall fine_break (fold_list (@app _) [] (break_list_stmt l p) b) -> fold_list andb true macros_whole_stmt b = true -> fold_list and True (kept_stmt (sp_direct p) (sp_named p)) b).
    { intros b p H. apply L. revert H. apply Forall_impl. auto. }
    assert (LE : forall b p, Forall (fun s => forall p, Forall fine_break (break_list l p s) -> macros_whole s = true -> kept (sp_direct p) (sp_named p) s) b ->
               Forall fine_break (fold_list (@app _) [] (break_list l p) b) -> fold_list andb true macros_whole b = true -> fold_list and True (kept (sp_direct p) (sp_named p)) b).
    { intros b p H. apply L. revert H. apply Forall_impl. auto. }
    assert (LA : forall b p, Forall (fun s => forall p, Forall fine_break (break_list_arm l p s) -> macros_whole_arm s = true -> kept_arm (sp_direct p) (sp_named p) s) b ->
               Forall fine_break (fold_list (@app _) [] (break_list_arm l p) b) -> fold_list andb true macros_whole_arm b = true -> fold_list and True (kept_arm (sp_direct p) (sp_named p)) b).
    { intros b p H. apply L. revert H. apply Forall_impl. auto. }
    assert (LO : forall o p, opt_all (fun s => forall p, Forall fine_break (break_list l p s) -> macros_whole s = true -> kept (sp_direct p) (sp_named p) s) o ->
               Forall fine_break (fold_opt [] (break_list l p) o) -> fold_opt true macros_whole o = true -> fold_opt True (kept (sp_direct p) (sp_named p)) o).
    { intros [x|] p H; cbn in *; auto. }
    destruct no_break_kept as (NB & _).
    apply ast_ind; intros;
      match goal with
      | H : macros_whole _ = true |- _ => cbn [macros_whole fold_expr] in H
      | H : macros_whole_stmt _ = true |- _ => cbn [macros_whole_stmt fold_stmt] in H
      | H : macros_whole_arm _ = true |- _ => cbn [macros_whole_arm fold_arm] in H
      | H : macros_whole_local _ = true |- _ => cbn [macros_whole_local fold_local] in H
      end; repeat match goal with H : _ && _ = true |- _ => apply andb_prop in H; destruct H end;
      match goal with H : Forall fine_break _ |- _ =>
        cbn [break_list break_list_stmt break_list_arm break_list_local fold_expr fold_stmt fold_arm fold_local e_attrs] in H end;
      repeat match goal with H : Forall fine_break (_ ++ _) |- _ => apply Forall_app in H; destruct H end;
      cbn [InnerLoop.kept InnerLoop.kept_stmt InnerLoop.kept_arm InnerLoop.kept_local fold_expr fold_stmt fold_arm fold_local].
    - apply (LS _ _ H H0 H1).
    - destruct k; try exact I; apply (LS _ _ H H0 H1).
    - split; [apply (H _ H1 H2)|apply (LA _ _ H0 H4 H3)].
    - split; [apply (H _ H2 H3)|split; [apply (LS _ _ H0 H6 H4)|apply (LO _ _ H1 H7 H5)]].
    - apply (H _ H0 H1).
    - apply (LS _ _ H H0 H1).
    - split; [apply (H _ H1 H2)|apply (LS _ _ H0 H4 H3)].
    - split; [apply (H _ H1 H2)|apply (LS _ _ H0 H4 H3)].
    - inversion H0 as [|? ? F1 F2]; subst. split; [exact F1|apply (LO _ _ H F2 H1)].
    - exact I.
    - apply (LO _ _ H H0 H1).
    - apply (H _ H0 H1).
    - exact I.
    - destruct e as [x|]; [|exact I]. apply NB. assumption.
    - split; [apply (H _ H1 H2)|apply (LE _ _ H0 H4 H3)].
    - apply (H _ H0 H1).
    - split; [apply (H _ H1 H2)|apply (LE _ _ H0 H4 H3)].
    - exact I.
    - apply (LE _ _ H H0 H1).
    - exact I.
    - apply (H _ H0 H1).
    - exact I.
    - apply (H _ H0 H1).
    - destruct e as [x|]; [|exact I]. apply NB. assumption.
    - split; [apply (LO _ _ H H1 H2)|apply (LO _ _ H0 H4 H3)].
    - split; [apply (LO _ _ H H1 H2)|apply (H0 _ H4 H3)].
  Qed.
End Listed.

(** ** Wrapping the [break]s puts none into macros *)

Section Whole.
  Variables (own : string) (mk : string -> Prop) (l : option string).
  Definition stays {A} (f : A -> bool) (R : bool -> list string -> A -> A -> Prop) (y : A) : Prop :=
    forall inner t y', R inner t y y' -> f y = true -> f y' = true.
  Let S (t : list string) (a b : bool) : Prop := a = true -> b = true.
  Let kk := kids (stays macros_whole (breaks own mk l)) (stays macros_whole_stmt (breaks_stmt own mk l)) (stays macros_whole_arm (breaks_arm own mk l)).

  Lemma whole_wrap v e : macros_whole (wrap own v e) = macros_whole e.
  Proof. cbn. apply andb_true_r. Qed.
  Lemma whole_parts e : kk e -> forall inner t e',
    parts (breaks own mk l inner) (breaks_stmt own mk l inner) (breaks_arm own mk l inner) t e e' -> macros_whole e = true -> macros_whole e' = true.
  Proof.
    intros K inner t e' PT H.
    assert (SP : forall t1 t2 a a' b b', S t1 a a' -> S t2 b b' -> S (t1 ++ t2) (a && b) (a' && b')).
    { unfold S. intros t1 t2 a a' b b' H1 H2 H3. apply andb_true_iff in H3. apply andb_true_iff. tauto. }
    assert (S0 : S [] true true) by (unfold S; auto).
    assert (F : fold_expr andb true macros_whole macros_whole_stmt macros_whole_arm e = true ->
                fold_expr andb true macros_whole macros_whole_stmt macros_whole_arm e' = true).
    { apply (parts_fold andb true andb true S S0 SP _ _ _ _ _ _ (breaks own mk l inner) (breaks_stmt own mk l inner) (breaks_arm own mk l inner) t); [|exact PT].
      revert K. apply kids_map; unfold stays, S; intros; eauto. }
    destruct PT; try exact (F H); try exact H.
    destruct k; try exact (F H); exact H.
  Qed.
  Lemma whole_all :
    (forall e, stays macros_whole (breaks own mk l) e) /\ (forall s, stays macros_whole_stmt (breaks_stmt own mk l) s)
    /\ (forall y, stays macros_whole_arm (breaks_arm own mk l) y) /\ (forall y, stays macros_whole_local (breaks_local own mk l) y).
  Proof.
    assert (W : forall e, kk e -> stays macros_whole (breaks own mk l) e).
    { intros e K inner t e' H.
      destruct H as [inner e N|inner a ps e|inner a b|inner e L IL|inner t e e' N L IL PT|inner v a l' N LV|inner v t a l' e e' N LV NM H
                    |inner t a l' e e' N LV NM H|inner t a l' o o' N NL H|inner t e e' N PL PT]; auto; try (eapply whole_parts; eassumption); intros C.
      - change (macros_whole (wrap own v e') = true). rewrite whole_wrap. exact (K _ _ _ H C).
      - exact (K _ _ _ H C).
      - destruct H as [|t y y' H]; [exact C|]. exact (K _ _ _ H C). }
    apply ast_ind; intros; try (apply W; unfold kk; cbn [kids]; auto; fail).
    - intros inner t s' H0 C. inversion H0 as [? ? ? ? H1]; subst. inversion H1; subst. exact (H _ _ _ ltac:(eassumption) C).
    - intros inner t s' H0 C. inversion H0 as [? ? ? ? H1]; subst. inversion H1; subst. exact C.
    - intros inner t s' H0 C. inversion H0 as [? ? ? ? H1]; subst. inversion H1; subst. exact (H _ _ _ ltac:(eassumption) C).
    - intros inner t s' H0 C. inversion H0 as [? ? ? ? H1]; subst. inversion H1; subst. exact C.
    - intros inner t0 s' H1 C. inversion H1 as [? ? ? ? H2]; subst. inversion H2 as [t1 t2 ? ? ? ? i' ? d' M1 M2]; subst. cbn [macros_whole_local fold_local] in *.
      apply andb_true_iff in C. destruct C as [C1 C2]. apply andb_true_iff. split.
      + destruct M1; [reflexivity|]. exact (H _ _ _ ltac:(eassumption) C1).
      + destruct M2; [reflexivity|]. exact (H0 _ _ _ ltac:(eassumption) C2).
    - intros inner t0 s' H1 C. inversion H1 as [? ? ? ? H2]; subst. inversion H2 as [t1 t2 ? ? ? g' ? b' ? M1 M2]; subst. cbn [macros_whole_arm fold_arm] in *.
      apply andb_true_iff in C. destruct C as [C1 C2]. apply andb_true_iff. split.
      + destruct M1; [reflexivity|]. exact (H _ _ _ ltac:(eassumption) C1).
      + exact (H0 _ _ _ ltac:(eassumption) C2).
  Qed.
End Whole.

(** Once they are wrapped, every [break] that leaves the loop has a value in a variant. *)
Lemma loop_kept own m mp l t b b' : (forall s, mp s <-> s = m) -> breaks_taken m l b = true -> seq2 (breaks_stmt own mp l false) t b b' ->
  fold_list and True (kept_stmt own l true true) b'.
Proof.
  intros MP T B. unfold breaks_taken in T. apply andb_true_iff in T. destruct T as [T TB]. apply andb_true_iff in T. destruct T as [SC MW].
  assert (MW' : forallb macros_whole_stmt b' = true).
  { clear -MW B. destruct (whole_all own mp l) as (_ & BS & _). induction B; [reflexivity|]. cbn in *. apply andb_true_iff in MW. destruct MW.
    apply andb_true_iff. split; [eapply BS; eassumption|auto]. }
  pose proof (breaks_found own mp l t b b' SC B) as F. clear B MW SC.
  assert (G : Forall (fine_break own) (loop_breaks l b')).
  { rewrite forallb_forall in TB. induction F as [|t1 t2 y y' r r' D _ IH]; [constructor|]. constructor; [|apply IH; intros; apply TB; right; assumption].
    specialize (TB y (or_introl eq_refl)). intros LV. inversion D as [v n a l' TK|v n a l' e e' TK SR|lv n a l' NT|lv n a l' e e' NT SR]; subst; cbn in *.
    - exists v. eexists. reflexivity.
    - exists v. eexists. reflexivity.
    - subst lv. cbn in TB. rewrite andb_true_r in TB. apply negb_true_iff in TB. destruct NT. split; [reflexivity|split; [exact TB|]]. intros (e & E & _). discriminate.
    - subst lv. cbn in TB. apply andb_true_iff in TB. destruct TB as [NV MK]. apply negb_true_iff in NV. destruct NT. split; [reflexivity|split; [exact NV|]].
      intros (e0 & E & a0 & p & s & o & -> & MS & ID). injection E as ->. apply MP in MS. subst s. rewrite ID in MK. discriminate. }
  clear -G MW'. unfold loop_breaks in G. induction b' as [|s r IH]; [exact I|]. change (Forall (fine_break own) (break_list_stmt l (Spot true true false) s ++ fold_list (@app _) [] (break_list_stmt l (Spot true true false)) r)) in G.
  apply Forall_app in G. destruct G as [G1 G2]. cbn in MW'. apply andb_true_iff in MW'. destruct MW' as [M1 M2].
  change (kept_stmt own l true true s /\ fold_list and True (kept_stmt own l true true) r). split; [|auto].
  exact (proj1 (proj2 (listed_kept own l)) s (Spot true true false) G1 M1).
Qed.

(** ** The value of a loop *)

Section Value.
  Context {W : Type} (O : ops W) (mk : string -> bool) (k : nat) (self : expr -> env -> W -> result W).
  Variables (own : string) (l : option string).
  Hypothesis GEN : gen_name own = true.

  Notation ev := (ev W O mk k self).
  Notation ev_stmt := (ev_stmt W O mk k self).
  Notation ev_local := (ev_local W O mk k self).
  Notation ev_arm := (ev_arm W O mk k self).
  Notation ev_stmts := (ev_stmts W ev_stmt).
  Notation ev_arms := (ev_arms W ev_arm).
  Notation ours := (ours l).
  Notation kept := (kept own l).
  Notation kept_stmt := (kept_stmt own l).
  Notation kept_arm := (kept_arm own l).
  Notation kept_local := (kept_local own l).

  (** The value of a [break] that leaves the loop is in a variant. *)
  Definition bfine (d n : bool) (o : out) : Prop :=
    match o with OBreak l0 y => ours d n l0 = true -> exists v z, y = VWrap own v z | _ => True end.
  Definition bsafe d n (r : result W) : Prop := bfine d n (fst r).
  Definition bsafe_stmt d n (r : sres W) : Prop := match r with SOut _ o _ => bfine d n o | _ => True end.
  Definition bsafe_arm d n (r : ares W) : Prop := match r with ATake _ r => bsafe d n r | _ => True end.

  Lemma bsafe_bnd d n r f : bsafe d n r -> (forall x w, bsafe d n (f x w)) -> bsafe d n (bnd _ r f).
  Proof. destruct r as [[] w]; cbn; auto. Qed.
  Lemma bsafe_iterate d n j l' f w : (forall w1, bsafe false (n && negb (same_label l l')) (f w1)) -> bsafe d n (iterate _ j l' f w).
  Proof.
    intros H. revert w. induction j as [|j IH]; intros w; cbn [iterate]; [exact I|].
    pose proof (H w) as S. destruct (f w) as [[] u]; try exact I; try apply IH; destruct (catches l' l0) eqn:C; try exact I; try apply IH.
    destruct l0 as [y|]; [|destruct l'; discriminate C]. cbn in S. intros OU. apply S. clear S IH H. cbn in OU. apply andb_true_iff in OU. destruct OU as [-> E].
    rewrite E. destruct l as [z|]; [|discriminate]. cbn in E. apply String.eqb_eq in E. subst z. destruct l' as [z|]; [|reflexivity]. cbn in *.
    destruct (String.eqb_spec y z); [|reflexivity]. discriminate C.
  Qed.
  Lemma bsafe_labelled d n l' r : bsafe d (n && negb (same_label l l')) r -> bsafe d n (labelled _ l' r).
  Proof.
    destruct l' as [y|].
    - destruct r as [[] w]; cbn; auto. destruct l0 as [z|]; [|auto]. destruct (String.eqb_spec z y) as [E|NE]; [exact (fun _ => I)|].
      cbn. intros S OU. apply S. apply andb_true_iff in OU. destruct OU as [-> E]. rewrite E. destruct l as [q|]; [|discriminate]. cbn in *. apply String.eqb_eq in E. subst q.
      destruct (String.eqb_spec z y); [contradiction|reflexivity].
    - cbn [labelled]. replace (same_label l None) with false by (destruct l; reflexivity). rewrite andb_true_r. auto.
  Qed.
  Lemma bsafe_apply d n f xs w : bsafe d n (apply_fn _ O self f xs w).
  Proof.
    unfold apply_fn. destruct (peel f); try exact I.
    - destruct xs as [|x [|]]; exact I.
    - destruct xs as [|x [|]]; exact I.
    - destruct (pmatches _ (pmatch _ O) ps xs w) as [[] u]; try exact I.
      destruct (self body (bs ++ env) u) as [[] u']; exact I.
  Qed.
  Lemma bsafe_act d n a : forall w, bsafe d n (act_in _ O self w a).
  Proof.
    induction a as [x w|w| |f xs w g IH]; intros w0; cbn; try exact I.
    pose proof (bsafe_apply d n f xs w) as S. destruct (apply_fn _ O self f xs w) as [[] u]; try exact S. apply IH.
  Qed.
  Lemma bsafe_list d n mode more es f :
    Forall (fun e => forall pl en w, bsafe d n (ev pl e en w)) es -> (forall xs w, bsafe d n (f xs w)) ->
    forall got en w, bsafe d n (ev_list _ ev mode more es got en w f).
  Proof.
    intros H F. induction H as [|e r E _ IH]; intros got en w; cbn [ev_list]; [apply F|].
    destruct (more got w); [|apply F]. apply bsafe_bnd; [apply E|]. intros. apply IH.
  Qed.
  Lemma bsafe_stmts d n b : Forall (fun s => forall pl en w, bsafe_stmt d n (ev_stmt pl s en w)) b -> forall pl en w, bsafe d n (ev_stmts pl b en w).
  Proof.
    intros H. induction H as [|s r S _ IH]; intros pl en w; [exact I|].
    rewrite (ev_stmts_cons mk O k self). pose proof (S (pl && match r with [] => true | _ => false end) en w) as X.
    destruct (ev_stmt (pl && match r with [] => true | _ => false end) s en w); [|exact X].
    destruct r; [exact I|]. apply IH.
  Qed.
  Lemma bsafe_arms d n x arms : Forall (fun s => forall en w, bsafe_arm d n (ev_arm x s en w)) arms -> forall en w, bsafe d n (ev_arms x arms en w).
  Proof.
    intros H. induction H as [|s r S _ IH]; intros en w; [exact I|].
    rewrite (ev_arms_cons mk O k self). pose proof (S en w) as X. destruct (ev_arm x s en w); [exact X|apply IH].
  Qed.

  Let Be (e : expr) : Prop := forall d n, kept d n e -> forall p en w, bsafe d n (ev p e en w).
  Let Bs (s : stmt) : Prop := forall d n, kept_stmt d n s -> forall p en w, bsafe_stmt d n (ev_stmt p s en w).
  Let Ba (s : arm) : Prop := forall d n, kept_arm d n s -> forall y en w, bsafe_arm d n (ev_arm y s en w).
  Let Bl (s : local) : Prop := forall d n, kept_local d n s -> forall en w, bsafe_stmt d n (ev_local s en w).

  Lemma bsafe_all : (forall e, Be e) /\ (forall s, Bs s) /\ (forall s, Ba s) /\ (forall s, Bl s).
  Proof.
    assert (BL : forall b d n, fold_list and True (kept_stmt d n) b -> Forall Bs b -> forall p en w, bsafe d n (ev_stmts p b en w)).
    { intros b d n G H. apply bsafe_stmts. apply all_list in G. clear -G H. induction H; inversion G; subst; constructor; auto. }
    assert (LI : forall es d n, fold_list and True (kept d n) es -> Forall Be es -> forall mode more got en w f,
               (forall xs w, bsafe d n (f xs w)) -> bsafe d n (ev_list _ ev mode more es got en w f)).
    { intros es d n G H mode more got en w f F. apply bsafe_list; [|exact F]. apply all_list in G. clear -G H. induction H; inversion G; subst; constructor; auto. }
    assert (OP : forall o d n, fold_opt True (kept d n) o -> opt_all Be o -> match o with Some e => forall p en w, bsafe d n (ev p e en w) | None => True end).
    { intros [e|] d n G H; [|exact I]. exact (H d n G). }
    apply (ast_ind Be Bs Ba Bl); intros;
      match goal with |- Be _ => intros d n G pp en w | |- Bs _ => intros d n G pp en w | |- Ba _ => intros d n G y en w | |- Bl _ => intros dd n G en w end.
    - rewrite (ev_block mk O k self). apply bsafe_labelled. apply BL; assumption.
    - destruct k0; try exact I; apply BL; assumption.
    - destruct G as [G1 G2]. rewrite (ev_match mk O k self). apply bsafe_bnd; [apply H; exact G1|]. intros. apply bsafe_arms.
      apply all_list in G2. clear -G2 H0. induction H0; inversion G2; subst; constructor; auto.
    - destruct G as (G1 & G2 & G3). rewrite (ev_if mk O k self). apply bsafe_bnd; [apply H; exact G1|]. intros x w1. destruct (cond x); [apply BL; assumption| |exact I].
      pose proof (OP _ _ _ G3 H1) as X. destruct els; [apply X|exact I].
    - cbn [Eval.ev]. apply bsafe_bnd; [apply H; exact G|]. intros x w1. destruct (pmatch _ O p x w1) as [[] w2]; exact I.
    - rewrite (ev_loop mk O k self). apply bsafe_iterate. intros. apply BL; assumption.
    - destruct G as [G1 G2]. rewrite (ev_while mk O k self). apply bsafe_iterate. intros. apply bsafe_bnd; [apply H; exact G1|]. intros x w2.
      destruct (cond x); [apply BL; assumption|intros; cbn; try discriminate; exact I|exact I].
    - destruct G as [G1 G2]. rewrite (ev_for mk O k self). apply bsafe_bnd; [apply H; exact G1|]. intros. apply bsafe_bnd; [apply bsafe_act|]. intros.
      apply bsafe_iterate. intros. apply bsafe_bnd; [apply bsafe_act|]. intros y w4. destruct y; try exact I; try (cbn; discriminate).
      destruct (pmatch _ O p y w4) as [[] w5]; try exact I. apply BL; assumption.
    - destruct G as [G1 G2]. cbn [Eval.ev]. pose proof (OP _ _ _ G2 H) as X. destruct e as [e|].
      + pose proof (X false en w) as Y. revert Y. destruct (ours d n l0) eqn:OU.
        * destruct (G1 eq_refl) as (v & z & E). injection E as ->. rewrite (wrap_eval O mk k self own GEN). destruct (ev false z en w) as [[] u]; cbn; auto.
          intros _ _. exists v. eexists. reflexivity.
        * destruct (ev false e en w) as [[] u]; cbn; auto. rewrite OU. discriminate.
      + cbn. intros OU. destruct (G1 OU) as (v & z & E). discriminate.
    - exact I.
    - cbn [Eval.ev]. pose proof (OP _ _ _ G H) as X. destruct e; [|exact I]. apply bsafe_bnd; [apply X|]. exact (fun _ _ => I).
    - cbn [Eval.ev]. apply bsafe_bnd; [apply H; exact G|]. intros x u. repeat match goal with |- context [match ?z with _ => _ end] => destruct z end; exact I.
    - exact I.
    - cbn [Eval.ev]. destruct (is_marker mk p); [destruct e; [apply H; exact G|exact I]|]. destruct (panic_of p); [exact I|apply bsafe_act].
    - destruct G as [G1 G2]. cbn [Eval.ev]. apply bsafe_bnd; [apply H; exact G1|]. intros. apply LI; try assumption. intros. apply bsafe_act.
    - cbn [Eval.ev]. apply H; exact G.
    - destruct G as [G1 G2]. rewrite (ev_call mk O k self). apply bsafe_bnd; [apply H; exact G1|]. intros. apply LI; try assumption. intros.
      destruct (is_fn x); [apply bsafe_apply|apply bsafe_act].
    - cbn [Eval.ev]. destruct (con_of p); [exact I|]. destruct (none_of p); [exact I|]. destruct (variant_of p) as [[]|]; [exact I|].
      destruct (match var_of p with Some x => lookup x en | None => None end) as [[[] ?]|]; exact I.
    - cbn [Eval.ev]. destruct es; [destruct (k0 =? "Tuple"); [exact I|apply bsafe_act]|].
      apply LI; try assumption. intros. apply bsafe_act.
    - cbn [Eval.ev]. apply bsafe_act.
    - exact (H _ _ G en w).
    - exact I.
    - rewrite (ev_sexpr mk O k self). pose proof (H _ _ G (pp && negb semi) en w) as S. destruct (ev (pp && negb semi) e en w) as [[] u]; cbn; auto.
    - cbn [Eval.ev_stmt]. destruct (is_marker mk p).
      + destruct e; [|exact I]. cbn in H. pose proof (H _ _ G false en w) as S.
        change (bsafe_stmt d n (as_stmt W [] (fun x => if semi then VUnit else x) (ev false e en w))).
        destruct (ev false e en w) as [[] u]; cbn; auto.
      + destruct (panic_of p); [exact I|]. pose proof (bsafe_act d n (o_macro W O p e en w) w) as S.
        destruct (act_in _ O self w (o_macro W O p e en w)) as [[] u]; cbn; auto.
    - destruct G as [G1 G2]. pose proof (OP _ _ _ G1 H) as X1. pose proof (OP _ _ _ G2 H0) as X2. destruct i as [x|].
      + rewrite (ev_local_some mk O k self). pose proof (X1 false en w) as S. destruct (ev false x en w) as [[] u]; try exact S.
        destruct (pmatch _ O p x0 u) as [[] v]; try exact I.
        destruct d; [|exact I]. pose proof (X2 false en v) as S2. destruct (ev false e en v) as [[] z]; try exact I; exact S2.
      + cbn [Eval.ev_local]. destruct (o_decl W O w). destruct p; exact I.
    - destruct G as [G1 G2]. pose proof (OP _ _ _ G1 H) as X1. pose proof (H0 _ _ G2) as X2.
      rewrite (ev_arm_eq mk O k self). destruct (pmatch _ O p y w) as [[] u]; try exact I.
      destruct g as [z|]; [|apply X2]. pose proof (X1 false (bs ++ en) u) as S.
      destruct (ev false z (bs ++ en) u) as [[] v]; try exact S. destruct (cond x); try exact I. apply X2.
  Qed.

  Lemma iterate_value f y u : (forall w, bsafe true true (f w)) -> forall j w, iterate _ j l f w = (ONorm y, u) -> exists v z, y = VWrap own v z.
  Proof.
    intros H j. induction j as [|j IH]; intros w; cbn [iterate]; [discriminate|].
    pose proof (H w) as S. destruct (f w) as [[] u1]; try discriminate; try apply IH; destruct (catches l l0) eqn:C; try discriminate; try apply IH.
    intros E. injection E as <- _. apply S. destruct l0 as [z|]; [|reflexivity]. destruct l as [q|]; [|discriminate C]. cbn in *. rewrite String.eqb_sym. exact C.
  Qed.
  (** A loop gives the value of a [break] that leaves it. *)
  Lemma loop_value a b en w y u : fold_list and True (kept_stmt true true) b -> ev false (ELoop a l b) en w = (ONorm y, u) -> exists v z, y = VWrap own v z.
  Proof.
    intros G. rewrite (ev_loop mk O k self). destruct bsafe_all as (_ & BS & _).
    assert (H : forall w1, bsafe true true (ev_stmts false b en w1)).
    { intros. apply bsafe_stmts. apply all_list in G. revert G. apply Forall_impl. intros s S. exact (BS s _ _ S). }
    apply iterate_value. exact H.
  Qed.
End Value.
