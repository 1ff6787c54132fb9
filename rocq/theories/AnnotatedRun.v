(** Executions of code with markers, [#[nested]] and [#[never]]. *)

Require Import Coq.Strings.String Coq.Lists.List Coq.Bool.Bool Coq.Arith.Arith Lia.
Require Import Verif.Syntax Verif.AstInd Verif.ExprModel Verif.Edits Verif.NoValueSpec Verif.Tails Verif.TwinEdits Verif.Loops Verif.LoopsRun Verif.Changes Verif.Branches Verif.BranchesRun Verif.ChangesInd Verif.ChangesTop Verif.CleanRun Verif.BranchesClean
  Verif.Excused Verif.Values Verif.Eval Verif.EvalRun Verif.NoValueEval Verif.ValuesRun Verif.Annotated.
Import ListNotations.
Open Scope string_scope.
Open Scope list_scope.

Lemma named_app name a b : attr_named name (a ++ b) = attr_named name a || attr_named name b.
Proof. apply existsb_app. Qed.
Lemma named_one name p r : attr_named name (MPath p :: r) = is_ident p name || attr_named name r.
Proof. reflexivity. Qed.
Lemma ident_one p s t : is_ident p s = true -> is_ident p t = true -> s = t.
Proof.
  destruct p as [[] [|[i []] [|]]]; cbn; try discriminate. intros A B. apply String.eqb_eq in A. apply String.eqb_eq in B. congruence.
Qed.
Lemma only_named name a t : only name a -> attr_named t a = true -> In t ["auto_enum"; "nested"; "never"; "rec"] -> t = name.
Proof.
  intros (l & r & p & -> & I & N) H T. destruct (no_help_named _ N) as (A & B & C & D).
  rewrite named_app, named_one in H. rewrite named_app in *. apply orb_false_iff in A, B, C, D.
  destruct (is_ident p t) eqn:E; [symmetry; eapply ident_one; eassumption|].
  destruct T as [<-|[<-|[<-|[<-|[]]]]]; cbn in H; apply orb_true_iff in H; destruct H; destruct A, B, C, D; congruence.
Qed.
Lemma removes_one name l r p l2 z r2 : l ++ MPath p :: r = l2 ++ z :: r2 -> attr_named name l = false -> attr_named name l2 = false ->
  is_ident p name = true -> is_ident (attr_path z) name = true -> l2 = l /\ r2 = r.
Proof.
  intros E NL N2 I I2. revert l2 E N2. induction l as [|y l IH]; intros [|y2 l2] E N2; cbn [app] in E; injection E as E1 E2.
  - auto.
  - subst y2. unfold attr_named in N2. cbn [existsb attr_path] in N2. rewrite I in N2. discriminate.
  - subst y. unfold attr_named in NL. cbn [existsb] in NL. rewrite I2 in NL. discriminate.
  - subst y2. unfold attr_named in NL, N2. cbn [existsb] in NL, N2. apply orb_false_iff in NL, N2. destruct NL, N2.
    destruct (IH ltac:(assumption) _ E2 ltac:(assumption)). subst. auto.
Qed.
Lemma only_left name l r : In name ["auto_enum"; "nested"; "never"; "rec"] -> no_help (l ++ r) = true -> attr_named name l = false.
Proof.
  intros T N. destruct (no_help_named _ N) as (A & B & C & D). rewrite named_app in *. apply orb_false_iff in A, B, C, D.
  destruct T as [<-|[<-|[<-|[<-|[]]]]]; tauto.
Qed.
Lemma only_removes name a y a' : In name ["auto_enum"; "nested"; "never"; "rec"] -> only name a -> removes name a y a' -> no_help a' = true.
Proof.
  intros T (l & r & p & -> & I & N) (l2 & r2 & E & -> & I2 & N2).
  destruct (removes_one name _ _ _ _ _ _ E (only_left _ _ _ T N) N2 I I2) as [-> ->]. exact N.
Qed.
Lemma only_plain name a : only name a -> has_plain name a.
Proof. intros (l & r & p & -> & I & _). exists p. split; [apply in_or_app; right; left; reflexivity|exact I]. Qed.
Lemma annotated_only name e0 e : annotated name e0 e -> only name (e_attrs e).
Proof. intros (l & r & p & E & I & N & _). exists l, r, p. auto. Qed.
Lemma annotated_removes name e0 e y a' : In name ["auto_enum"; "nested"; "never"; "rec"] -> annotated name e0 e -> removes name (e_attrs e) y a' -> set_attrs e a' = e0.
Proof.
  intros T (l & r & p & E & I & N & ->) (l2 & r2 & E2 & -> & I2 & N2). f_equal. rewrite E in E2.
  destruct (removes_one name _ _ _ _ _ _ E2 (only_left _ _ _ T N) N2 I I2) as [-> ->]. reflexivity.
Qed.
Lemma annotated_help name e0 e : annotated name e0 e -> e_attrs e0 = [] \/ no_help (e_attrs e0) = true.
Proof. intros (l & r & p & E & I & N & ->). right. destruct e; cbn in *; auto. Qed.

Section Run.
  Context {W : Type} (O : ops W) (mk : string -> bool) (k : nat) (self : expr -> env -> W -> result W).
  Variable own : string.
  Hypothesis GEN : gen_name own = true.
  Variables (m : string) (x : Changes.takes).
  Hypothesis MK : forall s, mk s = true <-> s = m.
  Hypothesis XQ : x <> TakesQuestions.

  Notation ev := (ev W O mk k self).
  Notation ev_stmt := (ev_stmt W O mk k self).
  Notation ev_arm := (ev_arm W O mk k self).
  Notation ev_stmts := (ev_stmts W ev_stmt).
  Notation ev_arms := (ev_arms W ev_arm).
  Notation rt := (Plain (with_returns x)).
  Notation lifts := (lifts own).
  Notation SE := (SE O mk k self own).
  Notation SS := (SS O mk k self own).
  Notation SA := (SA O mk k self own).
  Notation SO := (SO O mk k self own).
  Let MK1 s : mk s = true -> s = m := proj1 (MK s).

  (** Code that has none of the exits that are taken. *)
  Lemma clean_same :
    (forall e, clean m x e = true -> tidy m x e = true -> SE false none rt e e)
    /\ (forall s, clean_stmt m x s = true -> tidy_stmt m x s = true -> SS false none rt s s)
    /\ (forall s, clean_arm m x s = true -> tidy_arm m x s = true -> SA false none rt s s)
    /\ (forall s, clean_local m x s = true -> tidy_local m x s = true -> SL O mk k self own none rt s s).
  Proof.
    set (Pe e := clean m x e = true -> tidy m x e = true -> SE false none rt e e).
    set (Ps s := clean_stmt m x s = true -> tidy_stmt m x s = true -> SS false none rt s s).
    set (Pa s := clean_arm m x s = true -> tidy_arm m x s = true -> SA false none rt s s).
    set (Pl s := clean_local m x s = true -> tidy_local m x s = true -> SL O mk k self own none rt s s).
    assert (K : forall e, kids Pe Ps Pa e -> Pe e).
    { intros e K C T. destruct (apart e) eqn:A; [apply apart_same; exact A|].
      destruct (tidy_kids _ _ _ T A) as (T1 & T2). apply clean_split in C. destruct C as [C1 C2].
      assert (EX : exits_in e x = x).
      { destruct e; try discriminate; try reflexivity. destruct k0; try discriminate; try reflexivity. destruct x; try reflexivity. congruence. }
      rewrite EX in C2. apply kids_true in C2.
      pose proof (kids_and _ _ _ _ _ _ _ K (kids_and _ _ _ _ _ _ _ C2 T2)) as K1.
      assert (K2 : kids (fun e => SE false none rt e e) (fun e => SS false none rt e e) (fun e => SA false none rt e e) e).
      { revert K1. apply kids_map; intros y (H1 & H2 & H3); exact (H1 H2 H3). }
      destruct (is_loop e) eqn:L.
      - eapply (loop_lifts _ _ _ _ _ none none _ []); [apply kids_parts; exact K2|exact L| |].
        + destruct e; try exact I; (split; reflexivity).
        + destruct e; try exact I. apply (proj1 K2).
      - eapply (parts_lifts _ _ _ _ _ _ _ []); [apply kids_parts; exact K2|]. destruct e; try discriminate; try exact I; try reflexivity.
        + destruct lbl; [reflexivity|exact I].
        + destruct k0; try exact I; discriminate.
        + cbn [head_ok]. f_equal. unfold head_clean in C1. apply andb_true_iff in C1. destruct C1 as [_ C1]. unfold with_returns. destruct x; congruence.
        + cbn [head_ok]. f_equal. unfold with_returns. destruct x; congruence.
        + destruct m0. eapply unmarked; [exact MK1|exact T1]. }
    assert (OP : forall o, opt_all Pe o -> fold_opt true (clean m x) o = true -> fold_opt true (tidy m x) o = true -> SO none rt o o).
    { intros [e|]; cbn; [|auto]. intros H T B. exact (H T B). }
    apply (ast_ind Pe Ps Pa Pl); intros; try (apply K; cbn [kids]; auto; fail).
    - intros T B pl en w. exact (H T B en w).
    - intros T B pl en w. constructor. reflexivity.
    - intros T B. apply sexpr_lifts. exact (H T B).
    - intros T B. eapply smacro_same; [exact MK1|]. cbn [tidy_stmt] in B. apply negb_true_iff in B. exact B.
    - intros T B. cbn in T. apply andb_true_iff in T. destruct T as [_ T]. apply andb_true_iff in T. destruct T as [T1 T2]. cbn in B. apply andb_true_iff in B. destruct B as [_ B]. apply andb_true_iff in B. destruct B as [B1 B2].
      apply local_lifts; eapply OP; eassumption.
    - intros T B. cbn in T. apply andb_true_iff in T. destruct T as [_ T]. apply andb_true_iff in T. destruct T as [T1 T2]. cbn in B. apply andb_true_iff in B. destruct B as [_ B]. apply andb_true_iff in B. destruct B as [B1 B2].
      apply arm_lifts; [eapply OP; eassumption|]. intros en w. exact (H0 T2 B2 false en w).
  Qed.

  (** ** Pieces *)

  Variable halts : expr -> Prop.
  Hypothesis HALT : forall e, halts e -> forall en w y u, ev false e en w <> (ONorm y, u).
  Let marker (s : string) : Prop := s = m.

  Definition fits (w : who) : Prop := fit own m x w /\ w_branches w = true.
  Definition given (e e' : expr) : Prop := forall en w, lifts true none rt (ev false e en w) (ev false e' en w).
  Definition given_block (b b' : list stmt) : Prop := forall en w, lifts true none rt (ev_stmts false b en w) (ev_stmts false b' en w).

  Lemma fits_mark w : fits w -> forall s, w_mark w s <-> s = m.
  Proof. intros ((_ & M & R & _) & _) s. unfold w_mark. rewrite M, R. split; [intros [H|[H _]]; [exact H|discriminate]|auto]. Qed.

  Lemma done_same w semi e e' : fits w -> tidy m x e = true -> done w semi e e' -> SE false none rt e e'.
  Proof. intros F T D. exact (proj1 (done_lifts O mk k self own GEN m x MK1 XQ) w semi e e' D (proj1 F) T). Qed.
  Lemma done_opt w t g g' : fits w -> fold_opt true (tidy m x) g = true -> maybe2 (fun _ => done w false) t g g' -> SO none rt g g'.
  Proof. intros F T D. destruct D; cbn in *; [exact I|]. eapply done_same; eassumption. Qed.
  Lemma done_stmts w t b b' : fits w -> forallb (tidy_stmt m x) b = true -> seq2 (fun _ => done_stmt w) t b b' -> Forall2 (SS false none rt) b b'.
  Proof.
    intros F T D. induction D as [|t1 t2 s s' b b' H _ IH]; constructor; cbn in T; apply andb_true_iff in T; destruct T as [T1 T2]; [|auto].
    exact (proj2 (done_lifts O mk k self own GEN m x MK1 XQ) w s s' H (proj1 F) T1).
  Qed.
  Lemma last_given r r' e e' : Forall2 (SS false none rt) r r' -> given e e' -> given_block (r ++ [SExpr e false]) (r' ++ [SExpr e' false]).
  Proof.
    intros H L en0 w0. apply stmts_last; [exact H|]. intros en w. rewrite !(ev_sexpr mk O k self). cbn [andb negb].
    destruct (L en w); cbn; constructor; try discriminate; try assumption; constructor; assumption.
  Qed.
  Lemma given_any e e' : SE false none rt e e' -> (forall en w y u, ev false e en w <> (ONorm y, u)) -> given e e'.
  Proof. intros S N en w. eapply lifts_any; [apply S|]. intros (y & u & E). exact (N _ _ _ _ E). Qed.
  Lemma no_value_none e : no_value marker e -> ~ excused marker e -> forall en w y u, ev false e en w <> (ONorm y, u).
  Proof.
    intros N X en w y u E. destruct (proj1 (no_value_eval O mk k self marker MK1) e N) as [H|H]; [contradiction|]. apply (H false en w). rewrite E. exact I.
  Qed.
  Lemma wrapped_given e v e' : SE false none rt (wrap own v e) e' -> given e e'.
  Proof. intros S en w. eapply lifts_trans; [eapply (wrapped O mk k self own GEN)|apply S]. Qed.

  (** Held code is skipped at first. *)
  Lemma held_skipped mp e : (forall s, mp s <-> s = m) -> held m x halts e -> no_value mp e \/ nested_in e = true.
  Proof.
    intros MP H.
    assert (Q : forall b e, nested_in e = true -> fold_list orb false nested_in_stmt (b ++ [SExpr e false]) = true).
    { intros b e0 N. induction b as [|s b IH]; cbn; [change (nested_in e0 || false = true); rewrite N; reflexivity|].
      change (nested_in_stmt s || fold_list orb false nested_in_stmt (b ++ [SExpr e0 false]) = true). rewrite IH. apply orb_true_r. }
    induction H as [a p y N I _ _|e0 e A B _|e0 e A _ _ _|a b e N _ _ IH|a b e N _ _ IH|a e N _ IH].
    - left. apply nv_macro. right. exists m. split; [apply MP; reflexivity|exact I].
    - right. pose proof (annotated_only _ _ _ A) as OL. pose proof (only_plain _ _ OL) as PL. apply plain_iff in PL.
      assert (NA : attr_named "auto_enum" (e_attrs e) = false).
      { destruct (attr_named "auto_enum" (e_attrs e)) eqn:E; [|reflexivity]. pose proof (only_named _ _ _ OL E ltac:(cbn; auto)). discriminate. }
      destruct e; cbn [nested_in]; rewrite NA, PL; reflexivity.
    - left. apply nv_never. apply only_plain. eapply annotated_only. exact A.
    - destruct (no_help_named _ N) as (NA & _). destruct IH as [IH|IH]; [left; apply nv_block; constructor; exact IH|right].
      cbn [nested_in e_attrs]. rewrite NA. cbn [negb andb]. cbn [fold_expr]. rewrite (Q _ _ IH). apply orb_true_r.
    - destruct (no_help_named _ N) as (NA & _). destruct IH as [IH|IH]; [left; apply nv_unsafe; constructor; exact IH|right].
      cbn [nested_in e_attrs]. rewrite NA. cbn [negb andb]. cbn [fold_expr]. rewrite (Q _ _ IH). apply orb_true_r.
    - destruct (no_help_named _ N) as (NA & _). destruct IH as [IH|IH]; [left; apply nv_paren; exact IH|right].
      cbn [nested_in e_attrs]. rewrite NA. cbn [negb andb]. cbn [fold_expr]. rewrite IH. apply orb_true_r.
  Qed.

  Lemma mark_given w semi a p y e' : fits w -> no_help a = true -> is_ident p m = true -> clean m x y = true -> tidy m x y = true ->
    done w semi (EMacro a (Mac p (Some y))) e' -> given (EMacro a (Mac p (Some y))) e'.
  Proof.
    intros F N I C T D. destruct (no_help_named _ N) as (NA & NB & _). inversion D as [? ? ? e1 e2 e3 ? H1 H2 H3 H4]; subst.
    apply exit_step_none in H1; [|intros [_ K]; exact K]. subst e1. apply nested_step_none in H2; [|exact NB]. subst e2.
    apply under_none in H3; [|exact NA]. inversion H3; subst.
    unfold enter in H4. cbn [e_attrs] in H4. rewrite past_same in H4 by exact NA.
    inversion H4 as [? G|? e1 a' G M A]; subst; [rewrite (proj1 (proj1 F)) in G; discriminate|].
    inversion M as [v ? ? ? J|? J]; subst; [|specialize (J _ _ _ eq_refl); rewrite (proj1 (proj2 (proj1 F))) in J; congruence].
    change (set_attrs (ECall a (EPath [] false (ctor (w_enum w) v)) [y]) a') with (set_attrs (wrap (w_enum w) v y) a').
    assert (E : is_marker mk p = true).
    { unfold is_marker. destruct p as [[] [|[i []] []]]; cbn in I; try discriminate. apply String.eqb_eq in I. apply MK. exact I. }
    rewrite (proj2 (proj2 (proj2 (proj2 (proj1 F))))).
    intros en u. rewrite (set_attrs_eval mk O k self). cbn [Eval.ev]. rewrite E, (wrap_eval O mk k self own GEN).
    pose proof (proj1 clean_same y C T false en u) as S. destruct (ev false y en u) as [[] u1]; cbn [bnd]; inversion S; subst; constructor; try assumption.
    exists v. reflexivity.
  Qed.

  Lemma never_given w semi e0 e e' : fits w -> annotated "never" e0 e -> exit e = false -> tidy m x e0 = true -> halts e ->
    done w semi e e' -> given e e'.
  Proof.
    intros F A X T HL D. pose proof (annotated_only _ _ _ A) as OL.
    assert (NA : attr_named "auto_enum" (e_attrs e) = false).
    { destruct (attr_named "auto_enum" (e_attrs e)) eqn:E; [|reflexivity]. pose proof (only_named _ _ _ OL E ltac:(cbn; auto)). discriminate. }
    assert (NB : attr_named "nested" (e_attrs e) = false).
    { destruct (attr_named "nested" (e_attrs e)) eqn:E; [|reflexivity]. pose proof (only_named _ _ _ OL E ltac:(cbn; auto)). discriminate. }
    destruct A as (l & r & p & EA & IP & NH & E0).
    destruct (apart e) eqn:AP.
    { intros en u. exfalso. destruct e; try discriminate AP; [destruct k0; try discriminate AP|]; (eapply (HALT _ HL en u); reflexivity). }
    inversion D as [? ? ? e1 e2 e3 ? H1 H2 H3 H4]; subst.
    apply exit_step_none in H1; [|intros [_ K]; destruct e; try discriminate X; exact K]. subst e1. apply nested_step_none in H2; [|exact NB]. subst e2.
    apply under_none in H3; [|exact NA].
    set (e0 := set_attrs e (l ++ r)) in *.
    assert (AP0 : apart e0 = false) by (destruct e; exact AP).
    assert (EN : enter e w = enter e0 w).
    { unfold enter. rewrite past_same by exact NA. assert (N0 : attr_named "auto_enum" (e_attrs e0) = false) by (apply no_help_named; eapply tidy_help; exact T).
      rewrite past_same by exact N0. unfold e0. destruct e; reflexivity. }
    pose proof (fit_enter own m x XQ e0 w (proj1 F) AP0 (tidy_help _ _ _ T)) as FE. rewrite <- EN in FE.
    destruct (tidy_kids _ _ _ T AP0) as (T1 & T2).
    assert (T3 : kids (fun e => tidy m x e = true) (fun s => tidy_stmt m x s = true) (fun y => tidy_arm m x y = true) e) by (unfold e0 in T2; destruct e; exact T2).
    assert (FE2 : fits (enter e w)).
    { split; [exact FE|]. destruct F as (_ & FB). unfold enter. destruct e; try exact FB. destruct k0; try exact FB. destruct (w_exits w); exact FB. }
    assert (P : parts (fun _ => SE false none rt) (fun _ => SS false none rt) (fun _ => SA false none rt) [] e e3).
    { eapply parts_with; [| | |exact T3|exact H3]; cbn.
      - intros t y y' R Q. eapply done_same; [exact FE2|exact Q|exact R].
      - intros t y y' R Q. exact (proj2 (done_lifts O mk k self own GEN m x MK1 XQ) _ y y' R FE Q).
      - intros t y y' R Q. inversion R as [? ? a0 q g b c g' b' a' NN G B AS]; subst.
        assert (Y : y = Arm a0 q g b c /\ no_help a0 = true).
        { inversion NN; subst; cbn in Q; apply andb_true_iff in Q; destruct Q as [N Q];
            [auto|match goal with R : removes _ _ _ _ |- _ => apply removes_named in R end; destruct (no_help_named _ N) as (_ & E & _); congruence]. }
        destruct Y as [-> N]. cbn in Q. apply andb_true_iff in Q. destruct Q as [_ Q]. apply andb_true_iff in Q. destruct Q as [Q1 Q2].
        apply arm_lifts; [eapply done_opt; [exact FE2|exact Q1|exact G]|]. intros en u. exact (done_same _ _ _ _ FE2 Q2 B false en u). }
    assert (S : SE false none rt e e3).
    { destruct (is_loop e) eqn:L.
      - eapply loop_lifts; [exact P|exact L| |].
        + destruct e; try exact I; (split; reflexivity).
        + destruct P; try exact I. assumption.
      - eapply parts_lifts; [exact P|]. destruct e; try discriminate; try exact I; try reflexivity.
        + destruct lbl; [reflexivity|exact I].
        + destruct k0; try exact I; discriminate.
        + destruct m0. eapply unmarked; [exact MK1|exact T1]. }
    apply given_any; [|exact (HALT _ HL)].
    inversion H4 as [? G|? e1 a' G M AT]; subst; [exact S|].
    assert (e1 = e3) as ->.
    { apply marker_step_none in M; [exact M|]. intros a q y ->. apply parts_macro in H3. rewrite (proj1 (proj2 FE)).
      clear - T1 H3. unfold e0 in T1. rewrite H3 in T1. exact T1. }
    intros pl en u. rewrite (set_attrs_eval mk O k self). apply S.
  Qed.

  Lemma whole_tail mp t e e' : (forall s, mp s <-> s = m) -> tidy m x e = true -> no_value marker e -> tail own mp t e e' -> e' = e.
  Proof.
    intros MP T N H. assert (NV : no_value mp e) by (apply (nv_spec m mp MP); exact N). destruct H; try reflexivity; contradiction.
  Qed.

  (** ** All of it *)

  Definition marks (mp : string -> Prop) : Prop := forall s, mp s <-> s = m.

  Theorem spread_given :
    (forall e, spread m x halts e -> forall mp, marks mp -> forall w t e1 semi e', fits w -> tail own mp t e e1 -> done w semi e1 e' -> given e e')
    /\ (forall l, spread_arms m x halts l -> forall mp, marks mp -> forall w t l1 t' l', fits w -> seq2 (arm_wrapped own mp) t l l1 ->
          seq2 (fun _ => done_arm w) t' l1 l' -> Forall2 (SA true none rt) l l')
    /\ (forall a b, spread_arm m x halts a b -> forall mp, marks mp -> forall w t p g c y1 y', fits w -> fold_opt true (tidy m x) g = true ->
          arm_wrapped own mp t (Arm a p g b c) y1 -> done_arm w y1 y' -> SA true none rt (Arm a p g b c) y')
    /\ (forall b, spread_branch m x halts b -> forall mp, marks mp -> forall w t b1 t' b', fits w -> branch_wrapped own mp t b b1 ->
          seq2 (fun _ => done_stmt w) t' b1 b' -> given_block b b')
    /\ (forall e, spread_else m x halts e -> forall mp, marks mp -> forall w t e1 e', fits w ->
          (exists a l b b1, e = EBlock a l b /\ e1 = EBlock a l b1 /\ branch_wrapped own mp t b b1) \/ if_wrapped own mp t e e1 ->
          done w false e1 e' -> given e e')
    /\ (forall e, held m x halts e -> forall w semi e', fits w -> done w semi e e' -> given e e').
  Proof.
    apply (spread_ind6 m x halts).
    - (* no value *)
      intros e T N X mp MP w t e1 semi e' F TL D. apply whole_tail in TL; [|assumption..]. subst e1.
      apply given_any; [eapply done_same; eassumption|apply no_value_none; assumption].
    - (* match *)
      intros a s arms N T _ IH mp MP w t e1 semi e' F TL D. destruct (tidy_plain _ N) as (P1 & P2 & P3).
      assert (E : exists arms1 t1, e1 = EMatch a s arms1 /\ seq2 (arm_wrapped own mp) t1 arms arms1).
      { inversion TL as [? NV|? BL|? ? ? ? x' NV SQ| | | | | |]; subst; [|discriminate BL|eauto].
        exists arms, []. split; [reflexivity|]. assert (NA : no_value_arms mp arms) by (inversion NV; subst; try contradiction; assumption).
        clear -NA. induction NA as [|a0 p g b c l H _ IH|a0 p g b c l H _ IH]; [constructor|change (@nil string) with (@nil string ++ [])..]; constructor; try assumption; constructor; cbn; auto. }
      destruct E as (arms1 & t1 & -> & SQ). apply done_plain in D; [|exact N|reflexivity].
      inversion D as [| |t2 t3 ? ? s' ? l' DS DA| | | | | | | | | | | | | | | | |]; subst.
      intros en u. rewrite !(ev_match mk O k self). apply lifts_bnd; [eapply done_same; eassumption|]. intros z u1. apply arms_lifts. eapply IH; eassumption.
    - (* if *)
      intros a c b e N T _ IHb _ IHe mp MP w t e1 semi e' F TL D. destruct (tidy_plain _ N) as (P1 & P2 & P3).
      inversion TL as [? NV|? BL| |? ? ? ? ? ? NV IW| | | | |]; subst; [inversion NV; subst; contradiction|discriminate BL|].
      assert (E : exists b1 e2 t1 t2, e1 = EIf a c b1 (Some e2) /\ branch_wrapped own mp t1 b b1
        /\ ((exists a l b b1, e = EBlock a l b /\ e2 = EBlock a l b1 /\ branch_wrapped own mp t2 b b1) \/ if_wrapped own mp t2 e e2)).
      { inversion IW; subst; do 4 eexists; (split; [reflexivity|split; [eassumption|]]); [left|right]; eauto 8. }
      destruct E as (b1 & e2 & t1 & t2 & -> & BW & EW). apply done_plain in D; [|exact N|reflexivity].
      inversion D as [| | |? ? t3 ? ? c' ? b' ? o' DC DB DE| | | | | | | | | | | | | | | |]; subst.
      inversion DE as [|? ? e2' DE1]; subst.
      intros en u. rewrite !(ev_if mk O k self). apply lifts_bnd; [eapply done_same; eassumption|]. intros z u1.
      destruct (cond z); [eapply IHb; eassumption|eapply IHe; eassumption|constructor].
    - (* loop *)
      intros a l b T S mp MP w t e1 semi e' F TL D en u. eapply lifts_trans.
      + eapply tail_lifted; [exact GEN|exact MK1|exact MP|exact TL|apply cv_loop; exact S|exact T].
      + eapply done_same; [exact F|eapply tail_tidy; [exact TL|exact T]|exact D].
    - (* blocks *)
      intros a b e N T _ IH mp MP w t e1 semi e' F TL D.
      assert (E : exists e2 t2, e1 = EBlock a None (b ++ [SExpr e2 false]) /\ tail own mp t2 e e2).
      { inversion TL as [? NV|? BL| | | |? ? ? r e0 e2 NV H E| | |]; subst.
        - exists e, []. split; [reflexivity|]. apply tl_no_value. eapply no_value_block; eassumption.
        - cbn in BL. rewrite ends_in_value_snoc in BL. discriminate.
        - match goal with E : _ ++ [_] = _ ++ [_] |- _ => apply app_inj_tail in E; destruct E as [-> E]; injection E as -> end. eauto. }
      destruct E as (e2 & t2 & -> & TL2). apply done_plain in D; [|exact N|reflexivity]. inversion D as [? ? ? ? b' DS| | | | | | | | | | | | | | | | | | |]; subst.
      apply seq2_in in DS. apply Forall2_app_inv_l in DS. destruct DS as (r' & s' & D1 & D2 & ->). inversion D2 as [|? s2 ? ? DE DN]; subst. inversion DN; subst.
      inversion DE as [? ? e3 ? DD| | | |]; subst. intros en u. rewrite !(block_eval O mk k self). apply last_given; [|eapply IH; eassumption].
      eapply done_stmts; [exact F|exact T|apply seq2_in; exact D1].
    - intros a b e N T _ IH mp MP w t e1 semi e' F TL D.
      assert (E : exists e2 t2, e1 = EBlk KUnsafe a (b ++ [SExpr e2 false]) /\ tail own mp t2 e e2).
      { inversion TL as [? NV|? BL| | | | |? ? r e0 e2 NV H E| |]; subst.
        - exists e, []. split; [reflexivity|]. apply tl_no_value. eapply no_value_unsafe; eassumption.
        - cbn in BL. rewrite ends_in_value_snoc in BL. discriminate.
        - match goal with E : _ ++ [_] = _ ++ [_] |- _ => apply app_inj_tail in E; destruct E as [-> E]; injection E as -> end. eauto. }
      destruct E as (e2 & t2 & -> & TL2). apply done_plain in D; [|exact N|reflexivity]. inversion D as [|? ? ? ? b' DS| | | | | | | | | | | | | | | | | |]; subst.
      apply seq2_in in DS. apply Forall2_app_inv_l in DS. destruct DS as (r' & s' & D1 & D2 & ->). inversion D2 as [|? s2 ? ? DE DN]; subst. inversion DN; subst.
      inversion DE as [? ? e3 ? DD| | | |]; subst. intros en u.
      refine (last_given b r' e e3 _ _ en u); [|eapply IH; eassumption].
      eapply done_stmts; [exact F|exact T|apply seq2_in; exact D1].
    - intros a e N _ IH mp MP w t e1 semi e' F TL D.
      assert (E : exists e2 t2, e1 = EParen a e2 /\ tail own mp t2 e e2).
      { inversion TL as [? NV|? BL| | | | | | |]; subst; [|discriminate BL|eauto]. exists e, []. split; [reflexivity|]. apply tl_no_value. eapply no_value_paren; eassumption. }
      destruct E as (e2 & t2 & -> & TL2). apply done_plain in D; [|exact N|reflexivity]. inversion D; subst.
      intros en u. cbn [Eval.ev]. eapply IH; eassumption.
    - (* a marker *)
      intros a p y N I C T mp MP w t e1 semi e' F TL D. assert (e1 = EMacro a (Mac p (Some y))) as -> by (inversion TL; reflexivity).
      eapply mark_given; eassumption.
    - (* arms *)
      intros mp MP w t l1 t' l' F S D. inversion S; subst. inversion D; subst. constructor.
    - intros a p g b c l G _ IHb _ IHl mp MP w t l1 t' l' F S D. inversion S; subst. inversion D; subst. constructor; [eapply IHb; eassumption|eapply IHl; eassumption].
    - intros a b N T S mp MP w t p g c y1 y' F G A D. destruct (tidy_plain _ N) as (P1 & P2 & P3). destruct (no_help_named _ N) as (_ & NB & _).
      assert (DA : forall b1 c1, y1 = Arm a p g b1 c1 -> exists g' b' a', y' = Arm a' p g' b' c1 /\ SO none rt g g' /\ done w false b1 b').
      { intros b1 c1 ->. inversion D as [? ? a0 q g0 b0 c0 g' b' a' NN DG DB AS]; subst. inversion NN as [|? ? ? ? ? ? ? ? ? ? ? R]; subst; [|apply removes_named in R; congruence].
        do 3 eexists. split; [reflexivity|]. split; [eapply done_opt; eassumption|exact DB]. }
      inversion A as [? SK|v ? ? ? ? ? SK]; subst.
      + destruct (DA _ _ eq_refl) as (g' & b' & a' & -> & SG & DB). apply arm_lifts; [exact SG|].
        assert (NV : no_value marker b).
        { destruct SK as [K|[K|[K|[(e & -> & K)|K]]]]; try contradiction.
          - apply (nv_spec m mp MP). exact K.
          - cbn in G. rewrite (proj2 (proj1 (tidy_nested m) e) x G) in K. discriminate.
          - rewrite (proj2 (proj1 (tidy_nested m) b) x T) in K. discriminate. }
        apply given_any; [eapply done_same; eassumption|]. apply no_value_none; [exact NV|]. apply S. exact NV.
      + destruct (DA _ _ eq_refl) as (g' & b' & a' & -> & SG & DB). apply arm_lifts; [exact SG|].
        eapply wrapped_given. eapply done_same; [exact F|apply tidy_wrap; exact T|exact DB].
    - intros a b N HB IH mp MP w t p g c y1 y' F G A D. destruct (no_help_named _ N) as (_ & NB & _).
      assert (y1 = Arm a p g b c) as ->.
      { inversion A as [? SK|v ? ? ? ? ? SK]; subst; [reflexivity|]. exfalso. apply SK. cbn. destruct (held_skipped mp b MP HB); auto. }
      inversion D as [? ? a0 q g0 b0 c0 g' b' a' NN DG DB AS]; subst. inversion NN as [|? ? ? ? ? ? ? ? ? ? ? R]; subst; [|apply removes_named in R; congruence].
      apply arm_lifts; [eapply done_opt; eassumption|]. eapply IH; eassumption.
    - intros a b OL _ IH mp MP w t p g c y1 y' F G A D.
      assert (y1 = Arm a p g b c) as ->.
      { inversion A as [? SK|v ? ? ? ? ? SK]; subst; [reflexivity|]. exfalso. apply SK. cbn. right. left. apply only_plain. exact OL. }
      inversion D as [? ? a0 q g0 b0 c0 g' b' a' NN DG DB AS]; subst.
      inversion NN as [? ? ? ? ? [J|J]|? ? ? ? ? ? ? ? n0 k0 J R B]; subst.
      + rewrite (proj1 (proj1 F)) in J. discriminate.
      + pose proof (only_plain _ _ OL) as Q. apply has_plain_named in Q. congruence.
      + unfold branches in B. rewrite (proj2 F), (proj2 (proj2 (proj2 (proj2 (proj1 F))))) in B.
        apply arm_lifts; [eapply done_opt; eassumption|]. eapply IH; [exact (fits_mark w F)|exact F|exact B|exact DB].
    - intros a b OL T HL mp MP w t p g c y1 y' F G A D.
      assert (y1 = Arm a p g b c) as ->.
      { inversion A as [? SK|v ? ? ? ? ? SK]; subst; [reflexivity|]. exfalso. apply SK. cbn. left. apply only_plain. exact OL. }
      inversion D as [? ? a0 q g0 b0 c0 g' b' a' NN DG DB AS]; subst.
      inversion NN as [|? ? ? ? ? ? ? ? ? ? ? R]; subst; [|apply removes_named in R; pose proof (only_named _ _ _ OL R ltac:(cbn; auto)); discriminate].
      apply arm_lifts; [eapply done_opt; eassumption|]. apply given_any; [eapply done_same; eassumption|exact (HALT _ HL)].
    - (* branches *)
      intros b T S mp MP w t b1 t' b' F BW D. inversion BW as [? SK|v ? SK]; subst.
      + destruct SK as (r & s & -> & K). assert (NV : no_value_stmt marker s).
        { assert (TS : tidy_stmt m x s = true) by (rewrite forallb_app in T; apply andb_true_iff in T; destruct T as [_ T]; cbn in T; rewrite andb_true_r in T; exact T).
          destruct s as [l|i|e [|]|a mc semi]; try (apply (nv_spec_stmt m mp MP); exact K). constructor. destruct K as [K|[K|(y & Y & K)]].
          - destruct (tidy_plain _ (tidy_help _ _ _ TS)) as (P1 & _). contradiction.
          - apply (nv_spec m mp MP). exact K.
          - rewrite forallb_forall in T. rewrite (proj2 (proj1 (proj2 (tidy_nested m)) y) x (T _ Y)) in K. discriminate. }
        assert (X : ~ excused_stmt marker s) by (intros X; apply (S (nv_block _ _ _ _ _ NV)); apply ex_block; exact X).
        destruct (proj2 (proj2 (no_value_eval O mk k self marker MK1)) s NV) as [H|H]; [contradiction|].
        intros en u. eapply lifts_any; [apply stmts_same; eapply done_stmts; eassumption|]. intros (y & u1 & E). apply (stmts_nv O mk k self r s H false en u). rewrite E. exact I.
      + unfold wrap_branch in D. inversion D as [|? ? ? s' ? l' DS DN]; subst. inversion DN; subst. inversion DS as [? ? e3 ? DD| | | |]; subst.
        intros en u. rewrite (one_eval O mk k self). rewrite <- (block_eval O mk k self [] b).
        eapply wrapped_given. eapply done_same; [exact F| |exact DD]. apply tidy_wrap. apply tidy_join; try reflexivity. apply tidy_forall. exact T.
    - intros b e T HE IH mp MP w t b1 t' b' F BW D.
      assert (b1 = b ++ [SExpr e false]) as ->.
      { inversion BW as [? SK|v ? SK]; subst; [reflexivity|]. exfalso. apply SK. exists b, (SExpr e false). split; [reflexivity|].
        destruct (held_skipped mp e MP HE) as [H|H]; [auto|]. right. right. exists (SExpr e false). split; [apply in_or_app; right; left; reflexivity|exact H]. }
      apply seq2_all in D. apply Forall2_app_inv_l in D. destruct D as (r' & s' & D1 & D2 & ->). inversion D2 as [|? s2 ? ? DE DN]; subst. inversion DN; subst.
      inversion DE as [? ? e3 ? DD| | | |]; subst. apply last_given; [|eapply IH; eassumption].
      eapply done_stmts; [exact F|exact T|apply seq2_in; exact D1].
    - (* else *)
      intros a b N _ IH mp MP w t e1 e' F [(a0 & l & b0 & b1 & E & -> & BW)|IW] D; [|inversion IW].
      injection E as <- <- <-. apply done_plain in D; [|exact N|reflexivity]. inversion D; subst. intros en u. rewrite !(block_eval O mk k self). eapply IH; eassumption.
    - intros a c b e S IH mp MP w t e1 e' F [(a0 & l & b0 & b1 & E & _)|IW] D; [discriminate|].
      eapply IH; [exact MP|exact F| |exact D]. apply tl_if; [|exact IW].
      assert (N : no_help a = true) by (inversion S as [? T| | | | | | |]; subst; [exact (tidy_help _ _ _ T)|assumption]).
      destruct (tidy_plain _ N) as (P1 & P2 & P3). intros NV. inversion NV; subst; contradiction.
    - (* held code *)
      intros a p y N I C T w semi e' F D. eapply mark_given; eassumption.
    - intros e0 e A HB SP IH w semi e' F D. pose proof (annotated_only _ _ _ A) as OL.
      assert (NA : attr_named "auto_enum" (e_attrs e) = false).
      { destruct (attr_named "auto_enum" (e_attrs e)) eqn:E; [|reflexivity]. pose proof (only_named _ _ _ OL E ltac:(cbn; auto)). discriminate. }
      inversion D as [? ? ? e1 e2 e3 ? H1 H2 H3 H4]; subst.
      assert (EN : enter e w = w) by (unfold enter; rewrite past_same by exact NA; destruct e as [| [] | | | | | | | | | | | | | | | | | | ]; try reflexivity; discriminate HB).
      rewrite EN in *. apply exit_step_none in H1; [|intros [_ K]; destruct e; try discriminate HB; exact K]. subst e1.
      inversion H2 as [? [J|J]|? p a' n0 k0 ? J R B]; subst.
      { rewrite (proj1 (proj1 F)) in J. discriminate. }
      { pose proof (only_plain _ _ OL) as Q. apply has_plain_named in Q. congruence. }
      pose proof (annotated_removes "nested" e0 e _ _ ltac:(cbn; auto) A R) as E0.
      unfold branches in B. rewrite (proj2 F), (proj2 (proj2 (proj2 (proj2 (proj1 F))))), E0 in B.
      assert (G : given e0 e').
      { eapply IH; [exact (fits_mark w F)|exact F|exact B|].
        assert (NH : no_help (e_attrs e0) = true) by (destruct A as (l & r & q & _ & _ & N & ->); destruct e; try discriminate HB; exact N).
        assert (X : e_attrs e2 = e_attrs e0 /\ has_branches e2 = true).
        { assert (HB0 : has_branches e0 = true) by (rewrite <- E0; destruct e; try discriminate HB; exact HB).
          clear -B HB0. inversion B; subst; try (split; [reflexivity|exact HB0]); try (split; reflexivity); try discriminate HB0.
          match goal with H : if_wrapped _ _ _ _ _ |- _ => inversion H; split; reflexivity end. }
        destruct X as [XA XB]. rewrite <- XA in NH. destruct (no_help_named _ NH) as (N1 & N2 & _).
        assert (EN2 : enter e2 w = w) by (unfold enter; rewrite past_same by exact N1; destruct e2 as [| [] | | | | | | | | | | | | | | | | | | ]; try reflexivity; discriminate XB).
        eapply dn; rewrite ?EN2; [apply xs_none; intros [_ K]; destruct e2; try discriminate XB; exact K|apply ns_none; right; exact N2|exact H3|exact H4]. }
      intros en u. destruct A as (l & r & q & _ & _ & _ & ->). specialize (G en u). rewrite (set_attrs_eval mk O k self) in G. exact G.
    - intros e0 e A X T HL w semi e' F D. eapply never_given; eassumption.
    - intros a b e N T _ IH w semi e' F D. apply done_plain in D; [|exact N|reflexivity]. inversion D as [? ? ? ? b' DS| | | | | | | | | | | | | | | | | | |]; subst.
      apply seq2_in in DS. apply Forall2_app_inv_l in DS. destruct DS as (r' & s' & D1 & D2 & ->). inversion D2 as [|? s2 ? ? DE DN]; subst. inversion DN; subst.
      inversion DE as [? ? e3 ? DD| | | |]; subst. intros en u. rewrite !(block_eval O mk k self). apply last_given; [|eapply IH; eassumption].
      eapply done_stmts; [exact F|exact T|apply seq2_in; exact D1].
    - intros a b e N T _ IH w semi e' F D. apply done_plain in D; [|exact N|reflexivity]. inversion D as [|? ? ? ? b' DS| | | | | | | | | | | | | | | | | |]; subst.
      apply seq2_in in DS. apply Forall2_app_inv_l in DS. destruct DS as (r' & s' & D1 & D2 & ->). inversion D2 as [|? s2 ? ? DE DN]; subst. inversion DN; subst.
      inversion DE as [? ? e3 ? DD| | | |]; subst. intros en u. refine (last_given b r' e e3 _ _ en u); [|eapply IH; eassumption].
      eapply done_stmts; [exact F|exact T|apply seq2_in; exact D1].
    - intros a e N _ IH w semi e' F D. apply done_plain in D; [|exact N|reflexivity]. inversion D; subst. intros en u. cbn [Eval.ev]. eapply IH; eassumption.
  Qed.
End Run.
