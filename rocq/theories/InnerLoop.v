(** Proof: the values of the [break]s of a loop stay in their variants when the body of the loop is expanded further. *)

Require Import Coq.Strings.String Coq.Lists.List Coq.Bool.Bool Coq.Arith.Arith.
Require Import Verif.Syntax Verif.AstInd Verif.ExprModel Verif.Edits Verif.NoValueSpec Verif.Tails Verif.TwinEdits Verif.Loops Verif.LoopsRun Verif.Changes Verif.Branches Verif.BranchesRun Verif.ChangesInd Verif.ChangesTop Verif.CleanRun Verif.BranchesClean.
Import ListNotations.
Open Scope string_scope.
Open Scope list_scope.

Section Kept.
  (** The enum and the label of the loop. *)
  Variables (own : string) (l : option string).

  (** A [break] with label [l'] leaves the loop; [d]: a [break] without a label does, [n]: the label is that of the loop. *)
  Definition ours (d n : bool) (l' : option string) : bool :=
    match l' with None => d | Some _ => n && same_label l l' end.
  Definition own_wrap (o : option expr) : Prop := exists v z, o = Some (wrap own v z).

  (** Each [break] that leaves the loop has a value in a variant. *)
  Fixpoint kept (d n : bool) (e : expr) : Prop :=
    match e with
    | EClosure _ _ _ | EBlk KAsync _ _ => True
    | EBreak _ l' o => (ours d n l' = true -> own_wrap o) /\ fold_opt True (kept d n) o
    | ELoop _ l' b => fold_list and True (kept_stmt false (n && negb (same_label l l'))) b
    | EWhile _ l' c b => kept false (n && negb (same_label l l')) c /\ fold_list and True (kept_stmt false (n && negb (same_label l l'))) b
    | EFor _ l' _ c b => kept d n c /\ fold_list and True (kept_stmt false (n && negb (same_label l l'))) b
    | EBlock _ l' b => fold_list and True (kept_stmt d (n && negb (same_label l l'))) b
    | EMacro _ (Mac _ (Some x)) => kept d n x
    | _ => fold_expr and True (kept d n) (kept_stmt d n) (kept_arm d n) e
    end
  with kept_stmt (d n : bool) (s : stmt) : Prop :=
    match s with
    | SMacro _ (Mac _ (Some x)) _ => kept d n x
    | _ => fold_stmt True (kept d n) (kept_local d n) s
    end
  with kept_arm (d n : bool) (x : arm) : Prop := fold_arm and True (kept d n) x
  with kept_local (d n : bool) (x : local) : Prop := fold_local and True (kept d n) x.

  Lemma all_list {A} (f : A -> Prop) b : fold_list and True f b <-> Forall f b.
  Proof.
    induction b as [|x b IH]; cbn; [split; auto|]. change (f x /\ fold_list and True f b <-> Forall f (x :: b)). rewrite IH.
    split; [intros [H1 H2]; constructor; assumption|intros H; inversion H; auto].
  Qed.

  Lemma kept_attrs d n e a : kept d n (set_attrs e a) = kept d n e.
  Proof. destruct e; reflexivity. Qed.
  Lemma kept_wrap d n own' v e : kept d n (wrap own' v e) <-> kept d n e.
  Proof. cbn. tauto. Qed.

  (** Going down, fewer [break]s leave the loop. *)
  Definition down (C : bool -> bool -> Prop) : Prop := forall d n x, C d n -> C false (n && x) /\ C d (n && x).

  Section Parts.
    Variables (C : bool -> bool -> Prop) (Re : list string -> expr -> expr -> Prop) (Rs : list string -> stmt -> stmt -> Prop)
      (Ra : list string -> arm -> arm -> Prop).
    Hypothesis DN : down C.
    Hypothesis WR : forall t v z x', Re t (wrap own v z) x' -> exists z', x' = wrap own v z'.
    Definition kx (x : expr) : Prop := forall d n t x', C d n -> Re t x x' -> kept d n x -> kept d n x'.
    Definition ks (x : stmt) : Prop := forall d n t x', C d n -> Rs t x x' -> kept_stmt d n x -> kept_stmt d n x'.
    Definition ka (x : arm) : Prop := forall d n t x', C d n -> Ra t x x' -> kept_arm d n x -> kept_arm d n x'.

    Lemma seq_kept {A} (R : list string -> A -> A -> Prop) (f : A -> Prop) t b b' :
      Forall (fun x => forall t x', R t x x' -> f x -> f x') b -> seq2 R t b b' -> fold_list and True f b -> fold_list and True f b'.
    Proof.
      rewrite !all_list. intros H S. induction S as [|t1 t2 x x' r r' X _ IH]; intros F; [constructor|].
      inversion H; inversion F; subst. constructor; eauto.
    Qed.
    Lemma opt_kept (f : expr -> Prop) t o o' :
      opt_all (fun x => forall t x', Re t x x' -> f x -> f x') o -> maybe2 Re t o o' -> fold_opt True f o -> fold_opt True f o'.
    Proof. intros H M. destruct M as [|t x x' R]; cbn; [auto|]. cbn in H. eauto. Qed.
    Lemma parts_kept t e e' : kids kx ks ka e -> parts Re Rs Ra t e e' -> forall d n, C d n -> kept d n e -> kept d n e'.
    Proof.
      intros K P d n CC H.
      assert (CF : forall x, C false (n && x)) by (intros; apply (DN d n); exact CC).
      assert (CD : forall x, C d (n && x)) by (intros; apply (DN d n); exact CC).
      assert (LS : forall d n b b' t, C d n -> Forall ks b -> seq2 Rs t b b' -> fold_list and True (kept_stmt d n) b -> fold_list and True (kept_stmt d n) b').
      { intros d0 n0 b b' t0 C0 F. apply seq_kept. revert F. apply Forall_impl. intros s S t1 x' R. apply (S d0 n0 t1 x' C0 R). }
      assert (LE : forall b b' t, Forall kx b -> seq2 Re t b b' -> fold_list and True (kept d n) b -> fold_list and True (kept d n) b').
      { intros b b' t0 F. apply seq_kept. revert F. apply Forall_impl. intros s S t1 x' R. apply (S d n t1 x' CC R). }
      assert (LA : forall b b' t, Forall ka b -> seq2 Ra t b b' -> fold_list and True (kept_arm d n) b -> fold_list and True (kept_arm d n) b').
      { intros b b' t0 F. apply seq_kept. revert F. apply Forall_impl. intros s S t1 x' R. apply (S d n t1 x' CC R). }
      assert (LO : forall o o' t, opt_all kx o -> maybe2 Re t o o' -> fold_opt True (kept d n) o -> fold_opt True (kept d n) o').
      { intros o o' t0 F. apply opt_kept. destruct o as [x|]; cbn in *; [|exact I]. intros t1 x' R. apply (F d n t1 x' CC R). }
      destruct P; cbn [kids] in K; repeat match goal with H : _ /\ _ |- _ => destruct H end.
      - eapply LS; eauto.
      - destruct k; try exact I; eapply LS; eauto.
      - destruct H as [H H']. split; [eauto|eapply LA; eauto].
      - destruct H as (H & H' & H''). split; [eauto|split; [eapply LS; eauto|eapply LO; eauto]].
      - exact (K d n _ _ CC H0 H).
      - eapply LS; eauto.
      - destruct H as [H H']. split; [eauto|eapply LS; eauto].
      - destruct H as [H H']. split; [eauto|eapply LS; eauto].
      - cbn [kept] in H. destruct H as [H H']. cbn [kept]. split; [|eapply LO; eauto].
        intros OU. destruct (H OU) as (v & z & ->). inversion H0 as [|? ? x' R]; subst. destruct (WR _ _ _ _ R) as (z' & ->). exists v, z'. reflexivity.
      - exact I.
      - eapply LO; eauto.
      - exact (K d n _ _ CC H0 H).
      - exact I.
      - exact H.
      - destruct H as [H H']. split; [eauto|eapply LE; eauto].
      - exact (K d n _ _ CC H0 H).
      - destruct H as [H H']. split; [eauto|eapply LE; eauto].
      - exact I.
      - eapply LE; eauto.
      - exact I.
    Qed.
  End Parts.

  (** ** The [break]s of another loop *)

  Section Other.
    Variables (own' : string) (mp : string -> Prop) (l' : option string).
    (** The places at which the [break]s of the other loop are not ours. *)
    Definition apart (inner d n : bool) : Prop := (inner = false -> d = false) /\ (n = true -> same_label l l' = false).
    Lemma apart_down inner : down (apart inner).
    Proof.
      intros d n x [H1 H2]. repeat split; auto; intros E; apply andb_true_iff in E; apply H2; apply E.
    Qed.
    Lemma apart_true inner d n : apart inner d n -> apart true d n.
    Proof. intros [_ H]. split; [discriminate|exact H]. Qed.
    Lemma apart_ours inner d n l0 : apart inner d n -> leaves l' inner l0 -> ours d n l0 = false.
    Proof.
      intros [H1 H2] [[-> ->]|(s & -> & ->)]; cbn; [auto|]. destruct n; [|reflexivity]. apply H2. reflexivity.
    Qed.
    Lemma breaks_wrap inner t v z x' : breaks own' mp l' inner t (wrap own v z) x' -> exists z', x' = wrap own v z'.
    Proof.
      intros H. inversion H as [? ? P|? ? ? ?|? ? ?|? ? ? L|? ? ? ? N L IL|? ? ? ? N|? ? ? ? ? ? ? N|? ? ? ? ? ? N|? ? ? ? ? ? N|? ? ? ? N PL PT]; subst;
        try discriminate; [destruct P as (p & [] & _)|].
      inversion PT as [| | | | | | | | | | | | | | | |? ? ? ? f' ? r' PF PR| | |]; subst.
      inversion PF as [? ? Q|? ? ? ?|? ? ?|? ? ? L|? ? ? ? N1 L IL|? ? ? ? N1|? ? ? ? ? ? ? N1|? ? ? ? ? ? N1|? ? ? ? ? ? N1|? ? ? ? N1 PL1 PT1]; subst;
        try discriminate; [destruct Q as (p & [] & _)|].
      inversion PT1; subst. inversion PR as [|? ? ? z' ? ? R1 R2]; subst. inversion R2; subst. eexists. reflexivity.
    Qed.

    Let Ke (e : expr) : Prop := forall inner d n t e', apart inner d n -> breaks own' mp l' inner t e e' -> kept d n e -> kept d n e'.
    Let Ks (e : stmt) : Prop := forall inner d n t e', apart inner d n -> breaks_stmt own' mp l' inner t e e' -> kept_stmt d n e -> kept_stmt d n e'.
    Let Ka (e : arm) : Prop := forall inner d n t e', apart inner d n -> breaks_arm own' mp l' inner t e e' -> kept_arm d n e -> kept_arm d n e'.
    Let Kl (e : local) : Prop := forall inner d n t e', apart inner d n -> breaks_local own' mp l' inner t e e' -> kept_local d n e -> kept_local d n e'.
    Lemma breaks_kept : (forall e, Ke e) /\ (forall s, Ks s) /\ (forall s, Ka s) /\ (forall s, Kl s).
    Proof.
      assert (W : forall e, kids Ke Ks Ka e -> Ke e).
      { intros e K inner d n t e' A H KE.
        assert (PA : forall inner d n t e', apart inner d n -> parts (breaks own' mp l' inner) (breaks_stmt own' mp l' inner) (breaks_arm own' mp l' inner) t e e' ->
                   kept d n e -> kept d n e').
        { intros i0 d0 n0 t0 e0 A0 P0. eapply (parts_kept (apart i0)); [apply apart_down|intros; eapply breaks_wrap; eassumption| |exact P0|exact A0].
          revert K. apply kids_map; intros x X; intros ? ? ? ?; apply X. }
        destruct H as [inner e N|inner a ps e|inner a b|inner e L IL|inner t e e' N L IL PT|inner v a l0 N LV|inner v t a l0 e e' N LV NM H
                    |inner t a l0 e e' N LV NM H|inner t a l0 o o' N NL H|inner t e e' N PL PT].
        - exact KE.
        - exact I.
        - exact I.
        - exact KE.
        - eapply PA; [eapply apart_true; exact A|exact PT|exact KE].
        - pose proof (apart_ours _ _ _ _ A LV) as OU. cbn. rewrite OU. split; [discriminate|tauto].
        - pose proof (apart_ours _ _ _ _ A LV) as OU. cbn [kept fold_opt] in KE |- *. rewrite OU. split; [discriminate|]. apply kept_wrap. exact (K _ _ _ _ _ A H (proj2 KE)).
        - pose proof (apart_ours _ _ _ _ A LV) as OU. cbn [kept fold_opt] in KE |- *. rewrite OU. split; [discriminate|]. exact (K _ _ _ _ _ A H (proj2 KE)).
        - destruct KE as [K1 K2]. cbn [kept]. destruct H as [|t x x' H]; [split; [exact K1|exact I]|]. split.
          + intros OU. destruct (K1 OU) as (v & z & E). injection E as ->. destruct (breaks_wrap _ _ _ _ _ H) as (z' & ->). exists v, z'. reflexivity.
          + exact (K _ _ _ _ _ A H K2).
        - eapply PA; eassumption. }
      assert (OP : forall o o' inner d n t, opt_all Ke o -> apart inner d n -> maybe2 (breaks own' mp l' inner) t o o' -> fold_opt True (kept d n) o -> fold_opt True (kept d n) o').
      { intros o o' inner d n t H A M. destruct M as [|t x x' M]; cbn; [auto|]. exact (H _ _ _ _ _ A M). }
      apply ast_ind; intros; try (apply W; cbn [kids]; auto; fail).
      - intros inner d n t s' A B K. inversion B as [? ? ? ? P]; subst. inversion P as [? ? ? R|? |? ? ? ? R|]; subst. exact (H _ _ _ _ _ A R K).
      - intros inner d n t s' A B K. inversion B as [? ? ? ? P]; subst. inversion P; subst. exact K.
      - intros inner d n t s' A B K. inversion B as [? ? ? ? P]; subst. inversion P as [? ? ? R|? |? ? ? ? R|]; subst. exact (H _ _ _ _ _ A R K).
      - intros inner d n t s' A B K. inversion B as [? ? ? ? P]; subst. inversion P; subst. exact K.
      - intros inner d0 n t0 s' A B K. inversion B as [? ? ? ? P]; subst. inversion P; subst. destruct K as [K1 K2]. split; (eapply OP; [| |eassumption|]; eassumption).
      - intros inner d0 n t0 s' A B K. inversion B as [? ? ? ? P]; subst. inversion P; subst. destruct K as [K1 K2]. split; [eapply OP; [| |eassumption|]; eassumption|eapply H0; eassumption].
    Qed.
  End Other.

  (** ** Wrapped branches *)

  Lemma wrap_branch_kept d n own' v b : fold_list and True (kept_stmt d n) b -> fold_list and True (kept_stmt d n) (wrap_branch own' v b).
  Proof.
    intros H. unfold wrap_branch. change (kept d n (wrap own' v (EBlock [] None b)) /\ True). split; [|exact I]. apply kept_wrap. cbn [kept].
    replace (n && negb (same_label l None)) with n; [exact H|]. destruct l; cbn; rewrite andb_true_r; reflexivity.
  Qed.
  Lemma branch_kept own' mp t b b' d n : branch_wrapped own' mp t b b' -> fold_list and True (kept_stmt d n) b -> fold_list and True (kept_stmt d n) b'.
  Proof. intros H. destruct H; [auto|]. apply wrap_branch_kept. Qed.
  Lemma if_kept own' mp t e e' : if_wrapped own' mp t e e' -> forall d n, kept d n e -> kept d n e'.
  Proof.
    induction 1 as [t1 t2 a c b1 b1' ea l1 b2 b2' W1 W2|t1 t2 a c b1 b1' e2 e2' W1 W2 IH]; intros d n (H1 & H2 & H3); (split; [exact H1|]).
    - split; [eapply branch_kept; eassumption|]. cbn [fold_opt kept] in H3 |- *. eapply branch_kept; eassumption.
    - split; [eapply branch_kept; eassumption|]. cbn [fold_opt] in H3 |- *. apply IH. exact H3.
  Qed.
  Lemma last_kept d n r e e' : (kept d n e -> kept d n e') -> fold_list and True (kept_stmt d n) (r ++ [SExpr e false]) -> fold_list and True (kept_stmt d n) (r ++ [SExpr e' false]).
  Proof.
    intros K. rewrite !all_list, !Forall_app. intros [H1 H2]. split; [exact H1|]. inversion H2; subst. constructor; [|constructor]. apply K. assumption.
  Qed.
  Lemma tail_kept own' mp t e e' : tail own' mp t e e' -> forall d n, kept d n e -> kept d n e'.
  Proof.
    induction 1 as [e H|e H|t a s x x' N H|t a c b o e' N H|t a l1 b b' N H|t a l1 r e e' N H IH|t a r e e' N H IH|t a e e' m args N H IH|t a e e' N H IH]; intros d n K.
    - exact K.
    - exact K.
    - destruct K as [K1 K2]. split; [exact K1|]. eapply seq_kept; [|exact H|exact K2]. apply Forall_forall. intros y _ t0 y' AW. destruct AW as [|v a0 p g b0 c0 NS]; [auto|].
      intros [G B]. split; [exact G|]. apply kept_wrap. exact B.
    - eapply if_kept; eassumption.
    - cbn [kept] in K |- *. eapply seq_kept; [|exact H|exact K]. apply Forall_forall. intros y _ t0 y' B. eapply (breaks_kept own' mp l1); [|exact B].
      split; [auto|]. intros E. apply andb_true_iff in E. destruct E as [_ E]. apply negb_true_iff in E. exact E.
    - cbn [kept] in K |- *. eapply last_kept; [apply IH|exact K].
    - change (fold_list and True (kept_stmt d n) (r ++ [SExpr e' false])). eapply last_kept; [apply IH|exact K].
    - destruct K as [K1 K2]. split; [apply IH; exact K1|exact K2].
    - apply IH. exact K.
  Qed.
  Lemma branches_kept w t e e' : branches w t e e' -> forall d n, kept d n e -> kept d n e'.
  Proof. unfold branches. destruct (w_branches w); [apply tail_kept|]. intros [_ ->]. auto. Qed.

  (** ** The visit *)

  Lemma exit_kept w e e' : exit_step w e e' -> forall d n, kept d n e -> kept d n e'.
  Proof.
    intros H d n K. destruct H as [v a o T|v a x T|e T]; [|split; [exact K|cbn; tauto]|exact K].
    cbn [kept fold_expr fold_opt] in K |- *. apply kept_wrap. destruct o; [exact K|cbn; exact I].
  Qed.
  Lemma declared_kept i e e' : declared i e e' -> forall d n, kept d n e -> kept d n e'.
  Proof.
    intros [->|(k & dv & _ & ->)] d n K; [exact K|]. change (True /\ kept d (n && negb (same_label l None)) e /\ True).
    replace (n && negb (same_label l None)) with n; [auto|]. destruct l; cbn; rewrite andb_true_r; reflexivity.
  Qed.
  Lemma close_kept w e e' : close_step w e e' -> forall d n, kept d n e -> kept d n e'.
  Proof.
    intros H d n K. destruct H as [e _ _|e e1 a' _ M _]; [exact K|]. rewrite kept_attrs. destruct M as [v a p x _|e _]; [|exact K].
    change (True /\ kept d n x /\ True). auto.
  Qed.
  Lemma done_wrapped w semi v e e' : done w semi (wrap own v e) e' -> exists e2, e' = wrap own v e2.
  Proof.
    intros D. apply done_plain in D; [|reflexivity..]. inversion D as [| | | | | | | | | | | | | | | |? ? ? ? f' ? l1 DF DL| | |]; subst.
    apply done_plain in DF; [|reflexivity..]. inversion DF; subst. inversion DL as [|? ? ? e2 ? ? _ D2]; subst. inversion D2; subst. eexists. reflexivity.
  Qed.
  Lemma quiet_parts w e e' : e_attrs e = [] -> quiet w e e' -> parts (fun _ => quiet w) (fun _ => quiet_stmt w) (fun _ => quiet_arm w) [] e e'.
  Proof. intros E H. inversion H as [? ? ? N P|? ? ? ? ? ? ? ? R]; subst; [exact P|]. apply removes_named in R. rewrite E in R. discriminate. Qed.
  Lemma quiet_wrapped w v e e' : quiet w (wrap own v e) e' -> exists e2, e' = wrap own v e2.
  Proof.
    intros D. apply quiet_parts in D; [|reflexivity]. inversion D as [| | | | | | | | | | | | | | | |? ? ? ? f' ? l1 DF DL| | |]; subst.
    apply quiet_parts in DF; [|reflexivity]. inversion DF; subst. inversion DL as [|? ? ? e2 ? ? _ D2]; subst. inversion D2; subst. eexists. reflexivity.
  Qed.

  Definition keeps (e e' : expr) : Prop := forall d n, kept d n e -> kept d n e'.
  Definition keeps_stmt (e e' : stmt) : Prop := forall d n, kept_stmt d n e -> kept_stmt d n e'.
  Definition keeps_arm (e e' : arm) : Prop := forall d n, kept_arm d n e -> kept_arm d n e'.
  Definition keeps_local (e e' : local) : Prop := forall d n, kept_local d n e -> kept_local d n e'.

  Lemma parts_keeps (Re : list string -> expr -> expr -> Prop) (Rs : list string -> stmt -> stmt -> Prop) (Ra : list string -> arm -> arm -> Prop) t e e' :
    (forall t v z x', Re t (wrap own v z) x' -> exists z', x' = wrap own v z') ->
    (forall t x x', Re t x x' -> keeps x x') -> (forall t x x', Rs t x x' -> keeps_stmt x x') -> (forall t x x', Ra t x x' -> keeps_arm x x') ->
    parts Re Rs Ra t e e' -> keeps e e'.
  Proof.
    intros W H1 H2 H3 P d n K. eapply (parts_kept (fun _ _ => True)); [intros ? ? ?; auto|exact W| |exact P|exact I|exact K].
    apply kids_all; intros x ? ? ? ? _ R; [eapply H1|eapply H2|eapply H3]; exact R.
  Qed.
  Lemma maybe_keeps (R : list string -> expr -> expr -> Prop) t o o' : (forall t x x', R t x x' -> keeps x x') -> maybe2 R t o o' ->
    forall d n, fold_opt True (kept d n) o -> fold_opt True (kept d n) o'.
  Proof. intros H M d n. destruct M as [|t x x' M]; cbn; [auto|]. apply (H _ _ _ M). Qed.

  Theorem visit_keeps :
    cases (fun _ _ => keeps) (fun _ _ => keeps) (fun _ => keeps_stmt) (fun _ => keeps_stmt) (fun _ => keeps_arm) (fun _ => keeps_arm)
      (fun _ => keeps_local) (fun _ => keeps_local) (fun _ => keeps_local) (fun _ => keeps) (fun _ => keeps) (fun _ => keeps) (fun _ => keeps).
  Proof.
    assert (DW : forall w t e e', parts (fun _ e e' => done w false e e' /\ keeps e e') (fun _ e e' => done_stmt w e e' /\ keeps_stmt e e')
                   (fun _ e e' => done_arm w e e' /\ keeps_arm e e') t e e' -> keeps e e').
    { intros w t e e'. apply parts_keeps; try (intros ? ? ? [_ H]; exact H). intros ? v z x' [H _]. eapply done_wrapped. exact H. }
    assert (QW : forall w t e e', parts (fun _ e e' => quiet w e e' /\ keeps e e') (fun _ e e' => quiet_stmt w e e' /\ keeps_stmt e e')
                   (fun _ e e' => quiet_arm w e e' /\ keeps_arm e e') t e e' -> keeps e e').
    { intros w t e e'. apply parts_keeps; try (intros ? ? ? [_ H]; exact H). intros ? v z x' [H _]. eapply quiet_wrapped. exact H. }
    assert (DM : forall w t o o', maybe2 (fun _ e e' => done w false e e' /\ keeps e e') t o o' -> forall d n, fold_opt True (kept d n) o -> fold_opt True (kept d n) o').
    { intros w t o o'. apply maybe_keeps. intros ? ? ? [_ H]. exact H. }
    assert (QM : forall w t o o', maybe2 (fun _ e e' => quiet w e e' /\ keeps e e') t o o' -> forall d n, fold_opt True (kept d n) o -> fold_opt True (kept d n) o').
    { intros w t o o'. apply maybe_keeps. intros ? ? ? [_ H]. exact H. }
    constructor.
    - intros w semi e e1 e2 e3 e' H1 H2 _ HU H4 d n K. eapply close_kept; [exact H4|]. apply HU.
      assert (K1 : kept d n e1) by (eapply exit_kept; eassumption).
      inversion H2 as [? NF|? p a' n0 k ? NF RM B]; subst; [exact K1|]. eapply branches_kept; [exact B|]. rewrite kept_attrs. exact K1.
    - intros w semi e e' _ P. eapply DW. exact P.
    - intros w semi e p toks a' e1 c e' _ P _ _ X d n K. apply X. eapply DW; [exact P|]. rewrite kept_attrs. exact K.
    - intros w e e' semi _ H d n K. apply H. exact K.
    - intros w i d n K. exact K.
    - intros w a m semi d n K. exact K.
    - intros w a p t i d l1 _ _ H d0 n K. apply H. exact K.
    - intros w a x toks a' p t i d l1 c l2 _ _ _ H1 _ _ H2 d0 n K. apply H2. apply H1. exact K.
    - intros w x a p g b c g' b' a' NA G _ B _ d n K.
      assert (K1 : kept_arm d n (Arm a p g b c)).
      { destruct NA as [|q a0 a1 p0 g0 b0 b1 c0 n0 k _ _ BR]; [exact K|]. destruct K as [K1 K2]. split; [exact K1|]. eapply branches_kept; eassumption. }
      destruct K1 as [K1 K2]. split; [eapply DM; eassumption|apply B; exact K2].
    - intros w x a p t i d i' d' a' NL G1 G2 _ d0 n K.
      assert (K1 : kept_local d0 n (Local a p t i d)).
      { destruct NL as [|x0 a0 a1 p0 t0 d1 _ _|q a0 a1 p0 t0 i0 i1 d1 n0 k _ _ BR]; [exact K|exact K|]. destruct K as [K1 K2]. split; [|exact K2]. eapply branches_kept; eassumption. }
      destruct K1 as [K1 K2]. split; eapply DM; eassumption.
    - intros w e e' _ P. eapply QW. exact P.
    - intros w e p toks a' e1 c e' _ P _ _ X d n K. apply X. eapply QW; [exact P|]. rewrite kept_attrs. exact K.
    - intros w e e' semi _ _ H d n K. apply H. exact K.
    - intros w e p toks a' e1 c e' semi _ P _ _ X d n K. apply X. eapply QW; [exact P|]. rewrite kept_attrs. exact K.
    - intros w i d n K. exact K.
    - intros w a m semi d n K. exact K.
    - intros w a p t i d l1 _ _ H d0 n K. apply H. exact K.
    - intros w a x toks a' p t i d l1 c l2 _ _ _ H1 _ _ H2 d0 n K. apply H2. apply H1. exact K.
    - intros w a p g b c g' b' G _ B d n [K1 K2]. split; [eapply QM; eassumption|apply B; exact K2].
    - intros w a p t i d i' d' G1 G2 d0 n [K1 K2]. split; eapply QM; eassumption.
    - intros w e e' _ _ H. exact H.
    - intros w e e1 e' _ _ H D d n K. eapply declared_kept; [exact D|]. apply H. exact K.
    - intros w a p t t' i d i' d' _ _ G1 G2 d0 n [K1 K2]. split; eapply QM; eassumption.
    - intros w a p t t' e e1 e' d _ _ H D d0 n [K1 K2]. split; [|exact K2]. eapply declared_kept; [exact D|]. apply H. exact K1.
    - intros w a ps b b' x _ _ _ _ d n _. exact I.
    - intros w e e' _ _ H. exact H.
    - intros w e e1 k e' B _ H d n K. apply H. eapply branches_kept; eassumption.
    - intros w e e1 e' _ _ B _ H d n K. apply H. eapply branches_kept; eassumption.
  Qed.
  Theorem block_keeps w t b b' d n : seq2 (fun _ => done_stmt w) t b b' -> fold_list and True (kept_stmt d n) b -> fold_list and True (kept_stmt d n) b'.
  Proof.
    apply seq_kept. apply Forall_forall. intros s _ _ s' D. exact (ind_stmt _ _ _ _ _ _ _ _ _ _ _ _ _ visit_keeps w s s' D d n).
  Qed.
End Kept.
