(** The expansion adds no attributes [auto_enum] that choose a marker: the visitors. *)

Require Import Coq.Strings.String Coq.Lists.List Coq.Bool.Bool Coq.Arith.Arith Coq.NArith.NArith.
Require Import Verif.Syntax Verif.Context Verif.ExprModel Verif.TypeAnalysis Verif.AutoEnum.
Require Import Verif.AstInd Verif.RunLemmas Verif.Outside Verif.OutsideRun Verif.Rename Verif.RenamePlain Verif.RenameKept.
Import ListNotations.
Open Scope string_scope.
Open Scope list_scope.

Section Stay.
  Variable fm : string -> string.
  Notation ke := (kept_expr fm).
  Notation ks := (kept_stmt fm).
  Notation ka := (kept_arm fm).
  Notation kl := (kept_local fm).
  Notation kat := (forallb (kept_marker fm)).

  Lemma kept_remove s a r : find_remove_attr a s = Some r -> kat a = true -> kept_marker fm (fst r) = true /\ kat (snd r) = true.
  Proof.
    unfold find_remove_attr. revert r. induction a as [|z a IH]; cbn [find_remove]; intros r H F; [discriminate|].
    cbn [forallb] in F. apply andb_true_iff in F. destruct F as [F1 F2].
    destruct (is_ident (attr_path z) s); [injection H as <-; auto|].
    destruct (find_remove _ a) as [[q l]|]; [|discriminate]. injection H as <-. cbn [fst snd forallb] in *.
    destruct (IH _ eq_refl F2) as [X Y]. cbn in X, Y. rewrite F1, Y. auto.
  Qed.
  Lemma kept_in_set e a : kept_in fm (set_attrs e a) = kept_in fm e.
  Proof. destruct e; reflexivity. Qed.
  Lemma kept_set e a : ke e = true -> kat a = true -> ke (set_attrs e a) = true.
  Proof.
    rewrite !kept_expr_eq, kept_in_set. intros W F. apply andb_true_iff in W. destruct W as [W1 W2].
    rewrite W2, andb_true_r. destruct e; exact F || reflexivity.
  Qed.
  Lemma kept_attrs e : ke e = true -> kat (e_attrs e) = true.
  Proof. rewrite kept_expr_eq. intros W. apply andb_true_iff in W. apply W. Qed.

  Definition stays (R : engine_t) : Prop :=
    (forall sc semi e, ke e = true -> keeps (ok ke) (r_vexpr R sc semi e))
    /\ (forall sc s, ks s = true -> keeps (ok ks) (r_vstmt R sc s))
    /\ (forall sc z, ka z = true -> keeps (ok ka) (r_varm R sc z))
    /\ (forall sc z, kl z = true -> keeps (ok kl) (r_vlocal R sc z))
    /\ (forall e, ke e = true -> keeps (ok ke) (r_dexpr R e))
    /\ (forall s, ks s = true -> keeps (ok ks) (r_dstmt R s)).

  Lemma stay_attrs sc a : kat a = true -> keeps (ok kat) (find_remove_attrs sc a).
  Proof.
    intros W. unfold find_remove_attrs. destruct (sc_foreign sc); [apply keeps_ret; exact W|]. apply (keeps_bind (ok kat)).
    - destruct (find_remove_attr a NEVER) as [[q l]|] eqn:E; [|apply keeps_ret; exact W]. apply keeps_any. intros _. apply keeps_ret.
      apply (kept_remove _ _ _ E W).
    - intros a' W'. destruct (find_remove_attr a' REC) as [[q l]|] eqn:E; [|apply keeps_ret; exact W']. apply keeps_any. intros _. apply keeps_ret.
      apply (kept_remove _ _ _ E W').
  Qed.
  Lemma stay_attrs_expr sc e : ke e = true -> keeps (ok ke) (find_remove_attrs_expr sc e).
  Proof.
    intros W. unfold find_remove_attrs_expr. eapply keeps_bind; [apply stay_attrs, kept_attrs, W|]. intros a Wa. apply keeps_ret. apply kept_set; assumption.
  Qed.
  Lemma stay_macro sc e : ke e = true -> keeps (ok ke) (visit_marker_macro sc e).
  Proof.
    intros W. unfold visit_marker_macro. apply keeps_any. intros _. apply keeps_any. intros ex. destruct e; try (apply keeps_ret; exact W).
    destruct m as [p o]. destruct ex; [|apply keeps_ret; exact W]. rewrite kept_expr_eq in W. apply andb_true_iff in W. destruct W as [W1 W2].
    apply (keeps_bind (ok ke)).
    - destruct o; [apply keeps_ret; exact W2|]. apply keeps_any. intros _. apply keeps_ret. reflexivity.
    - intros z Wz. apply keeps_any. intros []; [apply keeps_ret; exact Wz|]. intros cx b c E. unfold next_expr_with_attrs in E. injection E as <- _.
      unfold expr_call. rewrite kept_expr_eq. cbn [e_attrs kept_in fold_expr] in *. rewrite W1, all_cons, Wz. reflexivity.
  Qed.

  Lemma stay_build {A} (P : A -> Prop) f z : P z -> (forall g, P (f g z)) -> keeps P (build f z).
  Proof.
    intros W F cx b c E. unfold build in E. destruct (has_error cx); [injection E as <- _; exact W|].
    destruct (length (cx_variants cx)) as [|[|]]; [destruct (cx_has_child cx)| |]; injection E as <- _; auto.
  Qed.
  Lemma stay_child {A} (P : A -> Prop) child f : keeps P f -> keeps P (in_child child f).
  Proof.
    intros K cx b c E. unfold in_child in E. destruct (f child) as [[z c']| |] eqn:F; try discriminate E. apply bind_ok in E.
    destruct E as (u & c1 & _ & E). unfold ret in E. injection E as <- _. eapply K. exact F.
  Qed.

  Lemma walk_kept V e : ke e = true ->
    (forall z, ke z = true -> keeps (ok ke) (on_expr V z)) -> (forall z, ks z = true -> keeps (ok ks) (on_stmt V z)) ->
    (forall z, ka z = true -> keeps (ok ka) (on_arm V z)) -> keeps (ok ke) (walk_expr V e).
  Proof.
    intros W HE HS HA. apply kept_by_walk; [|exact W].
    assert (L : forall A (P : A -> Prop) l, (forall z, P z) -> Forall P l) by (intros; apply Forall_forall; auto).
    assert (O : forall A (P : A -> Prop) o, (forall z, P z) -> opt_all P o) by (intros A P [] H; cbn; auto).
    destruct e; cbn [vis_kept]; auto.
  Qed.
  Lemma walk_arm_kept f z : ka z = true -> (forall z, ke z = true -> keeps (ok ke) (f z)) -> keeps (ok ka) (walk_arm f z).
  Proof. intros W H. destruct z. apply kept_by_walk_arm; auto. destruct guard; cbn; auto. Qed.
  (** The attributes of the statement itself do not matter. *)
  Notation kin := (fold_local andb true ke).
  Lemma walk_local_kept f z : kin z = true -> (forall z, ke z = true -> keeps (ok ke) (f z)) -> keeps (ok kin) (walk_local f z).
  Proof.
    intros W H. destruct z as [a p t i d]. cbn [fold_local walk_local] in *. split_and.
    eapply keeps_bind; [apply keeps_optM; [destruct i; cbn; auto|eassumption]|intros i' Wi].
    eapply keeps_bind; [apply keeps_optM; [destruct d; cbn; auto|eassumption]|intros d' Wd]. apply keeps_ret. cbn [fold_local]. cbv beta in *. rewrite Wi, Wd. reflexivity.
  Qed.
  Lemma walk_local_attrs f a p t i d : keeps (fun z => match z with Local a' _ _ _ _ => a' = a end) (walk_local f (Local a p t i d)).
  Proof. cbn [walk_local]. apply keeps_any. intros. apply keeps_any. intros. apply keeps_ret. reflexivity. Qed.
  Lemma keeps_and {A} (P Q : A -> Prop) m : keeps P m -> keeps Q m -> keeps (fun z => P z /\ Q z) m.
  Proof. intros H K cx a c E. split; [eapply H|eapply K]; exact E. Qed.
  Lemma keeps_weak {A} (P Q : A -> Prop) m : keeps P m -> (forall z, P z -> Q z) -> keeps Q m.
  Proof. intros H K cx a c E. eapply K, H. exact E. Qed.
  Lemma kept_local_eq a p t i d : kl (Local a p t i d) = kat a && kin (Local a p t i d).
  Proof. reflexivity. Qed.
  Lemma walk_local_full f z : kl z = true -> (forall z, ke z = true -> keeps (ok ke) (f z)) -> keeps (ok kl) (walk_local f z).
  Proof.
    intros W H. destruct z as [a p t i d]. rewrite kept_local_eq in W. split_and.
    eapply keeps_weak; [apply keeps_and; [apply walk_local_attrs|apply walk_local_kept; eassumption]|].
    intros [a' p' t' i' d'] [-> X]. rewrite kept_local_eq, W, X. reflexivity.
  Qed.

  Section Parents.
    Variable hash : node -> N.
    Variable ta : bool.
    Variable R : engine_t.
    Hypothesis St : stays R.

    Lemma stay_body e : ke e = true -> keeps (ok ke) (expand_body ta R e).
    Proof.
      intros W. unfold expand_body. eapply keeps_bind; [apply kept_by_child, W|]. intros e' W'. apply keeps_any.
      destruct St as (VE & _ & _ & _ & DE & _). intros []; auto.
    Qed.
    Lemma stay_expand e : ke e = true -> keeps (ok ke) (expand_expr ta R e).
    Proof.
      intros W. unfold expand_expr. apply keeps_any. intros vl. pose proof (stay_body e W) as B. destruct e; try exact B.
      destruct vl; [|exact B]. apply keeps_any. intros c. apply keeps_any. intros _. rewrite kept_expr_eq in W. cbn [kept_in fold_expr e_attrs] in W. split_and.
      eapply keeps_bind; [apply stay_body; eassumption|]. intros b Wb. apply keeps_ret. rewrite kept_expr_eq. cbn [kept_in fold_expr e_attrs]. cbv beta in Wb. rewrite W, Wb. reflexivity.
    Qed.
    Lemma kept_build g e : ke (build_expr g e) = ke e && true.
    Proof. reflexivity. Qed.
    Lemma stay_parent e semi : ke e = true -> keeps (ok ke) (expand_parent_expr ta R e semi).
    Proof.
      intros W. unfold expand_parent_expr. apply keeps_any. intros _. apply keeps_any. destruct St as (_ & _ & _ & _ & DE & _). intros [].
      - apply keeps_any. intros _. apply DE, W.
      - eapply keeps_bind; [apply stay_expand, W|]. intros e' W'. cbv beta in W'. apply stay_build; [exact W'|]. intros. rewrite kept_build, W'. reflexivity.
    Qed.
    Lemma stay_parent_local l : kl l = true -> keeps (ok kl) (expand_parent_local ta R l).
    Proof.
      intros W. destruct l as [a p t i d]. rewrite kept_local_eq in W. cbn [fold_local] in W. rewrite !andb_true_iff in W. destruct W as (W & Z1 & Z2). unfold expand_parent_local. apply keeps_any. intros t'.
      apply keeps_any. destruct St as (_ & _ & _ & _ & DE & _). intros [].
      - apply keeps_any. intros _. apply walk_local_full; [|exact DE]. rewrite kept_local_eq. cbn [fold_local]. rewrite W. rewrite Z1, Z2. reflexivity.
      - destruct i as [e|]; [|apply keeps_any; intros _; apply keeps_ret; rewrite kept_local_eq; cbn [fold_local]; rewrite W, Z1, Z2; reflexivity].
        eapply keeps_bind; [apply stay_expand; eassumption|]. intros e1 W1. cbv beta in W1.
        eapply (keeps_bind (ok ke)); [apply stay_build; [exact W1|intros; rewrite kept_build, W1; reflexivity]|]. intros e2 W2. apply keeps_ret.
        rewrite kept_local_eq. cbn [fold_local fold_opt]. cbv beta in W2. rewrite W, W2, Z2. reflexivity.
    Qed.
    Lemma stay_parent_stmt s : match s with SItem _ => False | _ => True end -> ks s = true -> keeps (ok ks) (expand_parent_stmt ta R s).
    Proof.
      intros NI W. destruct s as [l|i|e semi|a m semi]; [|contradiction| |]; cbn [expand_parent_stmt].
      - eapply keeps_bind; [apply stay_parent_local, W|]. intros. apply keeps_ret. assumption.
      - eapply keeps_bind; [apply stay_parent, W|]. intros. apply keeps_ret. assumption.
      - apply keeps_ret. reflexivity.
    Qed.

    Lemma stay_vs_expr V e semi : ke e = true ->
      (forall z, ke z = true -> keeps (ok ke) (on_expr V z)) -> (forall z, ks z = true -> keeps (ok ks) (on_stmt V z)) ->
      (forall z, ka z = true -> keeps (ok ka) (on_arm V z)) -> keeps (ok ke) (vs_visit_expr hash ta R V e semi).
    Proof.
      intros W HE HS HA. unfold vs_visit_expr. destruct (find_remove_attr (e_attrs e) NAME) as [[q l]|] eqn:E; [|apply walk_kept; assumption].
      destruct (kept_remove _ _ _ E (kept_attrs _ W)) as [_ L]. apply keeps_any. intros r.
      eapply keeps_bind; [apply walk_kept; eauto; apply kept_set; assumption|]. intros e1 W1. destruct r.
      - apply keeps_any. intros _. apply keeps_ret. exact W1.
      - apply stay_child. apply stay_parent. exact W1.
    Qed.
    Lemma stay_vs_stmt V s : ks s = true ->
      (forall z, ke z = true -> keeps (ok ke) (on_expr V z)) -> (forall z, ks z = true -> keeps (ok ks) (on_stmt V z)) ->
      (forall z, ka z = true -> keeps (ok ka) (on_arm V z)) -> (forall z, kl z = true -> keeps (ok kl) (on_local V z)) ->
      keeps (ok ks) (vs_visit_stmt hash ta R V s).
    Proof.
      intros W HE HS HA HL. destruct s as [[a p t i d]|i|e semi|a m semi]; cbn [vs_visit_stmt].
      - assert (WS : forall a', kl (Local a' p t i d) = true -> keeps (fun z => ks z = true /\ match z with SItem _ => False | _ => True end) (walk_stmt (on_expr V) (on_local V) (SLocal (Local a' p t i d)))).
        { intros a' X. cbn [walk_stmt]. eapply keeps_bind; [apply HL, X|]. intros. apply keeps_ret. auto. }
        destruct (find_remove_attr a NAME) as [[q l]|] eqn:E; [|eapply keeps_weak; [apply WS, W|intros z X; apply X]].
        change (kl (Local a p t i d) = true) in W. rewrite kept_local_eq in W. apply andb_true_iff in W. destruct W as [W0 W1].
        destruct (kept_remove _ _ _ E W0) as [_ L]. apply keeps_any. intros r.
        eapply keeps_bind; [apply WS; rewrite kept_local_eq; cbn [snd] in L; rewrite L; exact W1|]. intros s [Ws NI]. destruct r.
        + apply keeps_any. intros _. apply keeps_ret. exact Ws.
        + apply stay_child. apply stay_parent_stmt; assumption.
      - apply keeps_ret. reflexivity.
      - eapply keeps_bind; [apply stay_vs_expr; [exact W|..]; assumption|]. intros. apply keeps_ret. assumption.
      - cbn [walk_stmt]. apply keeps_ret. reflexivity.
    Qed.
  End Parents.

  Lemma stay_unless {A} (P : A -> Prop) z m : P z -> keeps P m -> keeps P (unless_error z m).
  Proof. intros W K. unfold unless_error. apply keeps_any. intros []; [apply keeps_ret; exact W|exact K]. Qed.
  Lemma stay_fuel {A} (P : A -> Prop) : keeps P (@out_of_fuel A).
  Proof. intros cx a c E. discriminate E. Qed.
  Lemma kept_arm_eq a p g b c : ka (Arm a p g b c) = fold_opt true ke g && ke b.
  Proof. reflexivity. Qed.

  Lemma stays_all hash ta n : stays (engine hash ta n).
  Proof.
    induction n as [|n IH]; [repeat split; intros; apply stay_fuel|].
    pose proof IH as St. destruct IH as (VE & VS & VA & VL & DE & DS). unfold stays. cbn [engine step r_vexpr r_vstmt r_varm r_vlocal r_dexpr r_dstmt].
    repeat split; intros; apply stay_unless; try assumption.
    - unfold visit_expr. apply keeps_any. intros _. apply keeps_any. intros _. set (sc' := check_expr _ e). clearbody sc'.
      apply keeps_any. intros mode. apply (keeps_bind (ok ke)).
      { destruct mode; [apply keeps_ret; assumption|apply kept_by_return; assumption|apply kept_by_try; assumption]. }
      intros e1 W1. apply (keeps_bind (ok ke)).
      { destruct (sc_foreign sc'); [apply keeps_ret; exact W1|].
        destruct (find_remove_attr (e_attrs e1) NESTED) as [[q l]|] eqn:E; [|apply keeps_ret; exact W1].
        apply kept_by_nested. apply kept_set; [exact W1|]. apply (kept_remove _ _ _ E), kept_attrs, W1. }
      intros e2 W2. apply (keeps_bind (ok ke)).
      { apply stay_vs_expr; [exact St|exact W2|..]; cbn [v_vis on_expr on_stmt on_arm]; auto. intros; apply VE; assumption. }
      intros e3 W3. apply keeps_any. intros cur. destruct (_ || _); [|apply keeps_ret; exact W3].
      apply (keeps_bind (ok ke)); [apply stay_macro, W3|]. intros e4 W4. apply stay_attrs_expr, W4.
    - unfold visit_stmt. assert (G : forall sc, keeps (ok ks) (note_child (s_attrs s) ;;; vs_visit_stmt hash ta (engine hash ta n) (v_vis (engine hash ta n) sc) s)).
      { intros sc'. apply keeps_any. intros _. apply stay_vs_stmt; [exact St|assumption|..]; cbn [v_vis on_expr on_stmt on_arm on_local]; auto. intros; apply VE; assumption. }
      destruct s; try apply G. eapply keeps_bind; [apply VE; eassumption|]. intros. apply keeps_ret. assumption.
    - destruct z as [a p g b c]. unfold visit_arm. apply (keeps_bind (ok ka)).
      { destruct (sc_foreign sc); [apply keeps_ret; assumption|]. destruct (find_remove_attr a NESTED) as [[q l]|]; [|apply keeps_ret; assumption].
        rewrite kept_arm_eq in H. split_and. eapply keeps_bind; [apply kept_by_nested; eassumption|]. intros b' Wb. cbv beta in Wb. apply keeps_ret. rewrite kept_arm_eq, H, Wb. reflexivity. }
      intros z W. apply (keeps_bind (ok ka)); [apply walk_arm_kept; [exact W|intros; apply VE; assumption]|]. intros [a' p' g' b' c'] W'.
      apply keeps_any. intros. apply keeps_ret. exact W'.
    - destruct z as [a p t i d]. unfold visit_local. apply (keeps_bind (ok kl)).
      { destruct (sc_foreign sc); [apply keeps_ret; assumption|]. destruct (find_remove_attr a NESTED) as [[q l]|] eqn:E; [|apply keeps_ret; assumption].
        rewrite kept_local_eq in H. cbn [fold_local] in H. split_and. eapply keeps_bind; [apply keeps_optM; [|eassumption]|].
        { destruct i; cbn; auto. intros; apply kept_by_nested; assumption. }
        intros i' Wi. cbv beta in Wi. apply keeps_ret. rewrite kept_local_eq. cbn [fold_local]. rewrite Wi, Z0.
        destruct (kept_remove _ _ _ E H) as [_ L]. cbn [snd] in L. rewrite L. reflexivity. }
      intros z W. apply (keeps_bind (ok kl)); [apply walk_local_full; [exact W|intros; apply VE; assumption]|]. intros [a' p' t' i' d'] W'.
      rewrite kept_local_eq in W'. apply andb_true_iff in W'. destruct W' as [W0 W1].
      eapply keeps_bind; [apply stay_attrs, W0|]. intros a2 W2. apply keeps_ret. rewrite kept_local_eq. cbv beta in W2. rewrite W2. exact W1.
    - unfold dummy_expr. apply keeps_any. intros _. apply stay_vs_expr; [exact St|assumption|..]; cbn [d_vis on_expr on_stmt on_arm]; auto. intros. apply walk_arm_kept; assumption.
    - unfold dummy_stmt. apply keeps_any. intros _. apply stay_vs_stmt; [exact St|assumption|..]; cbn [d_vis on_expr on_stmt on_arm on_local]; auto.
      + intros. apply walk_arm_kept; assumption.
      + intros. apply walk_local_full; assumption.
  Qed.
End Stay.
