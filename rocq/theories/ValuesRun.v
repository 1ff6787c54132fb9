(** Executions of code and of the same code with some of its values in variants of an enum. *)

Require Import Coq.Strings.String Coq.Lists.List Coq.Bool.Bool Coq.Arith.Arith Lia.
Require Import Verif.Syntax Verif.AstInd Verif.ExprModel Verif.Edits Verif.NoValueSpec Verif.Tails Verif.TwinEdits Verif.Loops Verif.LoopsRun Verif.Changes Verif.Branches Verif.BranchesRun Verif.ChangesInd Verif.ChangesTop Verif.CleanRun Verif.BranchesClean
  Verif.Excused Verif.Values Verif.Eval Verif.EvalRun Verif.NoValueEval.
Import ListNotations.
Open Scope string_scope.
Open Scope list_scope.

Lemma kids_parts (Re : list string -> expr -> expr -> Prop) (Rs : list string -> stmt -> stmt -> Prop) (Ra : list string -> arm -> arm -> Prop) e :
  kids (fun x => Re [] x x) (fun s => Rs [] s s) (fun a => Ra [] a a) e -> parts Re Rs Ra [] e e.
Proof.
  assert (L : forall (A : Type) (R : list string -> A -> A -> Prop) b, Forall (fun x => R [] x x) b -> seq2 R [] b b).
  { intros A R b H. induction H as [|x b H _ IH]; [constructor|]. change (@nil string) with (@nil string ++ []). constructor; assumption. }
  assert (M : forall o, opt_all (fun x => Re [] x x) o -> maybe2 Re [] o o) by (intros []; cbn; intros; constructor; assumption).
  assert (A2 : forall P : list string -> Prop, P ([] ++ []) -> P []) by auto.
  destruct e; cbn [kids]; intros K; repeat match goal with H : _ /\ _ |- _ => destruct H end;
    try (constructor; auto; fail);
    try (change (@nil string) with (@nil string ++ []); constructor; auto; fail).
  change (@nil string) with (@nil string ++ ([] ++ [])). constructor; auto.
Qed.

(** Parts with a condition on the first one. *)
Lemma parts_with (Re Qe : list string -> expr -> expr -> Prop) (Rs Qs : list string -> stmt -> stmt -> Prop) (Ra Qa : list string -> arm -> arm -> Prop)
    (Ke : expr -> Prop) (Ks : stmt -> Prop) (Ka : arm -> Prop) t e e' :
  (forall t x x', Re t x x' -> Ke x -> Qe t x x') -> (forall t x x', Rs t x x' -> Ks x -> Qs t x x') -> (forall t x x', Ra t x x' -> Ka x -> Qa t x x') ->
  kids Ke Ks Ka e -> parts Re Rs Ra t e e' -> parts Qe Qs Qa t e e'.
Proof.
  intros He Hs Ha K H.
  assert (LE : forall t b b', seq2 Re t b b' -> Forall Ke b -> seq2 Qe t b b') by (induction 1; intros F; inversion F; subst; constructor; auto).
  assert (LS : forall t b b', seq2 Rs t b b' -> Forall Ks b -> seq2 Qs t b b') by (induction 1; intros F; inversion F; subst; constructor; auto).
  assert (LA : forall t b b', seq2 Ra t b b' -> Forall Ka b -> seq2 Qa t b b') by (induction 1; intros F; inversion F; subst; constructor; auto).
  assert (LO : forall t b b', maybe2 Re t b b' -> opt_all Ke b -> maybe2 Qe t b b') by (destruct 1; cbn; intros F; constructor; auto).
  destruct H; cbn [kids] in K; repeat match goal with H : _ /\ _ |- _ => destruct H end; constructor; auto.
Qed.
Lemma kids_and (Ke Ke' : expr -> Prop) (Ks Ks' : stmt -> Prop) (Ka Ka' : arm -> Prop) e : kids Ke Ks Ka e -> kids Ke' Ks' Ka' e ->
  kids (fun x => Ke x /\ Ke' x) (fun x => Ks x /\ Ks' x) (fun x => Ka x /\ Ka' x) e.
Proof.
  assert (L : forall (A : Type) (P Q : A -> Prop) b, Forall P b -> Forall Q b -> Forall (fun x => P x /\ Q x) b)
    by (intros A P Q b H1 H2; rewrite Forall_forall in *; auto).
  assert (M : forall (P Q : expr -> Prop) o, opt_all P o -> opt_all Q o -> opt_all (fun x => P x /\ Q x) o) by (intros ? ? []; cbn; auto).
  destruct e; cbn [kids]; intros K1 K2; repeat match goal with H : _ /\ _ |- _ => destruct H end; repeat split; auto.
Qed.
Lemma kids_true ce cs ca e : fold_expr andb true ce cs ca e = true -> kids (fun x => ce x = true) (fun x => cs x = true) (fun x => ca x = true) e.
Proof.
  assert (L : forall (A : Type) (f : A -> bool) b, fold_list andb true f b = true -> Forall (fun x => f x = true) b).
  { intros A f b. induction b as [|x b IH]; [constructor|]. cbn. intros H. apply andb_true_iff in H. destruct H. constructor; auto. }
  assert (M : forall o, fold_opt true ce o = true -> opt_all (fun x => ce x = true) o) by (intros []; cbn; auto).
  destruct e; cbn [kids fold_expr]; intros H; repeat match goal with H : _ && _ = true |- _ => apply andb_true_iff in H; destruct H end; repeat split; auto.
Qed.
Lemma kids_nil {A} (ce : expr -> list A) cs ca e : fold_expr (@app _) [] ce cs ca e = [] -> kids (fun x => ce x = []) (fun x => cs x = []) (fun x => ca x = []) e.
Proof.
  assert (L : forall (B : Type) (f : B -> list A) b, fold_list (@app _) [] f b = [] -> Forall (fun x => f x = []) b).
  { intros B f b. induction b as [|x b IH]; [constructor|]. cbn. intros H. apply app_eq_nil in H. destruct H. constructor; auto. }
  assert (M : forall o, fold_opt [] ce o = [] -> opt_all (fun x => ce x = []) o) by (intros []; cbn; auto).
  destruct e; cbn [kids fold_expr]; intros H; repeat match goal with H : _ ++ _ = [] |- _ => apply app_eq_nil in H; destruct H end; repeat split; auto.
Qed.

(** Closures and [async] blocks. *)
Definition apart (e : expr) : bool := match e with EClosure _ _ _ | EBlk KAsync _ _ => true | _ => false end.
Lemma quiet_kids l p e : break_list l p e = [] -> apart e = false ->
  kids (fun x => exists q, break_list l q x = []) (fun x => exists q, break_list_stmt l q x = []) (fun x => exists q, break_list_arm l q x = []) e
  /\ match e with EBreak _ _ _ => False | _ => True end.
Proof.
  intros H A.
  assert (X : forall q, fold_expr (@app _) [] (break_list l q) (break_list_stmt l q) (break_list_arm l q) e = [] ->
    kids (fun x => exists q, break_list l q x = []) (fun x => exists q, break_list_stmt l q x = []) (fun x => exists q, break_list_arm l q x = []) e).
  { intros q E. apply kids_nil in E. revert E. apply kids_map; eauto. }
  destruct e; cbn [break_list e_attrs apart] in *; try discriminate; try (split; [|exact I]; eapply X; exact H).
  - destruct k; try discriminate; (split; [|exact I]; eapply X; exact H).
  - split; [|exact I]. apply app_eq_nil in H. destruct H as [H1 H2]. cbn [kids]. split; [eauto|].
    match type of H2 with fold_list _ _ (break_list_stmt l ?q) ?b = _ =>
      change (fold_expr (@app _) [] (break_list l q) (break_list_stmt l q) (break_list_arm l q) (EBlock [] None b) = []) in H2;
      pose proof (kids_nil _ _ _ _ H2) as Z end. cbn [kids] in Z. revert Z. apply Forall_impl. eauto.
Qed.

Section Tidy.
  Variables (m : string) (x : Changes.takes).
  Lemma tidy_apart e : apart e = true -> tidy m x e = clean m x e.
  Proof. destruct e; try discriminate; [destruct k; try discriminate|]; reflexivity. Qed.
  Lemma tidy_help e : tidy m x e = true -> no_help (e_attrs e) = true.
  Proof.
    intros H. destruct (apart e) eqn:A.
    - rewrite (tidy_apart _ A) in H. apply clean_split in H. destruct H as [H _]. apply andb_true_iff in H. tauto.
    - destruct e; try discriminate; try (destruct k; try discriminate); apply andb_true_iff in H; destruct H as [H _]; apply andb_true_iff in H; tauto.
  Qed.
  Lemma tidy_kids e : tidy m x e = true -> apart e = false ->
    match e with ETry _ _ => x <> TakesReturns | EMacro _ (Mac p _) => is_ident p m = false | _ => True end
     /\ kids (fun e => tidy m x e = true) (fun s => tidy_stmt m x s = true) (fun y => tidy_arm m x y = true) e.
  Proof.
    intros H A. assert (X : fold_expr andb true (tidy m x) (tidy_stmt m x) (tidy_arm m x) e = true).
    { destruct e; try discriminate; try (destruct k; try discriminate); apply andb_true_iff in H; destruct H as [_ H]; exact H. }
    split; [|apply kids_true; exact X]. destruct e; try exact I; apply andb_true_iff in H; destruct H as [H _]; apply andb_true_iff in H; destruct H as [_ H].
    - intros ->. discriminate.
    - destruct m0. destruct (is_ident p m); [discriminate|reflexivity].
  Qed.
End Tidy.

Lemma kids_false ce cs ca e : kids (fun x => ce x = false) (fun x => cs x = false) (fun x => ca x = false) e -> fold_expr orb false ce cs ca e = false.
Proof.
  assert (L : forall (A : Type) (f : A -> bool) b, Forall (fun x => f x = false) b -> fold_list orb false f b = false).
  { intros A f b H. induction H as [|x b H1 H2 IH]; [reflexivity|]. cbn. rewrite H1. exact IH. }
  assert (M : forall o, opt_all (fun x => ce x = false) o -> fold_opt false ce o = false) by (intros []; cbn; auto).
  destruct e; cbn [kids fold_expr]; intros H; repeat match goal with H : _ /\ _ |- _ => destruct H end;
    repeat (apply orb_false_iff; split); auto.
Qed.

(** No [#[nested]] in such code. *)
Lemma plain_not name a : attr_named name a = false -> attr_plain name a = false.
Proof.
  intros H. destruct (attr_plain name a) eqn:E; [|reflexivity]. apply plain_iff in E. apply has_plain_named in E. congruence.
Qed.
Lemma tidy_nested m :
  (forall e, (forall x, clean m x e = true -> nested_in e = false) /\ (forall x, tidy m x e = true -> nested_in e = false))
  /\ (forall s, (forall x, clean_stmt m x s = true -> nested_in_stmt s = false) /\ (forall x, tidy_stmt m x s = true -> nested_in_stmt s = false))
  /\ (forall s, (forall x, clean_arm m x s = true -> nested_in_arm s = false) /\ (forall x, tidy_arm m x s = true -> nested_in_arm s = false))
  /\ (forall s, (forall x, clean_local m x s = true -> nested_in_local s = false) /\ (forall x, tidy_local m x s = true -> nested_in_local s = false)).
Proof.
  set (Pe e := (forall x, clean m x e = true -> nested_in e = false) /\ (forall x, tidy m x e = true -> nested_in e = false)).
  set (Ps s := (forall x, clean_stmt m x s = true -> nested_in_stmt s = false) /\ (forall x, tidy_stmt m x s = true -> nested_in_stmt s = false)).
  set (Pa s := (forall x, clean_arm m x s = true -> nested_in_arm s = false) /\ (forall x, tidy_arm m x s = true -> nested_in_arm s = false)).
  set (Pl s := (forall x, clean_local m x s = true -> nested_in_local s = false) /\ (forall x, tidy_local m x s = true -> nested_in_local s = false)).
  assert (H : forall e, no_help (e_attrs e) = true -> kids (fun x => nested_in x = false) (fun x => nested_in_stmt x = false) (fun x => nested_in_arm x = false) e ->
    nested_in e = false).
  { intros e N K. destruct (no_help_named _ N) as (_ & B & _). apply plain_not in B. apply kids_false in K.
    destruct e; cbn [nested_in]; rewrite B, K; apply andb_false_r. }
  assert (K : forall e, kids Pe Ps Pa e -> Pe e).
  { intros e K. assert (C : forall x, clean m x e = true -> nested_in e = false).
    { intros x C. apply clean_split in C. destruct C as [C1 C2]. apply andb_true_iff in C1. apply H; [tauto|].
      pose proof (kids_and _ _ _ _ _ _ _ K (kids_true _ _ _ _ C2)) as K1. revert K1. apply kids_map; intros y [[Q _] Z]; eapply Q; exact Z. }
    split; [exact C|]. intros x T. destruct (apart e) eqn:A; [rewrite (tidy_apart _ _ _ A) in T; eapply C; exact T|].
    apply H; [eapply tidy_help; exact T|]. destruct (tidy_kids _ _ _ T A) as [_ T2].
    pose proof (kids_and _ _ _ _ _ _ _ K T2) as K1. revert K1. apply kids_map; intros y [[_ Q] Z]; eapply Q; exact Z. }
  assert (OC : forall x o, opt_all Pe o -> fold_opt true (clean m x) o = true -> fold_opt false nested_in o = false).
  { intros x [e|]; cbn; [|auto]. intros [Q _] C. eapply Q. exact C. }
  assert (OT : forall x o, opt_all Pe o -> fold_opt true (tidy m x) o = true -> fold_opt false nested_in o = false).
  { intros x [e|]; cbn; [|auto]. intros [_ Q] C. eapply Q. exact C. }
  apply (ast_ind Pe Ps Pa Pl); intros; try (apply K; cbn [kids]; auto; fail).
  - split; intros x C; [exact (proj1 H0 x C)|exact (proj2 H0 x C)].
  - split; reflexivity.
  - split; intros x C; [exact (proj1 H0 x C)|exact (proj2 H0 x C)].
  - split; reflexivity.
  - split; intros x C; cbn in C; apply andb_true_iff in C; destruct C as [N C]; apply andb_true_iff in C; destruct C as [C1 C2];
      destruct (no_help_named _ N) as (_ & B & _); apply plain_not in B; cbn; rewrite B.
    + rewrite (OC x i), (OC x d) by assumption. apply andb_false_r.
    + rewrite (OT x i), (OT x d) by assumption. apply andb_false_r.
  - split; intros x C; cbn in C; apply andb_true_iff in C; destruct C as [N C]; apply andb_true_iff in C; destruct C as [C1 C2];
      destruct (no_help_named _ N) as (_ & B & _); apply plain_not in B; cbn; rewrite B.
    + rewrite (OC x g) by assumption. exact (proj1 H1 x C2).
    + rewrite (OT x g) by assumption. exact (proj2 H1 x C2).
Qed.

Lemma no_value_mono (p q : string -> Prop) : (forall s, p s -> q s) ->
  (forall e, no_value p e -> no_value q e) /\ (forall e, no_value_arms p e -> no_value_arms q e) /\ (forall e, no_value_stmt p e -> no_value_stmt q e).
Proof.
  intros H. assert (M : forall x, no_value_macro p x -> no_value_macro q x) by (intros [a o] [K|(s & K & E)]; [left; exact K|right; eauto]).
  apply (no_value_ind3 p (fun e _ => no_value q e) (fun e _ => no_value_arms q e) (fun e _ => no_value_stmt q e)); intros;
    try (constructor; auto; fail).
Qed.

Lemma true_kids ce cs ca e : kids (fun x => ce x = true) (fun x => cs x = true) (fun x => ca x = true) e -> fold_expr andb true ce cs ca e = true.
Proof.
  assert (L : forall (A : Type) (f : A -> bool) b, Forall (fun x => f x = true) b -> fold_list andb true f b = true).
  { intros A f b H. induction H as [|x b H1 H2 IH]; [reflexivity|]. cbn. rewrite H1. exact IH. }
  assert (M : forall o, opt_all (fun x => ce x = true) o -> fold_opt true ce o = true) by (intros []; cbn; auto).
  destruct e; cbn [kids fold_expr]; intros H; repeat match goal with H : _ /\ _ |- _ => destruct H end;
    repeat (apply andb_true_iff; split); auto.
Qed.
Lemma parts_right (Re : list string -> expr -> expr -> Prop) (Rs : list string -> stmt -> stmt -> Prop) (Ra : list string -> arm -> arm -> Prop)
    (Ke Qe : expr -> Prop) (Ks Qs : stmt -> Prop) (Ka Qa : arm -> Prop) t e e' :
  (forall t x x', Re t x x' -> Ke x -> Qe x') -> (forall t x x', Rs t x x' -> Ks x -> Qs x') -> (forall t x x', Ra t x x' -> Ka x -> Qa x') ->
  kids Ke Ks Ka e -> parts Re Rs Ra t e e' -> kids Qe Qs Qa e'.
Proof.
  intros He Hs Ha K H.
  assert (LE : forall t b b', seq2 Re t b b' -> Forall Ke b -> Forall Qe b') by (induction 1; intros F; inversion F; subst; constructor; eauto).
  assert (LS : forall t b b', seq2 Rs t b b' -> Forall Ks b -> Forall Qs b') by (induction 1; intros F; inversion F; subst; constructor; eauto).
  assert (LA : forall t b b', seq2 Ra t b b' -> Forall Ka b -> Forall Qa b') by (induction 1; intros F; inversion F; subst; constructor; eauto).
  assert (LO : forall t b b', maybe2 Re t b b' -> opt_all Ke b -> opt_all Qe b') by (destruct 1; cbn; intros F; eauto).
  destruct H; cbn [kids] in *; repeat match goal with H : _ /\ _ |- _ => destruct H end; repeat split; eauto.
Qed.

Section TidyAfter.
  Variables (m : string) (x : Changes.takes).
  Lemma tidy_join e : apart e = false -> no_help (e_attrs e) = true ->
    match e with ETry _ _ => x <> TakesReturns | EMacro _ (Mac p _) => is_ident p m = false | _ => True end ->
    kids (fun e => tidy m x e = true) (fun s => tidy_stmt m x s = true) (fun y => tidy_arm m x y = true) e -> tidy m x e = true.
  Proof.
    intros A N H K. apply true_kids in K.
    assert (G : forall b, b = true -> no_help (e_attrs e) && b && fold_expr andb true (tidy m x) (tidy_stmt m x) (tidy_arm m x) e = true) by (intros b ->; rewrite N, K; reflexivity).
    destruct e; try discriminate; try (destruct k; try discriminate); try (apply (G true); reflexivity); apply G.
    - destruct x; congruence.
    - destruct m0. rewrite H. reflexivity.
  Qed.
  Lemma tidy_wrap own v e : tidy m x e = true -> tidy m x (wrap own v e) = true.
  Proof. intros H. apply tidy_join; try reflexivity. unfold wrap. cbn [kids]. split; [reflexivity|]. constructor; [exact H|constructor]. Qed.
  Lemma tidy_operand o : opt_all (fun e => tidy m x e = true) o -> tidy m x (operand o) = true.
  Proof. destruct o; cbn; auto. Qed.

  Section Breaks.
  Variables (own : string) (mp : string -> Prop) (l : option string).
  Definition stays_tidy {A} (f : A -> bool) (R : bool -> list string -> A -> A -> Prop) (y : A) : Prop :=
    f y = true -> forall inner t y', R inner t y y' -> f y' = true.
  Lemma breaks_tidy :
    (forall e, stays_tidy (tidy m x) (breaks own mp l) e)
    /\ (forall s, stays_tidy (tidy_stmt m x) (breaks_stmt own mp l) s)
    /\ (forall y, stays_tidy (tidy_arm m x) (breaks_arm own mp l) y)
    /\ (forall y, stays_tidy (tidy_local m x) (breaks_local own mp l) y).
  Proof.
    set (Pe := stays_tidy (tidy m x) (breaks own mp l)). set (Ps := stays_tidy (tidy_stmt m x) (breaks_stmt own mp l)).
    set (Pa := stays_tidy (tidy_arm m x) (breaks_arm own mp l)). set (Pl := stays_tidy (tidy_local m x) (breaks_local own mp l)).
    assert (PA : forall inner t e e', kids Pe Ps Pa e -> apart e = false -> tidy m x e = true ->
      parts (breaks own mp l inner) (breaks_stmt own mp l inner) (breaks_arm own mp l inner) t e e' -> tidy m x e' = true).
    { intros inner t e e' K A T H. destruct (tidy_kids _ _ _ T A) as (T1 & T2). pose proof (kids_and _ _ _ _ _ _ _ K T2) as K1.
      assert (K2 : kids (fun e => tidy m x e = true) (fun s => tidy_stmt m x s = true) (fun y => tidy_arm m x y = true) e').
      { eapply parts_right; [| | |exact K1|exact H]; cbn; intros t0 y y' R (Q & Z); exact (Q Z _ _ _ R). }
      pose proof (tidy_help _ _ _ T) as N. apply tidy_join; [| | |exact K2].
      - destruct H; try reflexivity; try exact A.
      - rewrite (parts_attrs _ _ _ _ _ _ H). exact N.
      - destruct H; try exact I; exact T1. }
    assert (K : forall e, kids Pe Ps Pa e -> Pe e).
    { intros e K T inner t e' H. destruct (apart e) eqn:A.
      { assert (e' = e) as ->; [|exact T]. destruct H; try reflexivity; try discriminate; destruct e; try discriminate; destruct k; discriminate. }
      destruct (tidy_kids _ _ _ T A) as (T1 & T2). pose proof (tidy_help _ _ _ T) as N.
      destruct H as [inner e NV|inner a ps e|inner a b|inner e L IL|inner t e e' NV L IL PT|inner v a l' NV LV|inner v t a l' e e' NV LV NM H
                    |inner t a l' e e' NV LV NM H|inner t a l' o o' NV NL H|inner t e e' NV PL PT]; try exact T; try (eapply PA; eassumption);
        (apply tidy_join; [reflexivity|exact N|exact I|]); cbn [kids opt_all] in *.
      all: try (apply tidy_wrap). all: try reflexivity. all: try exact (K T2 _ _ _ H).
      destruct H as [|t0 y y' H]; cbn in *; [exact I|]. exact (K T2 _ _ _ H). }
    assert (OP : forall inner t o o', opt_all Pe o -> maybe2 (breaks own mp l inner) t o o' -> fold_opt true (tidy m x) o = true -> fold_opt true (tidy m x) o' = true).
    { intros inner t o o' H M. destruct M as [|t e e' M]; cbn; [auto|]. intros T. exact (H T _ _ _ M). }
    apply (ast_ind Pe Ps Pa Pl); intros; try (apply K; cbn [kids]; auto; fail).
    - intros T inner t s' B. inversion B as [? ? ? ? B1]; subst. inversion B1; subst. eapply H; eassumption.
    - intros T inner t s' B. inversion B as [? ? ? ? B1]; subst. inversion B1; subst. exact T.
    - intros T inner t s' B. inversion B as [? ? ? ? B1]; subst. inversion B1; subst. eapply H; eassumption.
    - intros T inner t s' B. inversion B as [? ? ? ? B1]; subst. inversion B1; subst. exact T.
    - intros T inner t0 s' B. inversion B as [? ? ? ? B1]; subst. inversion B1; subst.
      cbn in T. apply andb_true_iff in T. destruct T as [N T]. apply andb_true_iff in T. destruct T as [T1 T2].
      match goal with H1 : maybe2 _ _ i _, H2 : maybe2 _ _ d _ |- _ => pose proof (OP _ _ _ _ H H1 T1) as Q1; pose proof (OP _ _ _ _ H0 H2 T2) as Q2 end.
      cbn. rewrite N. cbn [andb]. apply andb_true_iff. split; [exact Q1|exact Q2].
    - intros T inner t0 s' B. inversion B as [? ? ? ? B1]; subst. inversion B1; subst.
      cbn in T. apply andb_true_iff in T. destruct T as [N T]. apply andb_true_iff in T. destruct T as [T1 T2].
      match goal with H1 : maybe2 _ _ g _, H2 : breaks _ _ _ _ _ b _ |- _ => pose proof (OP _ _ _ _ H H1 T1) as Q1; pose proof (H0 T2 _ _ _ H2) as Q2 end.
      cbn. rewrite N. cbn [andb]. apply andb_true_iff. split; [exact Q1|exact Q2].
  Qed.
  End Breaks.

  Variables (own : string) (mp : string -> Prop).
  Lemma branch_tidy t b b' : branch_wrapped own mp t b b' -> Forall (fun s => tidy_stmt m x s = true) b -> Forall (fun s => tidy_stmt m x s = true) b'.
  Proof.
    intros H T. destruct H; [exact T|]. constructor; [|constructor]. apply tidy_wrap. apply tidy_join; try reflexivity. exact T.
  Qed.
  Lemma if_tidy t e e' : if_wrapped own mp t e e' -> tidy m x e = true -> tidy m x e' = true.
  Proof.
    intros H. induction H as [t1 t2 a c b1 b1' ea l b2 b2' H1 H2|t1 t2 a c b1 b1' e2 e2' H1 H2 IH]; intros T; pose proof (tidy_help _ _ _ T) as N;
      destruct (tidy_kids _ _ _ T eq_refl) as (_ & T0 & T1 & T2); cbn [opt_all] in T2; (apply tidy_join; [reflexivity|exact N|exact I|]); cbn [kids opt_all];
      (split; [exact T0|split; [eapply branch_tidy; eassumption|]]).
    - pose proof (tidy_help _ _ _ T2) as N2. destruct (tidy_kids _ _ _ T2 eq_refl) as (_ & T3). apply tidy_join; [reflexivity|exact N2|exact I|].
      eapply branch_tidy; eassumption.
    - auto.
  Qed.
  Lemma tail_tidy t e e' : tail own mp t e e' -> tidy m x e = true -> tidy m x e' = true.
  Proof.
    intros H. induction H as [e N|e BL|t a s y y' NV A|t a c b o e' NV I|t a l b b' NV B|t a l r e e' NV H IH|t a r e e' NV H IH|t a e e' q l NV H IH|t a e e' NV H IH];
      intros T; try exact T; [|eapply if_tidy; eassumption|..]; pose proof (tidy_help _ _ _ T) as N;
      destruct (tidy_kids _ _ _ T eq_refl) as (_ & K); cbn [kids] in K; (apply tidy_join; [reflexivity|exact N|exact I|]); cbn [kids].
    - destruct K as [K1 K2]. split; [exact K1|]. clear -A K2. induction A; constructor; inversion K2; subst; [|auto].
      match goal with H : arm_wrapped _ _ _ _ _ |- _ => destruct H end; [assumption|].
      rename H2 into Q. cbn in Q. apply andb_true_iff in Q. destruct Q as [N Q]. apply andb_true_iff in Q. destruct Q as [G Q].
      pose proof (tidy_wrap own v b Q) as Z. cbn [tidy_arm fold_arm]. rewrite N. cbn [andb]. apply andb_true_iff. split; [exact G|exact Z].
    - clear -B K. induction B; constructor; inversion K; subst; [|auto]. eapply breaks_tidy; eassumption.
    - apply Forall_app in K. destruct K as [K1 K2]. inversion K2; subst. apply Forall_app. split; [exact K1|]. constructor; [|constructor]. exact (IH H2).
    - apply Forall_app in K. destruct K as [K1 K2]. inversion K2; subst. apply Forall_app. split; [exact K1|]. constructor; [|constructor]. exact (IH H2).
    - destruct K as [K1 K2]. split; auto.
    - auto.
  Qed.
End TidyAfter.

Lemma all_length {A} (R : A -> A -> Prop) l l' : Forall2 R l l' -> length l = length l'.
Proof. induction 1; cbn; congruence. Qed.

Inductive mode := Plain (b : bool) | Errs.
Coercion Plain : bool >-> mode.

Section Exact.
  Context {W : Type} (O : ops W) (mk : string -> bool) (k : nat) (self : expr -> env -> W -> result W).
  Variable own : string.
  Hypothesis GEN : gen_name own = true.

  Notation ev := (ev W O mk k self).
  Notation ev_stmt := (ev_stmt W O mk k self).
  Notation ev_local := (ev_local W O mk k self).
  Notation ev_arm := (ev_arm W O mk k self).
  Notation ev_stmts := (ev_stmts W ev_stmt).
  Notation ev_arms := (ev_arms W ev_arm).

  (** ** Results *)

  (** The value itself, or the value in a variant. *)
  Definition lift (b : bool) (x x' : value) : Prop := if b then exists v, x' = VWrap own v x else x' = x.

  (** Of the values of a [return]: as above, or [Ok(x)] itself and [Err(x)] with [x] in a variant. *)
  Definition rlift (rt : mode) (x x' : value) : Prop :=
    match rt with
    | Plain b => lift b x x'
    | Errs => (exists y, x = VCon "Ok" y /\ x' = x) \/ (exists y v, x = VCon "Err" y /\ x' = VCon "Err" (VWrap own v y))
    end.

  Section Modes.
    (** Whether normal values, the values of a [break] and those of a [return] are in variants. *)
    Variables (tl : bool) (lv : option string -> bool) (rt : mode).

    Inductive lifts : result W -> result W -> Prop :=
    | lf_norm x x' w : lift tl x x' -> lifts (ONorm x, w) (ONorm x', w)
    | lf_break l x x' w : lift (lv l) x x' -> lifts (OBreak l x, w) (OBreak l x', w)
    | lf_cont l w : lifts (OCont l, w) (OCont l, w)
    | lf_ret x x' w : rlift rt x x' -> lifts (ORet x, w) (ORet x', w)
    | lf_panic w : lifts (OPanic, w) (OPanic, w)
    | lf_fuel w : lifts (OFuel, w) (OFuel, w)
    | lf_stuck w : lifts (OStuck, w) (OStuck, w).

    Inductive slifts : sres W -> sres W -> Prop :=
    | sl_go bs x x' w : lift tl x x' -> slifts (SGo _ bs x w) (SGo _ bs x' w)
    | sl_out o o' w : (forall x, o <> ONorm x) -> lifts (o, w) (o', w) -> slifts (SOut _ o w) (SOut _ o' w).
    Inductive alifts : ares W -> ares W -> Prop :=
    | al_take r r' : lifts r r' -> alifts (ATake _ r) (ATake _ r')
    | al_next w : alifts (ANext _ w) (ANext _ w).
  End Modes.

  Definition none : option string -> bool := fun _ => false.

  Lemma lift_size x v : x <> VWrap own v x.
  Proof.
    revert v. induction x; intros w H; try discriminate. injection H as <- <- H. exact (IHx _ H).
  Qed.

  Lemma lifts_eq r r' : lifts false none false r r' <-> r' = r.
  Proof.
    split; [destruct 1; cbn in *; subst; reflexivity|]. intros ->. destruct r as [[] w]; constructor; reflexivity.
  Qed.

  (** The value of a normal end does not matter if there is none. *)
  Lemma lifts_any tl tl' lv rt r r' : lifts tl lv rt r r' -> ~ (exists x w, r = (ONorm x, w)) -> lifts tl' lv rt r r'.
  Proof. intros H N. destruct H; try (constructor; assumption). exfalso. apply N. eauto. Qed.

  (** One after the other. *)
  Lemma lifts_trans tl lv rt a b c : lifts tl lv false a b -> lifts false none rt b c -> lifts tl lv rt a c.
  Proof.
    intros H1 H2. destruct H1; inversion H2; subst; constructor; cbn in *; subst; try assumption.
  Qed.

  Lemma lifts_bnd tl lv rt r r' f f' : lifts false lv rt r r' -> (forall x w, lifts tl lv rt (f x w) (f' x w)) ->
    lifts tl lv rt (bnd _ r f) (bnd _ r' f').
  Proof. intros H F. destruct H; cbn in *; subst; try (constructor; assumption). apply F. Qed.

  Lemma lifts_iterate lv lv' rt n own' f f' w :
    (forall w1, lifts false lv' rt (f w1) (f' w1)) ->
    (forall l, catches own' l = true -> lv' l = false) -> (forall l, catches own' l = false -> lv' l = lv l) ->
    lifts false lv rt (iterate _ n own' f w) (iterate _ n own' f' w).
  Proof.
    intros F C1 C2. revert w. induction n as [|n IH]; intros w; cbn [iterate]; [constructor|].
    pose proof (F w) as S. destruct (f w) as [o u], (f' w) as [o' u']. inversion S as [x x' ? L|l x x' ? L|l|x x' ? L| | |]; subst; try (constructor; assumption); try apply IH.
    - destruct (catches own' l) eqn:E; constructor; [rewrite (C1 _ E) in L|rewrite (C2 _ E) in L]; assumption.
    - destruct (catches own' l); [apply IH|constructor].
  Qed.

  (** A loop whose value is in a variant. *)
  Lemma lifts_loop lv lv' rt n own' f f' w :
    (forall w1, lifts false lv' rt (f w1) (f' w1)) ->
    (forall l, catches own' l = true -> lv' l = true) -> (forall l, catches own' l = false -> lv' l = lv l) ->
    lifts true lv rt (iterate _ n own' f w) (iterate _ n own' f' w).
  Proof.
    intros F C1 C2. revert w. induction n as [|n IH]; intros w; cbn [iterate]; [constructor|].
    pose proof (F w) as S. destruct (f w) as [o u], (f' w) as [o' u']. inversion S as [x x' ? L|l x x' ? L|l|x x' ? L| | |]; subst; try (constructor; assumption); try apply IH.
    - destruct (catches own' l) eqn:E; constructor; [rewrite (C1 _ E) in L|rewrite (C2 _ E) in L]; assumption.
    - destruct (catches own' l); [apply IH|constructor].
  Qed.

  Lemma lifts_labelled tl lv rt l r r' : match l with Some y => lv (Some y) = tl | None => True end ->
    lifts tl lv rt r r' -> lifts tl lv rt (labelled _ l r) (labelled _ l r').
  Proof.
    intros C H. destruct l as [y|]; [|exact H]. destruct H as [| l x x' w L| | | | |]; cbn; try (constructor; assumption).
    destruct l as [z|]; [|constructor; assumption]. destruct (z =? y) eqn:E; [|constructor; assumption].
    apply String.eqb_eq in E. subst z. rewrite C in L. constructor. assumption.
  Qed.

  (** Calls and operations end normally or not at all. *)
  Lemma apply_same lv rt f xs w : lifts false lv rt (apply_fn _ O self f xs w) (apply_fn _ O self f xs w).
  Proof.
    unfold apply_fn. destruct (peel f); try constructor.
    - destruct xs as [|x [|]]; constructor; reflexivity.
    - destruct xs as [|x [|]]; constructor; reflexivity.
    - destruct (pmatches _ (pmatch _ O) ps xs w) as [[] u]; try constructor.
      destruct (self body (bs ++ env) u) as [[] u']; cbn; constructor; reflexivity.
  Qed.
  Lemma act_same lv rt a : forall w, lifts false lv rt (act_in _ O self w a) (act_in _ O self w a).
  Proof.
    induction a as [x w|w| |f xs w g IH]; intros w0; cbn; try (constructor; reflexivity).
    pose proof (apply_same lv rt f xs w) as S. destruct (apply_fn _ O self f xs w) as [[] u]; try exact S. apply IH.
  Qed.

  (** ** Code *)

  Definition SE tl lv rt (e e' : expr) : Prop := forall pl en w, lifts tl lv rt (ev pl e en w) (ev pl e' en w).
  Definition SS tl lv rt (s s' : stmt) : Prop := forall pl en w, slifts tl lv rt (ev_stmt pl s en w) (ev_stmt pl s' en w).
  Definition SA tl lv rt (s s' : arm) : Prop := forall x en w, alifts tl lv rt (ev_arm x s en w) (ev_arm x s' en w).
  Definition SL lv rt (s s' : local) : Prop := forall en w, slifts false lv rt (ev_local s en w) (ev_local s' en w).
  Definition SO lv rt (o o' : option expr) : Prop :=
    match o, o' with Some e, Some e' => SE false lv rt e e' | None, None => True | _, _ => False end.

  Lemma SE_eq e e' : (forall pl en w, ev pl e' en w = ev pl e en w) <-> SE false none false e e'.
  Proof. unfold SE. split; intros H pl en w; [apply lifts_eq, H|]. specialize (H pl en w). apply lifts_eq in H. exact H. Qed.

  Lemma slifts_as tl lv rt bs f r r' : (forall x x', lift false x x' -> lift tl (f x) (f x')) -> lifts false lv rt r r' ->
    slifts tl lv rt (as_stmt _ bs f r) (as_stmt _ bs f r').
  Proof. intros F H. destruct H; cbn; try (constructor; [discriminate|constructor; assumption]). constructor. auto. Qed.

  Lemma list_lifts lv rt mode more f es es' : Forall2 (SE false lv rt) es es' -> (forall xs w, lifts false lv rt (f xs w) (f xs w)) ->
    forall got en w, lifts false lv rt (ev_list _ ev mode more es got en w f) (ev_list _ ev mode more es' got en w f).
  Proof.
    intros H F. induction H as [|e e' r r' H _ IH]; intros got en w; cbn [ev_list]; [apply F|].
    destruct (more got w); [|apply F]. apply lifts_bnd; [apply H|]. intros. apply IH.
  Qed.

  (** Statements one by one; the value of the last one may be in a variant. *)
  Lemma stmts_cons tl lv rt pl s s' r r' en w :
    (forall pl, slifts (match r with [] => tl | _ => false end) lv rt (ev_stmt pl s en w) (ev_stmt pl s' en w)) ->
    length r = length r' -> (forall en w, lifts tl lv rt (ev_stmts pl r en w) (ev_stmts pl r' en w)) \/ r = [] ->
    lifts tl lv rt (ev_stmts pl (s :: r) en w) (ev_stmts pl (s' :: r') en w).
  Proof.
    intros H L T. rewrite !(ev_stmts_cons mk O k self).
    replace (match r' with [] => true | _ => false end) with (match r with [] => true | _ => false end) by (destruct r, r'; try reflexivity; discriminate).
    destruct (H (pl && match r with [] => true | _ => false end)) as [bs x x' u X|o o' u N X].
    - destruct r, r'; try discriminate; [constructor; exact X|]. cbn in X. destruct T as [T|T]; [apply T|discriminate].
    - eapply lifts_any; [exact X|]. intros (x & w1 & Q). injection Q as -> ->. eapply N; reflexivity.
  Qed.
  Lemma stmts_same lv rt b b' : Forall2 (SS false lv rt) b b' -> forall pl en w, lifts false lv rt (ev_stmts pl b en w) (ev_stmts pl b' en w).
  Proof.
    intros H. induction H as [|s s' r r' H HR IH]; intros pl en w; [constructor; reflexivity|].
    apply stmts_cons; [|exact (all_length _ _ _ HR)|left; apply IH]. intros. destruct r; apply H.
  Qed.
  Lemma stmts_last tl lv rt b b' s s' pl : Forall2 (SS false lv rt) b b' ->
    (forall en w, slifts tl lv rt (ev_stmt pl s en w) (ev_stmt pl s' en w)) ->
    forall en w, lifts tl lv rt (ev_stmts pl (b ++ [s]) en w) (ev_stmts pl (b' ++ [s']) en w).
  Proof.
    intros H F. induction H as [|x x' r r' H HR IH]; intros en w; cbn [app].
    - rewrite !(ev_stmts_cons mk O k self). rewrite andb_true_r. destruct (F en w) as [bs x x' u X|o o' u N X]; [constructor; exact X|].
      exact X.
    - apply stmts_cons; [|rewrite !app_length; f_equal; exact (all_length _ _ _ HR)|left; apply IH].
      intros. destruct r; apply H.
  Qed.
  Lemma arms_lifts tl lv rt b b' x : Forall2 (SA tl lv rt) b b' -> forall en w, lifts tl lv rt (ev_arms x b en w) (ev_arms x b' en w).
  Proof.
    intros H. induction H as [|s s' r r' H HR IH]; intros en w; [constructor|]. rewrite !(ev_arms_cons mk O k self).
    destruct (H x en w) as [r0 r0' L|w1]; [exact L|apply IH].
  Qed.

  Lemma sexpr_lifts lv rt e e' semi : SE false lv rt e e' -> SS false lv rt (SExpr e semi) (SExpr e' semi).
  Proof.
    intros H pl en w. rewrite !(ev_sexpr mk O k self). apply slifts_as; [|apply H]. intros x x' E. cbn in *. subst. reflexivity.
  Qed.
  Lemma arm_lifts tl lv rt a p g g' b b' c a' c' : SO lv rt g g' ->
    (forall en w, lifts tl lv rt (ev false b en w) (ev false b' en w)) -> SA tl lv rt (Arm a p g b c) (Arm a' p g' b' c').
  Proof.
    intros G B x en w. rewrite !(ev_arm_eq mk O k self). destruct (pmatch _ O p x w) as [[] u]; [|constructor|constructor; constructor].
    destruct g, g'; cbn in G; try contradiction; [|constructor; apply B].
    pose proof (G false (bs ++ en) u) as S. destruct (ev false e (bs ++ en) u) as [o v], (ev false e0 (bs ++ en) u) as [o' v'].
    inversion S as [y y' ? L|l y y' ? L|l|y y' ? L| | |]; subst; try (constructor; constructor; assumption).
    cbn in L. subst y'. destruct (cond y); [constructor; apply B|constructor|constructor; constructor].
  Qed.
  Lemma local_lifts lv rt a p t i i' d d' : SO lv rt i i' -> SO lv rt d d' -> SL lv rt (Local a p t i d) (Local a p t i' d').
  Proof.
    intros I D en w. assert (ST : forall u, slifts false lv rt (SOut _ OStuck u) (SOut _ OStuck u)) by (intros u; constructor; [discriminate|constructor]).
    destruct i as [e|], i' as [e'|]; cbn in I; try contradiction.
    - rewrite !(ev_local_some mk O k self). pose proof (I false en w) as S.
      destruct (ev false e en w) as [o v], (ev false e' en w) as [o' v'].
      inversion S as [y y' ? L|l y y' ? L|l|y y' ? L| | |]; subst; try (constructor; [discriminate|constructor; assumption]).
      cbn in L. subst y'. destruct (pmatch _ O p y v') as [[] z]; [constructor; reflexivity| |apply ST].
      destruct d as [q|], d' as [q'|]; cbn in D; try contradiction; [|apply ST]. pose proof (D false en z) as S2.
      destruct (ev false q en z) as [o v], (ev false q' en z) as [o' v'0].
      inversion S2 as [y1 y1' ? L|l y1 y1' ? L|l|y1 y1' ? L| | |]; subst; try apply ST; (constructor; [discriminate|constructor; assumption]).
    - cbn [Eval.ev_local]. destruct (o_decl W O w). destruct p; try apply ST. constructor. reflexivity.
  Qed.

  Lemma cond_lifts tl lv rt r r' f f' g g' w :
    (forall bs w, lifts tl lv rt (f bs w) (f' bs w)) -> (forall w, lifts tl lv rt (g w) (g' w)) -> r = r' ->
    lifts tl lv rt (match cond r with PYes bs => f bs w | PNo => g w | PStuck => (OStuck, w) end)
      (match cond r' with PYes bs => f' bs w | PNo => g' w | PStuck => (OStuck, w) end).
  Proof. intros F G <-. destruct (cond r); auto. constructor. Qed.

  (** ** Expressions part by part *)

  Definition head_ok (lv : option string -> bool) (rt : mode) (e : expr) : Prop :=
    match e with
    | EClosure _ _ _ | EBlk KAsync _ _ | ELoop _ _ _ | EWhile _ _ _ _ | EFor _ _ _ _ _ => False
    | ETry _ _ | EReturn _ _ => rt = false
    | EBlock _ (Some y) _ => lv (Some y) = false
    | EBreak _ l _ => lv l = false
    | EMacro _ (Mac p _) => is_marker mk p = false
    | _ => True
    end.

  Lemma seq2_all {A} (R : A -> A -> Prop) t l l' : seq2 (fun _ => R) t l l' -> Forall2 R l l'.
  Proof. induction 1; constructor; assumption. Qed.
  Lemma maybe2_all lv rt t o o' : maybe2 (fun _ => SE false lv rt) t o o' -> SO lv rt o o'.
  Proof. destruct 1; cbn; auto. Qed.

  Lemma parts_lifts lv rt t e e' : parts (fun _ => SE false lv rt) (fun _ => SS false lv rt) (fun _ => SA false lv rt) t e e' ->
    head_ok lv rt e -> SE false lv rt e e'.
  Proof.
    intros H K pl en w. destruct H; cbn [head_ok] in K;
      repeat match goal with
             | H : seq2 _ _ _ _ |- _ => apply seq2_all in H
             | H : maybe2 _ _ _ _ |- _ => apply maybe2_all in H
             end; try contradiction.
    - rewrite !(ev_block mk O k self). apply lifts_labelled; [destruct l; auto|]. apply stmts_same. assumption.
    - destruct k0; try contradiction; try constructor; (exact (stmts_same _ _ _ _ ltac:(eassumption) _ _ _)).
    - rewrite !(ev_match mk O k self). apply lifts_bnd; [auto|]. intros. apply arms_lifts. assumption.
    - rewrite !(ev_if mk O k self). apply lifts_bnd; [auto|]. intros. destruct (cond x); [apply stmts_same; assumption| |constructor].
      destruct o, o'; cbn in *; try contradiction; [auto|constructor; reflexivity].
    - cbn [Eval.ev]. apply lifts_bnd; [auto|]. intros x w1. destruct (pmatch _ O p x w1) as [[] w2]; constructor; reflexivity.
    - cbn [Eval.ev]. destruct o, o'; cbn in *; try contradiction; [|constructor; rewrite K; reflexivity].
      apply lifts_bnd; [auto|]. intros. constructor. rewrite K. reflexivity.
    - constructor.
    - cbn [Eval.ev]. subst rt. destruct o, o'; cbn in *; try contradiction; [|constructor; reflexivity].
      apply lifts_bnd; [auto|]. intros. constructor. reflexivity.
    - cbn [Eval.ev]. subst rt. apply lifts_bnd; [auto|]. intros x w1. destruct x; try constructor; [reflexivity|].
      destruct (c =? "Err"); constructor; reflexivity.
    - cbn [Eval.ev]. destruct m as [p o]. rewrite K. destruct (panic_of p); [constructor|apply act_same].
    - cbn [Eval.ev]. apply lifts_bnd; [auto|]. intros. apply list_lifts; [assumption|]. intros. apply act_same.
    - cbn [Eval.ev]. auto.
    - rewrite !(ev_call mk O k self). apply lifts_bnd; [auto|]. intros. apply list_lifts; [assumption|]. intros.
      destruct (is_fn x); [apply apply_same|apply act_same].
    - cbn [Eval.ev]. destruct (con_of p); [constructor; reflexivity|]. destruct (none_of p); [constructor; reflexivity|].
      destruct (variant_of p) as [[]|]; [constructor; reflexivity|].
      destruct (match var_of p with Some x => lookup x en | None => None end) as [[[] ?]|]; constructor; reflexivity.
    - cbn [Eval.ev]. assert (X : forall en w, lifts false lv rt
        (ev_list _ ev (o_mode W O k0) (o_more W O k0) l [] en w (fun xs w1 => act_in _ O self w1 (o_other W O k0 pl xs w1)))
        (ev_list _ ev (o_mode W O k0) (o_more W O k0) l' [] en w (fun xs w1 => act_in _ O self w1 (o_other W O k0 pl xs w1)))).
      { intros. apply list_lifts; [assumption|]. intros. apply act_same. }
      inversion H; subst; [|apply X]. destruct (k0 =? "Tuple"); [constructor; reflexivity|apply act_same].
    - cbn [Eval.ev]. apply act_same.
  Qed.

  (** Loops that are not the one whose value is in a variant. *)
  Lemma loop_lifts lv lv' rt t e e' :
    parts (fun _ => SE false lv' rt) (fun _ => SS false lv' rt) (fun _ => SA false lv' rt) t e e' -> is_loop e = true ->
    match e with
    | ELoop _ l _ | EWhile _ l _ _ | EFor _ l _ _ _ =>
        (forall y, catches l y = true -> lv' y = false) /\ (forall y, catches l y = false -> lv' y = lv y)
    | _ => True
    end ->
    match e, e' with EFor _ _ _ c _, EFor _ _ _ c' _ => SE false lv rt c c' | _, _ => True end ->
    SE false lv rt e e'.
  Proof.
    intros H L C FO pl en w. destruct H; try discriminate; destruct C as [C1 C2];
      repeat match goal with H : seq2 _ _ _ _ |- _ => apply seq2_all in H end.
    - rewrite !(ev_loop mk O k self). eapply lifts_iterate; [|eassumption|eassumption]. intros. apply stmts_same. assumption.
    - rewrite !(ev_while mk O k self). eapply lifts_iterate; [|eassumption|eassumption]. intros. apply lifts_bnd; [auto|].
      intros x w2. destruct (cond x); [apply stmts_same; assumption| |constructor]. constructor. rewrite (C1 None eq_refl). reflexivity.
    - rewrite !(ev_for mk O k self). apply lifts_bnd; [apply FO|]. intros. apply lifts_bnd; [apply act_same|]. intros.
      eapply lifts_iterate; [|eassumption|eassumption]. intros. apply lifts_bnd; [apply act_same|].
      intros y w4. destruct y; try (constructor; fail).
      + constructor. rewrite (C1 None eq_refl). reflexivity.
      + destruct (pmatch _ O p y w4) as [[] w5]; try (constructor; fail). apply stmts_same. assumption.
  Qed.

  (** ** Code without [break]s *)

  Definition broken (r : result W) : Prop := exists l x w, r = (OBreak l x, w).
  Lemma unbroken lv lv' rt r r' : lifts false lv rt r r' -> ~ broken r -> lifts false lv' rt r r'.
  Proof. intros H N. destruct H; try (constructor; assumption). exfalso. apply N. unfold broken. eauto. Qed.
  Lemma same_broken r : lifts false (fun _ => true) false r r <-> ~ broken r.
  Proof.
    split.
    - intros H (l & x & w & ->). inversion H as [|? ? ? ? L| | | | |]; subst. destruct L as [v L]. exact (lift_size _ _ L).
    - intros N. eapply unbroken; [apply lifts_eq; reflexivity|exact N].
  Qed.

  Section Marked.
  Variables (m : string) (x : Changes.takes).
  Hypothesis MK : forall s, mk s = true -> s = m.

  Lemma unmarked p : is_ident p m = false -> is_marker mk p = false.
  Proof.
    intros H. destruct (is_marker mk p) eqn:E; [|reflexivity]. unfold is_marker in E. destruct p as [[] [|[i []] []]]; try discriminate.
    apply MK in E. subst. cbn in H. rewrite String.eqb_refl in H. discriminate.
  Qed.
  Lemma apart_same lv rt e : apart e = true -> SE false lv rt e e.
  Proof. intros A pl en w. destruct e; try discriminate; [destruct k0; try discriminate|]; constructor; reflexivity. Qed.
  Lemma smacro_same lv rt a p o semi : is_ident p m = false -> SS false lv rt (SMacro a (Mac p o) semi) (SMacro a (Mac p o) semi).
  Proof.
    intros H pl en w. cbn [Eval.ev_stmt]. rewrite (unmarked _ H). apply slifts_as; [intros y y' E; cbn in *; subst; reflexivity|].
    destruct (panic_of p); [constructor|apply act_same].
  Qed.

  Lemma no_breaks l :
    (forall e p, tidy m x e = true -> break_list l p e = [] -> SE false (fun _ => true) false e e)
    /\ (forall s p, tidy_stmt m x s = true -> break_list_stmt l p s = [] -> SS false (fun _ => true) false s s)
    /\ (forall s p, tidy_arm m x s = true -> break_list_arm l p s = [] -> SA false (fun _ => true) false s s)
    /\ (forall s p, tidy_local m x s = true -> break_list_local l p s = [] -> SL (fun _ => true) false s s).
  Proof.
    set (Pe e := forall p, tidy m x e = true -> break_list l p e = [] -> SE false (fun _ => true) false e e).
    set (Ps s := forall p, tidy_stmt m x s = true -> break_list_stmt l p s = [] -> SS false (fun _ => true) false s s).
    set (Pa s := forall p, tidy_arm m x s = true -> break_list_arm l p s = [] -> SA false (fun _ => true) false s s).
    set (Pl s := forall p, tidy_local m x s = true -> break_list_local l p s = [] -> SL (fun _ => true) false s s).
    assert (K : forall e, kids Pe Ps Pa e -> Pe e).
    { intros e K p T B. destruct (apart e) eqn:A; [apply apart_same; exact A|].
      destruct (tidy_kids _ _ _ T A) as (T1 & T2). destruct (quiet_kids _ _ _ B A) as (B1 & B2).
      pose proof (kids_and _ _ _ _ _ _ _ K (kids_and _ _ _ _ _ _ _ T2 B1)) as K1.
      assert (K2 : forall lv, kids (fun e => SE false lv false e e) (fun e => SS false lv false e e) (fun e => SA false lv false e e) e).
      { intros lv. revert K1. apply kids_map.
        - intros y (H1 & H2 & q & H3) pl en w. pose proof (H1 q H2 H3 pl en w) as Z. apply same_broken in Z. eapply unbroken; [apply lifts_eq; reflexivity|exact Z].
        - intros y (H1 & H2 & q & H3) pl en w. pose proof (H1 q H2 H3 pl en w) as Z. inversion Z as [bs v v' u LI E1 E2|o o' u N LI E1 E2]; [constructor; reflexivity|].
          constructor; [exact N|]. assert (o' = o) by congruence. subst o'. apply same_broken in LI. eapply unbroken; [apply lifts_eq; reflexivity|exact LI].
        - intros y (H1 & H2 & q & H3) v en w. pose proof (H1 q H2 H3 v en w) as Z. inversion Z as [r r' LI E1 E2|u E1 E2]; [|constructor].
          constructor. assert (r' = r) by congruence. subst r'. apply same_broken in LI. eapply unbroken; [apply lifts_eq; reflexivity|exact LI]. }
      destruct (is_loop e) eqn:L.
      - pose (lv' := match e with ELoop _ l _ | EWhile _ l _ _ | EFor _ l _ _ _ => fun y => negb (catches l y) | _ => fun _ => true end).
        eapply (loop_lifts _ lv' _ []); [apply kids_parts; apply (K2 lv')|exact L| |].
        + destruct e; try exact I; unfold lv'; (split; intros y E; rewrite E; reflexivity).
        + destruct e; try exact I. apply (proj1 (K2 _)).
      - destruct (match e with EBlock _ (Some _) _ => true | _ => false end) eqn:EB.
        { destruct e as [a [y|] b| | | | | | | | | | | | | | | | | | |]; try discriminate. intros pl en w. rewrite (ev_block mk O k self).
          assert (Z : lifts false (fun _ => true) false (ev_stmts pl b en w) (ev_stmts pl b en w)).
          { apply stmts_same. specialize (K2 (fun _ => true)). cbn [kids] in K2. clear -K2. induction K2; constructor; assumption. }
          apply same_broken in Z. apply same_broken. intros (l0 & v & u & E). apply Z. destruct (ev_stmts pl b en w) as [[] u']; try discriminate.
          unfold broken. eauto. }
        eapply (parts_lifts _ _ []); [apply kids_parts; apply K2|]. destruct e; try discriminate; try exact I; try contradiction; try reflexivity.
        + destruct lbl; [discriminate|exact I].
        + destruct k0; try exact I; discriminate.
        + destruct m0. apply unmarked. exact T1. }
    assert (OP : forall p o, opt_all Pe o -> fold_opt true (tidy m x) o = true -> fold_opt [] (break_list l p) o = [] -> SO (fun _ => true) false o o).
    { intros p [e|]; cbn; [|auto]. intros H T B. exact (H p T B). }
    apply (ast_ind Pe Ps Pa Pl); intros; try (apply K; cbn [kids]; auto; fail).
    - intros q T B pl en w. exact (H q T B en w).
    - intros q T B pl en w. constructor. reflexivity.
    - intros q T B. apply sexpr_lifts. exact (H q T B).
    - intros q T B. apply smacro_same. cbn [tidy_stmt] in T. apply negb_true_iff in T. exact T.
    - intros q T B. cbn in T. apply andb_true_iff in T. destruct T as [_ T]. apply andb_true_iff in T. destruct T as [T1 T2]. cbn in B. apply app_eq_nil in B. destruct B as [B1 B2].
      apply local_lifts; eapply OP; eassumption.
    - intros q T B. cbn in T. apply andb_true_iff in T. destruct T as [_ T]. apply andb_true_iff in T. destruct T as [T1 T2]. cbn in B. apply app_eq_nil in B. destruct B as [B1 B2].
      apply arm_lifts; [eapply OP; eassumption|]. intros en w. exact (H0 q T2 B2 false en w).
  Qed.

  (** ** The [break]s of a loop *)

  Definition out_of (l : option string) (inner : bool) (y : option string) : bool :=
    match y with None => negb inner | Some _ => same_label l y end.
  Lemma leaves_iff l inner y : Tails.leaves l inner y <-> out_of l inner y = true.
  Proof.
    unfold Tails.leaves, out_of. split.
    - intros [[-> ->]|(s & -> & ->)]; [reflexivity|]. cbn. apply String.eqb_refl.
    - destruct y as [s|]; [|destruct inner; [discriminate|auto]]. destruct l as [z|]; [|discriminate]. cbn. intros E. apply String.eqb_eq in E. subst. right. eauto.
  Qed.

  Lemma wrap_eval v e pl en w : ev pl (wrap own v e) en w = bnd _ (ev false e en w) (fun y w1 => (ONorm (VWrap own v y), w1)).
  Proof. unfold wrap. apply call_ctor_eval. exact GEN. Qed.
  Lemma operand_eval o en w : ev false (operand o) en w = match o with Some e => ev false e en w | None => (ONorm VUnit, w) end.
  Proof. destruct o; reflexivity. Qed.

  Lemma never_not a : no_help a = true -> ~ has_plain "never" a.
  Proof. intros N P. apply has_plain_named in P. destruct (no_help_named _ N) as (_ & _ & E & _). congruence. Qed.
  Lemma mark_not e : tidy m x e = true -> ~ is_mark (fun s => s = m) e.
  Proof.
    intros T (a & p & s & o & -> & -> & I). destruct (tidy_kids _ _ _ T eq_refl) as (E & _). cbn in E. congruence.
  Qed.

  Section Loop.
  Variables (l : option string) (mp : string -> Prop).
  Hypothesis MP : forall s, mp s -> s = m.

  Lemma mark_not' e : tidy m x e = true -> ~ is_mark mp e.
  Proof. intros T (a & p & s & o & E & H & I). apply (mark_not e T). exists a, p, s, o. auto. Qed.

  Definition bound_e (e : expr) : Prop := forall inner t e', breaks own mp l inner t e e' -> tidy m x e = true -> scoped l e = true ->
    SE false (out_of l inner) false e e'.
  Definition bound_s (e : stmt) : Prop := forall inner t e', breaks_stmt own mp l inner t e e' -> tidy_stmt m x e = true -> scoped_stmt l e = true ->
    SS false (out_of l inner) false e e'.
  Definition bound_a (e : arm) : Prop := forall inner t e', breaks_arm own mp l inner t e e' -> tidy_arm m x e = true -> scoped_arm l e = true ->
    SA false (out_of l inner) false e e'.
  Definition bound_l (e : local) : Prop := forall inner t e', breaks_local own mp l inner t e e' -> tidy_local m x e = true -> scoped_local l e = true ->
    SL (out_of l inner) false e e'.

  Lemma scoped_split e : scoped l e = true -> apart e = false ->
    match e with
    | ELoop _ l' _ | EWhile _ l' _ _ | EBlock _ l' _ => same_label l l' = false
    | EFor _ l' _ c _ => same_label l l' = false /\ break_list l (Spot true true false) c = []
    | _ => True
    end /\ kids (fun e => scoped l e = true) (fun e => scoped_stmt l e = true) (fun e => scoped_arm l e = true) e.
  Proof.
    intros H A. assert (X : fold_expr andb true (scoped l) (scoped_stmt l) (scoped_arm l) e = true).
    { destruct e; try discriminate; try (destruct k0; try discriminate); try exact H; apply andb_true_iff in H; destruct H as [_ H]; exact H. }
    split; [|apply kids_true; exact X]. destruct e; try exact I; apply andb_true_iff in H; destruct H as [H _].
    - apply negb_true_iff. exact H.
    - apply negb_true_iff. exact H.
    - apply negb_true_iff. exact H.
    - apply andb_true_iff in H. destruct H as [H1 H2]. split; [apply negb_true_iff; exact H1|].
      match goal with |- ?b = [] => destruct b; [reflexivity|discriminate] end.
  Qed.

  (** A loop inside that catches what it has to. *)
  Lemma inner_catch l' inner : same_label l l' = false ->
    (forall y, catches l' y = true -> out_of l true y = false) /\ (forall y, catches l' y = false -> out_of l true y = out_of l inner y).
  Proof.
    intros S. split; intros [s|] C; try reflexivity; try discriminate. cbn in C. destruct l' as [z|]; [|discriminate].
    apply String.eqb_eq in C. subst. exact S.
  Qed.

  Lemma breaks_lift : (forall e, bound_e e) /\ (forall e, bound_s e) /\ (forall e, bound_a e) /\ (forall e, bound_l e).
  Proof.
    assert (P : forall inner e, kids bound_e bound_s bound_a e -> apart e = false -> tidy m x e = true -> scoped l e = true -> forall t e',
      parts (breaks own mp l inner) (breaks_stmt own mp l inner) (breaks_arm own mp l inner) t e e' ->
      parts (fun _ => SE false (out_of l inner) false) (fun _ => SS false (out_of l inner) false) (fun _ => SA false (out_of l inner) false) t e e').
    { intros inner e K A T S t e' H. destruct (tidy_kids _ _ _ T A) as (_ & T2). destruct (scoped_split _ S A) as (_ & S2).
      pose proof (kids_and _ _ _ _ _ _ _ K (kids_and _ _ _ _ _ _ _ T2 S2)) as K1.
      eapply parts_with; [| | |exact K1|exact H]; cbn; intros t0 y y' B (B1 & B2 & B3); eapply B1; eassumption. }
    assert (K : forall e, kids bound_e bound_s bound_a e -> bound_e e).
    { intros e K inner t e' H T S. pose proof (tidy_help _ _ _ T) as N.
      destruct (apart e) eqn:A.
      { assert (e' = e) as ->; [|apply apart_same; exact A].
        destruct H; try reflexivity; try discriminate; destruct e; try discriminate; destruct k0; discriminate. }
      destruct (tidy_kids _ _ _ T A) as (T1 & T2). destruct (scoped_split _ S A) as (S1 & S2).
      destruct H as [inner e NV|inner a ps e|inner a b|inner e L IL|inner t e e' NV L IL PT|inner v a l' NV LV|inner v t a l' e e' NV LV NM H
                    |inner t a l' e e' NV LV NM H|inner t a l' o o' NV NL H|inner t e e' NV PL PT].
      - destruct (never_not _ N NV).
      - discriminate.
      - discriminate.
      - (* an unlabelled loop does not look inside the others *)
        assert (Z : forall pl en w y v u, ev pl e en w = (OBreak y v, u) -> y <> None).
        { assert (IT : forall n own' f w y v u, iterate W n own' f w = (OBreak y v, u) -> y <> None).
          { intros n own' f. induction n as [|n IH]; intros w y v u; cbn [iterate]; [discriminate|].
            destruct (f w) as [[] w1]; try discriminate; try apply IH.
            - match goal with |- context [catches own' ?q] => destruct (catches own' q) eqn:C end; [discriminate|]. intros E. injection E as <- <- <-. intros ->. discriminate.
            - match goal with |- context [catches own' ?q] => destruct (catches own' q) end; [apply IH|discriminate]. }
          intros pl en w y v u. destruct e; try discriminate.
          - rewrite (ev_loop mk O k self). apply IT.
          - rewrite (ev_while mk O k self). apply IT.
          - rewrite (ev_for mk O k self). destruct S1 as [_ S1]. cbn [kids] in T2.
            pose proof (proj1 (no_breaks l) _ _ (proj1 T2) S1 false en w) as Q. apply same_broken in Q.
            match goal with |- bnd _ (ev false ?it en w) _ = _ -> _ => destruct (ev false it en w) as [[] w1] eqn:EV end; try discriminate; [|intros _; exfalso; apply Q; unfold broken; eauto].
            cbn [bnd]. match goal with |- bnd _ (act_in _ _ _ _ (o_iter _ _ ?y _)) _ = _ -> _ => rename y into x0 end; destruct (act_in W O self w1 (o_iter W O x0 w1)) as [[] w2] eqn:EA; try discriminate.
            + cbn [bnd]. apply IT.
            + pose proof (act_same (fun _ => true) false (o_iter W O x0 w1) w1) as Q2. rewrite EA in Q2. intros _.
              exfalso. exact (proj1 (same_broken _) Q2 (ex_intro _ _ (ex_intro _ _ (ex_intro _ _ eq_refl)))). }
        intros pl en w. destruct (ev pl e en w) as [[] u] eqn:E; constructor; try reflexivity.
        apply Z in E. match goal with H : ?y <> None |- _ => destruct y; [cbn; rewrite L; reflexivity|congruence] end.
      - pose proof (P true e K A T S _ _ PT) as Q. eapply loop_lifts; [exact Q|exact IL| |].
        + destruct e; try exact I; apply inner_catch; tauto.
        + destruct Q; try exact I. cbn [kids] in T2. destruct S1 as [_ S1]. intros pl en w.
          pose proof (proj1 (no_breaks l) _ _ (proj1 T2) S1 pl en w) as Q. apply same_broken in Q. eapply unbroken; [|exact Q]. auto.
      - intros pl en w. cbn [Eval.ev]. rewrite wrap_eval, operand_eval. cbn [bnd]. constructor.
        apply leaves_iff in LV. rewrite LV. exists v. reflexivity.
      - intros pl en w. cbn [Eval.ev]. rewrite wrap_eval. apply leaves_iff in LV. cbn [kids opt_all] in *.
        destruct (K _ _ _ H T2 S2 false en w); cbn [bnd]; constructor; try assumption. rewrite LV. exists v. cbn in *. subst. reflexivity.
      - destruct (mark_not' _ T2 NM).
      - intros pl en w. cbn [Eval.ev]. assert (LV : out_of l inner l' = false) by (destruct (out_of l inner l') eqn:E; [|reflexivity]; destruct NL; apply leaves_iff; exact E).
        destruct H as [|t e e' H]; [constructor; rewrite LV; reflexivity|]. cbn [kids opt_all] in *. apply lifts_bnd; [apply (K _ _ _ H T2 S2)|].
        intros. constructor. rewrite LV. reflexivity.
      - pose proof (P inner e K A T S _ _ PT) as Q. eapply parts_lifts; [exact Q|]. destruct e; try discriminate; try exact I; try reflexivity.
        + destruct lbl; [exact S1|exact I].
        + destruct k0; try exact I; discriminate.
        + destruct m0. apply unmarked. exact T1. }
    assert (OP : forall inner t o o', opt_all bound_e o -> maybe2 (breaks own mp l inner) t o o' -> fold_opt true (tidy m x) o = true -> fold_opt true (scoped l) o = true ->
      SO (out_of l inner) false o o').
    { intros inner t o o' H M. destruct M as [|t e e' M]; cbn; [auto|]. intros. eapply H; eassumption. }
    apply (ast_ind bound_e bound_s bound_a bound_l); intros; try (apply K; cbn [kids]; auto; fail).
    - intros inner t s' B T S. inversion B as [? ? ? ? B1]; subst. inversion B1; subst. intros pl en w.
      match goal with B2 : breaks_local _ _ _ _ _ _ _ |- _ => exact (H _ _ _ B2 T S en w) end.
    - intros inner t s' B T S. inversion B as [? ? ? ? B1]; subst. inversion B1; subst. intros pl en w. constructor. reflexivity.
    - intros inner t s' B T S. inversion B as [? ? ? ? B1]; subst. inversion B1; subst. apply sexpr_lifts.
      match goal with B2 : breaks _ _ _ _ _ _ _ |- _ => exact (H _ _ _ B2 T S) end.
    - intros inner t s' B T S. inversion B as [? ? ? ? B1]; subst. inversion B1; subst. apply smacro_same. cbn [tidy_stmt] in T. apply negb_true_iff in T. exact T.
    - intros inner t0 s' B T S. inversion B as [? ? ? ? B1]; subst. inversion B1; subst.
      cbn in T. apply andb_true_iff in T. destruct T as [_ T]. apply andb_true_iff in T. destruct T as [T1 T2].
      cbn in S. apply andb_true_iff in S. destruct S as [S1 S2]. apply local_lifts; eapply OP; eassumption.
    - intros inner t0 s' B T S. inversion B as [? ? ? ? B1]; subst. inversion B1; subst.
      cbn in T. apply andb_true_iff in T. destruct T as [_ T]. apply andb_true_iff in T. destruct T as [T1 T2].
      cbn in S. apply andb_true_iff in S. destruct S as [S1 S2]. apply arm_lifts; [eapply OP; eassumption|].
      intros en w. match goal with B2 : breaks _ _ _ _ _ b _ |- _ => exact (H0 _ _ _ B2 T2 S2 false en w) end.
  Qed.
  End Loop.

  (** ** The value of the annotated code *)

  Variable mp : string -> Prop.
  Hypothesis MP : forall s, mp s <-> s = m.
  Let marker (s : string) : Prop := s = m.

  Lemma nv_spec e : no_value mp e <-> no_value marker e.
  Proof. split; apply no_value_mono; intros s; apply MP. Qed.
  Lemma nv_spec_stmt e : no_value_stmt mp e <-> no_value_stmt marker e.
  Proof. split; apply no_value_mono; intros s; apply MP. Qed.

  Definition lifted (e e' : expr) : Prop := forall en w, lifts true none false (ev false e en w) (ev false e' en w).
  Definition lifted_block (b b' : list stmt) : Prop := forall en w, lifts true none false (ev_stmts false b en w) (ev_stmts false b' en w).

  Lemma same_stmts b : Forall2 (SS false none false) b b.
  Proof.
    induction b; constructor; [|assumption]. intros pl en w. pose proof (out_not_norm O mk k self pl a en w) as N.
    destruct (ev_stmt pl a en w); constructor; [reflexivity| |apply lifts_eq; reflexivity]. intros y ->. exact N.
  Qed.
  Lemma same_opt o : SO none false o o.
  Proof. destruct o; cbn; [|exact I]. intros pl en w. apply lifts_eq. reflexivity. Qed.

  (** Code without a value. *)
  Lemma nothing e : no_value marker e -> ~ excused marker e -> lifted e e.
  Proof.
    intros N X en w. destruct (proj1 (no_value_eval O mk k self marker MK) e N) as [H|H]; [contradiction|].
    eapply lifts_any; [apply lifts_eq; reflexivity|]. intros (y & u & E). apply (H false en w). rewrite E. exact I.
  Qed.
  Lemma nothing_block b s : no_value_stmt marker s -> ~ excused_stmt marker s -> lifted_block (b ++ [s]) (b ++ [s]).
  Proof.
    intros N X. destruct (proj2 (proj2 (no_value_eval O mk k self marker MK)) s N) as [H|H]; [contradiction|].
    intros en w. eapply lifts_any; [apply lifts_eq; reflexivity|]. intros (y & u & E). apply (stmts_nv O mk k self b s H false en w). rewrite E. exact I.
  Qed.
  Lemma wrapped e v : lifted e (wrap own v e).
  Proof.
    intros en w. rewrite wrap_eval. destruct (ev false e en w) as [[] u]; cbn [bnd]; constructor; try reflexivity. exists v. reflexivity.
  Qed.
  Lemma block_eval a b en w : ev false (EBlock a None b) en w = ev_stmts false b en w.
  Proof. rewrite (ev_block mk O k self). reflexivity. Qed.
  Lemma one_eval e en w : ev_stmts false [SExpr e false] en w = ev false e en w.
  Proof. rewrite (ev_stmts_cons mk O k self), (ev_sexpr mk O k self). cbn [andb negb]. destruct (ev false e en w) as [[] u]; reflexivity. Qed.

  Lemma tidy_plain a : no_help a = true -> ~ has_plain "nested" a /\ ~ has_plain "never" a /\ ~ has_any "auto_enum" a.
  Proof.
    intros N. destruct (no_help_named _ N) as (A & B & C & _). repeat split; intros H.
    - apply has_plain_named in H. congruence.
    - apply has_plain_named in H. congruence.
    - apply has_any_named in H. congruence.
  Qed.

  Lemma arm_lifted t y y' : arm_wrapped own mp t y y' -> tidy_arm m x y = true ->
    match y with Arm _ _ _ b _ => sound m b end -> SA true none false y y'.
  Proof.
    intros H T S. destruct H as [y SK|v a p g b c SK].
    - destruct y as [a p g b c]. cbn in T. apply andb_true_iff in T. destruct T as [N T]. apply andb_true_iff in T. destruct T as [T1 T2].
      destruct (tidy_plain _ N) as (P1 & P2 & _). assert (NV : no_value marker b).
      { destruct SK as [K|[K|[K|[(e & -> & K)|K]]]]; try contradiction.
        - apply nv_spec. exact K.
        - cbn in T1. rewrite (proj2 (proj1 (tidy_nested m) e) x T1) in K. discriminate.
        - rewrite (proj2 (proj1 (tidy_nested m) b) x T2) in K. discriminate. }
      apply arm_lifts; [apply same_opt|]. apply nothing; [exact NV|]. apply S. exact NV.
    - apply arm_lifts; [apply same_opt|]. apply wrapped.
  Qed.

  Lemma branch_lifted t b b' : branch_wrapped own mp t b b' -> forallb (tidy_stmt m x) b = true -> sound m (EBlock [] None b) -> lifted_block b b'.
  Proof.
    intros H T S. destruct H as [b SK|v b SK].
    - destruct SK as (r & s & -> & K). assert (NV : no_value_stmt marker s).
      { assert (TS : tidy_stmt m x s = true) by (rewrite forallb_app in T; apply andb_true_iff in T; destruct T as [_ T]; cbn in T; rewrite andb_true_r in T; exact T).
        destruct s as [l|i|e [|]|a mc semi]; try (apply nv_spec_stmt; exact K). constructor. destruct K as [K|[K|(y & Y & K)]].
        - destruct (tidy_plain _ (tidy_help _ _ _ TS)) as (P1 & _). contradiction.
        - apply nv_spec. exact K.
        - rewrite forallb_forall in T. rewrite (proj2 (proj1 (proj2 (tidy_nested m)) y) x (T _ Y)) in K. discriminate. }
      apply nothing_block; [exact NV|]. intros X. apply (S (nv_block _ _ _ _ _ NV)). apply ex_block. exact X.
    - intros en w. unfold wrap_branch. rewrite one_eval. rewrite <- (block_eval [] b). apply wrapped.
  Qed.

  Lemma tidy_list b : fold_list andb true (tidy_stmt m x) b = true <-> forallb (tidy_stmt m x) b = true.
  Proof. induction b as [|s b IH]; [reflexivity|]. cbn. rewrite !andb_true_iff. rewrite <- IH. reflexivity. Qed.
  Lemma tidy_forall b : forallb (tidy_stmt m x) b = true <-> Forall (fun s => tidy_stmt m x s = true) b.
  Proof. rewrite forallb_forall, Forall_forall. reflexivity. Qed.

  Lemma if_lifted e : covered_chain m e -> forall t e', if_wrapped own mp t e e' -> tidy m x e = true -> lifted e e'.
  Proof.
    assert (IF : forall a c b b' e2 e2', lifted_block b b' -> lifted e2 e2' -> lifted (EIf a c b (Some e2)) (EIf a c b' (Some e2'))).
    { intros a c b b' e2 e2' L1 L2 en w. rewrite !(ev_if mk O k self). apply lifts_bnd; [apply lifts_eq; reflexivity|]. intros y w1.
      destruct (cond y); [apply L1|apply L2|constructor]. }
    intros C. induction C as [a c b1 ea b2 S1 S2|a c b e S C IH]; intros t e' H T; destruct (tidy_kids _ _ _ T eq_refl) as (_ & _ & T1 & T2); apply tidy_forall in T1; cbn [opt_all] in T2.
    - inversion H; subst.
      + apply IF; [eapply branch_lifted; eassumption|]. intros en w. rewrite !block_eval. destruct (tidy_kids _ _ _ T2 eq_refl) as (_ & T3).
        apply tidy_forall in T3. eapply branch_lifted; eassumption.
      + match goal with H : if_wrapped _ _ _ (EBlock _ _ _) _ |- _ => inversion H end.
    - inversion H; subst.
      + inversion C.
      + apply IF; [eapply branch_lifted; eassumption|]. eapply IH; eassumption.
  Qed.

  (** Covered code that counts as giving no value gives none. *)
  Lemma covered_sound e : covered m e -> tidy m x e = true -> no_value marker e -> ~ excused marker e.
  Proof.
    intros C. induction C as [e NN XX|a s arms S|e C|a l b S|a b e C IH|a b e C IH|a e C IH]; intros T N X; pose proof (tidy_help _ _ _ T) as NH;
      destruct (tidy_plain _ NH) as (P1 & P2 & P3).
    - contradiction.
    - destruct (tidy_kids _ _ _ T eq_refl) as (_ & _ & TA). inversion N as [| | | | | | | | |? ? ? NA| |]; subst; try contradiction.
      inversion X as [| | | | | |? ? ? y Y1 Y2| |]; subst; try contradiction. clear -S NA Y1 Y2 TA. induction NA as [|a p g b c l P NA IH|a p g b c l P NA IH].
      + destruct Y1.
      + inversion TA; subst. cbn in H1. apply andb_true_iff in H1. destruct H1 as [H1 _]. destruct (tidy_plain _ H1) as (_ & Q & _). contradiction.
      + inversion TA; subst. inversion S; subst. destruct Y1 as [<-|Y1]; [|auto]. cbn in H1. apply andb_true_iff in H1. destruct H1 as [H1 _]. destruct (tidy_plain _ H1) as (_ & Q & _).
        inversion Y2; subst; [contradiction|]. apply (H3 P). assumption.
    - destruct C; inversion N; subst; contradiction.
    - inversion N; subst; contradiction.
    - destruct (tidy_kids _ _ _ T eq_refl) as (_ & T1). apply Forall_app in T1. destruct T1 as [_ T1]. inversion T1; subst.
      apply no_value_block in N; [|exact NH]. apply (IH H1 N). inversion X; subst; try contradiction.
      match goal with E : _ ++ [_] = _ ++ [_] |- _ => apply app_inj_tail in E; destruct E; subst end.
      match goal with K : excused_stmt _ _ |- _ => inversion K; subst; assumption end.
    - destruct (tidy_kids _ _ _ T eq_refl) as (_ & T1). apply Forall_app in T1. destruct T1 as [_ T1]. inversion T1; subst.
      apply no_value_unsafe in N; [|exact NH]. apply (IH H1 N). inversion X; subst; try contradiction.
      match goal with E : _ ++ [_] = _ ++ [_] |- _ => apply app_inj_tail in E; destruct E; subst end.
      match goal with K : excused_stmt _ _ |- _ => inversion K; subst; assumption end.
    - destruct (tidy_kids _ _ _ T eq_refl) as (_ & T1). apply no_value_paren in N; [|exact NH]. apply (IH T1 N). inversion X; subst; [contradiction..|assumption].
  Qed.

  Lemma last_lifted r e e' : lifted e e' -> lifted_block (r ++ [SExpr e false]) (r ++ [SExpr e' false]).
  Proof.
    intros L en0 w0. apply stmts_last; [apply same_stmts|]. intros en w. rewrite !(ev_sexpr mk O k self). cbn [andb negb].
    destruct (L en w); cbn; constructor; try discriminate; try assumption; constructor; assumption.
  Qed.

  Lemma tail_lifted t e e' : tail own mp t e e' -> covered m e -> tidy m x e = true -> lifted e e'.
  Proof.
    intros H. induction H as [e N|e BL|t a s y y' N A|t a c b o e' N I|t a l b b' N B|t a l r e e' N H IH|t a r e e' N H IH|t a e e' q l N H IH|t a e e' N H IH];
      intros C T.
    - apply nv_spec in N. apply nothing; [exact N|]. apply covered_sound; assumption.
    - inversion C; subst; try discriminate BL.
      + apply nothing; assumption.
      + match goal with C : covered_chain _ _ |- _ => destruct C; discriminate BL end.
      + cbn in BL. rewrite ends_in_value_snoc in BL. discriminate.
      + cbn in BL. rewrite ends_in_value_snoc in BL. discriminate.
    - rewrite nv_spec in N. inversion C as [|? ? ? S|? CC| | | |]; subst; [contradiction| |inversion CC].
      destruct (tidy_kids _ _ _ T eq_refl) as (_ & _ & TA). intros en w. rewrite !(ev_match mk O k self). apply lifts_bnd; [apply lifts_eq; reflexivity|].
      intros z w1. apply arms_lifts. clear -A S TA GEN MP MK marker. induction A; constructor; inversion S; subst; inversion TA; subst; [|auto].
      eapply arm_lifted; eassumption.
    - rewrite nv_spec in N. inversion C as [|? ? ? S|? CC| | | |]; subst; [contradiction|]. eapply if_lifted; eassumption.
    - rewrite nv_spec in N. inversion C as [|? ? ? S|? CC|? ? ? S| | |]; subst; [contradiction|inversion CC|].
      destruct (tidy_kids _ _ _ T eq_refl) as (_ & TB). intros en w. rewrite !(ev_loop mk O k self).
      apply lifts_loop with (lv' := out_of l false).
      + intros w1. apply stmts_same. destruct (breaks_lift l mp (fun s => proj1 (MP s))) as (_ & BS & _). cbn [kids] in TB.
        unfold scoped_body in S. clear -B S TB BS. induction B; constructor; inversion TB; subst; cbn in S; apply andb_true_iff in S; destruct S; [eapply BS; eassumption|auto].
      + intros [s|] E; [|reflexivity]. cbn in *. destruct l; [|discriminate]. cbn in *; rewrite String.eqb_sym; exact E.
      + intros [s|] E; [|discriminate]. cbn in *. destruct l; [|reflexivity]. cbn in *; rewrite String.eqb_sym; exact E.
    - rewrite nv_spec in N. inversion C as [|? ? ? S|? CC|? ? ? S|? b0 e0 C0| |]; subst; [contradiction|inversion CC|].
      match goal with E : _ ++ [_] = _ ++ [_] |- _ => apply app_inj_tail in E; destruct E as [-> E]; injection E as -> end. destruct (tidy_kids _ _ _ T eq_refl) as (_ & T1). apply Forall_app in T1. destruct T1 as [_ T1]. inversion T1; subst.
      intros en w. rewrite !block_eval. apply last_lifted. auto.
    - rewrite nv_spec in N. inversion C as [|? ? ? S|? CC|? ? ? S| |? b0 e0 C0|]; subst; [contradiction|inversion CC|].
      match goal with E : _ ++ [_] = _ ++ [_] |- _ => apply app_inj_tail in E; destruct E as [-> E]; injection E as -> end. destruct (tidy_kids _ _ _ T eq_refl) as (_ & T1). apply Forall_app in T1. destruct T1 as [_ T1]. inversion T1; subst.
      intros en w. exact (last_lifted r e e' (IH C0 ltac:(assumption)) en w).
    - rewrite nv_spec in N. inversion C as [|? ? ? S|? CC| | | |]; subst; [contradiction|inversion CC].
    - rewrite nv_spec in N. inversion C as [|? ? ? S|? CC|? ? ? S| | |? ? C0]; subst; [contradiction|inversion CC|].
      destruct (tidy_kids _ _ _ T eq_refl) as (_ & T1). intros en w. cbn [Eval.ev]. apply IH; assumption.
  Qed.

  Lemma body_lifted t b b' : tail_body own mp t b b' -> covered_body m b -> forallb (tidy_stmt m x) b = true -> lifted_block b b'.
  Proof.
    intros H C T. destruct H as [t r e e' H|b E].
    - inversion C as [b0 e0 C0 E0|b0 s N X E0].
      + apply app_inj_tail in E0. destruct E0 as [-> E]. injection E as ->. apply last_lifted. eapply tail_lifted; [exact H|exact C0|].
        rewrite forallb_app in T. apply andb_true_iff in T. destruct T as [_ T]. cbn in T. rewrite andb_true_r in T. exact T.
      + apply app_inj_tail in E0. destruct E0 as [-> ->]. assert (NV : no_value marker e) by (inversion N; assumption).
        assert (e' = e) as ->; [|apply nothing_block; assumption]. apply nv_spec in NV. destruct H; try reflexivity; contradiction.
    - inversion C as [b0 e0 C0 E0|b0 s N X E0]; subst; [rewrite ends_in_value_snoc in E; discriminate|]. apply nothing_block; assumption.
  Qed.

  (** ** The visit *)

  Hypothesis XQ : x <> TakesQuestions.
  Definition with_returns : bool := match x with TakesReturns => true | _ => false end.
  Definition fit (w : who) : Prop := w_foreign w = false /\ w_marker w = m /\ w_root w = true /\ w_exits w = x /\ w_enum w = own.

  Lemma fit_enter e w : fit w -> apart e = false -> no_help (e_attrs e) = true -> fit (enter e w).
  Proof.
    intros (F & M & R & X & E) A N. destruct (no_help_named _ N) as (NA & _). unfold enter. rewrite past_same by exact NA.
    destruct e; try discriminate; try (repeat split; assumption). destruct k0; try (repeat split; assumption).
    destruct (w_exits w) eqn:Y; try (repeat split; congruence).
  Qed.

  Theorem done_lifts :
    (forall w semi e e', done w semi e e' -> fit w -> tidy m x e = true -> SE false none with_returns e e')
    /\ (forall w s s', done_stmt w s s' -> fit w -> tidy_stmt m x s = true -> SS false none with_returns s s').
  Proof.
    pose (Te e := tidy m x e = true). pose (Ts e := tidy_stmt m x e = true). pose (Ta e := tidy_arm m x e = true). pose (Tl e := tidy_local m x e = true).
    pose (Pd w (semi : bool) e e' := fit w -> Te e -> SE false none with_returns e e').
    pose (Pu w (semi : bool) e e' := fit w -> attr_named "auto_enum" (e_attrs e) = false -> kids Te Ts Ta e ->
      parts (fun _ => SE false none with_returns) (fun _ => SS false none with_returns) (fun _ => SA false none with_returns) [] e e').
    pose (Ps w s s' := fit w -> Ts s -> SS false none with_returns s s').
    pose (Pa w s s' := fit w -> Ta s -> SA false none with_returns s s').
    pose (Pl w s s' := fit w -> Tl s -> SL none with_returns s s').
    assert (OP : forall w o o', maybe2 (fun _ e e' => done w false e e' /\ Pd w false e e') [] o o' -> fit w -> fold_opt true (tidy m x) o = true -> SO none with_returns o o').
    { intros w o o' M F. destruct M as [|t e e' [_ M]]; cbn; [auto|]. intros T. exact (M F T). }
    assert (C : cases Pd Pu Ps (fun _ _ _ => True) Pa (fun _ _ _ => True) Pl (fun _ _ _ => True) (fun _ _ _ => True)
                  (fun _ _ _ => True) (fun _ _ _ => True) (fun _ _ _ => True) (fun _ _ _ => True)).
    { constructor; try (intros; exact I).
      - intros w semi e e1 e2 e3 e' H1 H2 HU0 HU H4 F T. unfold Pu in HU. unfold Te in T. pose proof (tidy_help _ _ _ T) as N.
        destruct (apart e) eqn:A.
        { assert (e' = e) as ->; [|apply apart_same; exact A]. destruct F as (F & M & R & X & E).
          apply (proj1 done_clean_all w semi e e' (dn w semi e e1 e2 e3 e' H1 H2 HU0 H4) F). rewrite M, X, <- (tidy_apart _ _ _ A). exact T. }
        pose proof (fit_enter e w F A N) as FE. destruct (tidy_kids _ _ _ T A) as (T1 & T2).
        destruct (no_help_named _ N) as (NA & NB & NC & _).
        destruct (match e with EReturn _ _ => with_returns | _ => false end) eqn:RET.
        + destruct e; try discriminate. assert (X : x = TakesReturns) by (unfold with_returns in RET; destruct x; congruence).
          destruct FE as (FF & FM & FR & FX & FO).
          assert (TK : taken_exit (enter (EReturn a e) w) (EReturn a e)).
          { split; [exact (never_not _ N)|]. rewrite FX, X. intros (y & -> & y0 & p & s & o & -> & [S|[S _]] & IM); [|congruence].
            cbn [kids opt_all] in T2. destruct (tidy_kids _ _ _ T2 eq_refl) as (T3 & _). cbn in T3. rewrite FM in S. congruence. }
          inversion H1 as [v a0 o0 _ E1 E2| |e0 NT E1 E2]; subst; [|contradiction].
          apply nested_step_none in H2; [|exact NB]. subst e2.
          assert (KW : kids Te Ts Ta (EReturn a (Some (wrap (w_enum (enter (EReturn a e) w)) v (operand e))))).
          { cbn [kids opt_all]. apply tidy_wrap. apply tidy_operand. exact T2. }
          specialize (HU (conj FF (conj FM (conj FR (conj FX FO)))) NA KW). inversion HU as [| | | | | | | | | |t b0 o0 o' MB E1 E2| | | | | | | | |]; subst.
          inversion MB as [|t y y' SY E1 E2]; subst.
          apply close_none in H4; [|exact N|intros; discriminate]. subst e'.
          intros pl en u. cbn [Eval.ev]. pose proof (SY false en u) as Q. destruct F as (_ & _ & _ & _ & FW). rewrite FW, wrap_eval, operand_eval in Q.
          assert (Z : (match e with Some y => bnd W (ev false y en u) (fun v w1 => (ORet v, w1)) | None => (ORet VUnit, u) end)
            = bnd W (match e with Some y => ev false y en u | None => (ONorm VUnit, u) end) (fun v w1 => (ORet v, w1))) by (destruct e; reflexivity).
          change (lifts false none with_returns (match e with Some y => bnd W (ev false y en u) (fun v w1 => (ORet v, w1)) | None => (ORet VUnit, u) end)
            (bnd W (ev false y' en u) (fun v w1 => (ORet v, w1)))). rewrite Z. clear Z. unfold with_returns in *. rewrite X in *.
          destruct (match e with Some y => ev false y en u | None => (ONorm VUnit, u) end) as [[] u1]; cbn [bnd] in *; inversion Q; subst; cbn [bnd]; try (constructor; assumption).
          constructor. cbn in *. subst. exists v. reflexivity.
        + apply exit_step_none in H1.
          2: { intros [_ TK]. destruct FE as (_ & _ & _ & FX & _). rewrite FX in TK. unfold with_returns in RET. destruct e; try contradiction; destruct x; try contradiction; congruence. }
          subst e1. apply nested_step_none in H2; [|exact NB]. subst e2. specialize (HU FE NA T2).
          assert (e' = e3) as ->.
          { apply close_none in H4; [exact H4|rewrite (parts_attrs _ _ _ _ _ _ HU); exact N|]. intros a p y ->. apply parts_macro in HU. subst e.
            destruct FE as (_ & FM & _). rewrite FM. exact T1. }
          destruct (is_loop e) eqn:L.
          * eapply loop_lifts; [exact HU|exact L| |].
            -- destruct e; try exact I; (split; reflexivity).
            -- destruct HU; try exact I. assumption.
          * eapply parts_lifts; [exact HU|]. destruct e; try discriminate; try exact I; try reflexivity.
            -- destruct lbl; [reflexivity|exact I].
            -- destruct k0; try exact I; discriminate.
            -- cbn [head_ok]. f_equal. exact RET.
            -- cbn [head_ok]. f_equal. unfold with_returns. destruct x; congruence.
            -- destruct m0. apply unmarked. exact T1.
      - intros w semi e e' _ H F A K. eapply parts_with; [| | |exact K|exact H]; cbn; intros t y y' [_ R] Q; exact (R F Q).
      - intros w semi e p toks a' e1 c e' R _ _ _ _ F A. apply removes_named in R. congruence.
      - intros w e e' semi _ H F T. apply sexpr_lifts. exact (H F T).
      - intros w i _ _ pl en u. constructor. reflexivity.
      - intros w a [p o] semi _ T. apply smacro_same. unfold Ts in T. cbn [tidy_stmt] in T. apply negb_true_iff in T. exact T.
      - intros w a p t i d l' _ _ H F T pl en u. exact (H F T en u).
      - intros w a y toks a' p t i d l1 c l' R _ _ _ _ _ _ F T. unfold Tl in T. cbn in T. apply andb_true_iff in T. destruct T as [N _].
        destruct (no_help_named _ N) as (A & _). apply removes_named in R. congruence.
      - intros w y a p g b c g' b' a' NA G _ B AS F T. unfold Ta in T.
        assert (Y : y = Arm a p g b c /\ no_help a = true).
        { inversion NA; subst; cbn in T; apply andb_true_iff in T; destruct T as [N T];
            [auto|match goal with R : removes _ _ _ _ |- _ => apply removes_named in R end; destruct (no_help_named _ N) as (_ & E & _); congruence]. }
        destruct Y as [-> N]. cbn in T. apply andb_true_iff in T. destruct T as [_ T]. apply andb_true_iff in T. destruct T as [T1 T2].
        apply arm_lifts; [eapply OP; eassumption|]. exact (B F T2 false).
      - intros w y a p t i d i' d' a' NA G1 G2 AS F T. unfold Tl in T.
        assert (Y : y = Local a p t i d /\ no_help a = true).
        { inversion NA; subst; cbn in T; apply andb_true_iff in T; destruct T as [N T];
            [auto|match goal with R : removes _ _ _ _ |- _ => apply removes_named in R end; destruct (no_help_named _ N) as (_ & E & _); congruence..]. }
        destruct Y as [-> N]. cbn in T. apply andb_true_iff in T. destruct T as [_ T]. apply andb_true_iff in T. destruct T as [T1 T2].
        rewrite (attrs_step_same _ _ _ N AS). apply local_lifts; eapply OP; eassumption. }
    split; intros w.
    - exact (ind_done _ _ _ _ _ _ _ _ _ _ _ _ _ C w).
    - exact (ind_stmt _ _ _ _ _ _ _ _ _ _ _ _ _ C w).
  Qed.
  End Marked.
End Exact.
