(** Nested [#[auto_enum]] attributes in accepted code: specification and proof. *)

Require Import Coq.Strings.String Coq.Lists.List Coq.Bool.Bool.
Require Import Verif.Syntax Verif.Context Verif.ExprModel Verif.Edits Verif.NoValueSpec Verif.Tails Verif.TwinEdits Verif.ArgsSpec Verif.ArgsRun.
Require Import Verif.Changes Verif.ChangesInd Verif.ChangesTop Verif.LoopsRun Verif.Branches Verif.BranchesRun Verif.Nodes Verif.Annotations Verif.AnnotRun.
Import ListNotations.
Open Scope string_scope.
Open Scope list_scope.

(** ** Specification *)

(** The arguments are in the grammar (C25_grammar) with at most one marker. *)
Definition accepts (toks : list token) : bool := match parse_args toks with inr _ => true | inl _ => false end.

(** The attribute of an expression has a list of arguments, [#[auto_enum(..)]], and they are in the grammar. *)
Definition asked_well (a : list attr) : bool :=
  match first_named "auto_enum" a with
  | None => true
  | Some (MList _ toks) => accepts toks
  | Some _ => false
  end.
(** The attribute of a [let] may also have none, [#[auto_enum]]; if it has traits then the [let] has a value. *)
Definition let_asked_well (a : list attr) (value : bool) : bool :=
  match first_named "auto_enum" a with
  | None | Some (MPath _) => true
  | Some (MList _ toks) => accepts toks && (value || negb (gives toks))
  | Some _ => false
  end.
Definition requests : rule unit := {|
  r_expr _ e := asked_well (e_attrs e);
  r_in _ _ := tt;
  r_arm _ _ := true;
  r_let _ a v := let_asked_well a v;
  r_value _ _ _ := tt;
  r_else _ _ := tt
|}.

(** ** Proof *)

Notation R := requests.
Lemma R_added c e : added e -> r_expr R c e = true /\ r_in R c e = c.
Proof. destruct c. intros [->|[(p & ->)|[->|[->| ->]]]]; split; reflexivity. Qed.
Lemma R_arm c : r_arm R c [] = true.
Proof. reflexivity. Qed.
Lemma R_all e : all R tt e = asked_well (e_attrs e) && below R tt e.
Proof. rewrite all_below. cbn [r_expr r_in requests]. replace (e_attrs (node_of e)) with (e_attrs e) by (destruct e; reflexivity). reflexivity. Qed.
Lemma R_below_attrs e a : below R tt (set_attrs e a) = below R tt e.
Proof. destruct e; reflexivity. Qed.
Lemma asked_none a : attr_named "auto_enum" a = false -> asked_well a = true.
Proof. intros H. apply first_none in H. unfold asked_well. rewrite H. reflexivity. Qed.
Lemma let_asked_none a v : attr_named "auto_enum" a = false -> let_asked_well a v = true.
Proof. intros H. apply first_none in H. unfold let_asked_well. rewrite H. reflexivity. Qed.
Lemma child_accepts w toks c : child w toks c -> accepts toks = true.
Proof.
  intros (_ & _ & _ & _ & F & _ & l & AL & G & M). unfold accepts.
  assert (P : exists m, parse_args toks = inr (traits_of l, m)).
  { destruct (markers_of l) as [|m [|]] eqn:E; [exists None|exists (Some m)|contradiction]; apply parse_args_grammar; exists l; auto. }
  destruct P as [m ->]. reflexivity.
Qed.
Lemma asked_child w a p toks a' c : removes "auto_enum" a (MList p toks) a' -> child w toks c -> asked_well a = true.
Proof. intros R C. unfold asked_well. rewrite (removes_first _ _ _ _ R). exact (child_accepts _ _ _ C). Qed.
Lemma let_asked_child w a x toks a' c v : removes "auto_enum" a x a' -> (x = MPath (attr_path x) /\ toks = [] \/ x = MList (attr_path x) toks) ->
  child w toks c -> (w_given c = true -> v = true) -> let_asked_well a v = true.
Proof.
  intros R X C V. unfold let_asked_well. rewrite (removes_first _ _ _ _ R). destruct X as [[-> _]| ->]; [reflexivity|].
  rewrite (child_accepts _ _ _ C). destruct (child_gives _ _ _ C) as [G _]. rewrite <- G. cbn [andb]. destruct (w_given c); [rewrite (V eq_refl)|rewrite orb_true_r]; reflexivity.
Qed.

Section Parts.
  Variables (Re : list string -> expr -> expr -> Prop) (Rs : list string -> stmt -> stmt -> Prop) (Ra : list string -> arm -> arm -> Prop).
  Hypothesis He : forall t x x', Re t x x' -> all R tt x = true.
  Hypothesis Hs : forall t x x', Rs t x x' -> all_stmt R tt x = true.
  Hypothesis Ha : forall t x x', Ra t x x' -> all_arm R tt x = true.
  Lemma parts_R t e e' : parts Re Rs Ra t e e' -> below R tt e = true.
  Proof.
    intros H. apply (parts_fold andb true andb true (fun _ a _ => a = true) eq_refl ltac:(intros ? ? ? ? ? ? -> ->; reflexivity)
        _ _ _ (fun _ => true) (fun _ => true) (fun _ => true) Re Rs Ra t e e'); [|exact H].
    apply kids_all; intros x ? x' K; eauto.
  Qed.
  Lemma maybe_R t o o' : maybe2 Re t o o' -> fold_opt true (all R tt) o = true.
  Proof. intros M. destruct M as [|t x x' K]; [reflexivity|exact (He _ _ _ K)]. Qed.
End Parts.

Definition let_R (x x' : local) : Prop :=
  match x, x' with
  | Local _ _ _ i d, Local _ _ _ i' _ =>
      fold_opt true (all R tt) i = true /\ fold_opt true (all R tt) d = true /\ (i' <> None -> i <> None)
  end.
Lemma let_R_all v a p t i d : fold_opt true (all R tt) i = true -> fold_opt true (all R tt) d = true ->
  v = match i with Some _ => true | None => false end -> let_asked_well a v = true -> all_stmt R tt (SLocal (Local a p t i d)) = true.
Proof.
  intros I D -> A. rewrite all_let_eq, all_local_eq. cbn [r_let r_value r_else requests]. rewrite A, D. cbn [andb]. rewrite andb_true_r. exact I.
Qed.

Theorem accepted_requests :
  (forall w s s', done_stmt w s s' -> all_stmt R tt s = true)
  /\ (forall w e e', body w e e' -> all R tt e = true)
  /\ (forall w e e', quiet w e e' -> all R tt e = true)
  /\ (forall w e e', quiet_stmt w e e' -> all_stmt R tt e = true).
Proof.
  pose (Pd (w : who) (semi : bool) e (e' : expr) := all R tt e = true).
  pose (Ps (w : who) e (e' : stmt) := all_stmt R tt e = true).
  pose (Pa (w : who) e (e' : arm) := all_arm R tt e = true).
  pose (Pl (w : who) := let_R).
  pose (Pq (w : who) e (e' : expr) := all R tt e = true).
  pose (Px (w : who) (e e' : expr) := True).
  pose (Pxl (w : who) l (l' : local) := w_given w = true -> match l with Local _ _ _ i _ => i <> None end).
  assert (C : cases Pd Pd Ps Ps Pa Pa Pl Pl Pxl Pq Px Px Pq).
  { constructor.
    - intros w semi e e1 e2 e3 e' H1 H2 _ HU _. unfold Pd in *.
      destruct (exit_below R R_added R_arm _ _ _ H1) as [A1 B1]. rewrite R_all in *. rewrite <- A1, <- B1. apply andb_true_iff in HU. destruct HU as [U1 U2].
      inversion H2 as [? K|? p a' n k ? K1 K2 K3]; subst; [rewrite U1; exact U2|].
      destruct (branches_below R R_added _ _ _ _ K3) as [N B]. rewrite B, R_below_attrs in U2. rewrite U2, andb_true_r.
      assert (XA : forall y, e_attrs (node_of y) = e_attrs y) by (intros []; reflexivity).
      assert (EA : e_attrs e2 = e_attrs (set_attrs e1 a')) by (rewrite <- XA, N, XA; reflexivity). rewrite EA in U1.
      destruct (set_attrs_attrs e1 a') as [E|E]; [rewrite E; reflexivity|]. rewrite E in U1. unfold asked_well in *.
      rewrite <- (removes_other _ "auto_enum" _ _ _ K2) by discriminate. exact U1.
    - intros w semi e e' N H. unfold Pd. rewrite R_all, (asked_none _ N). eapply parts_R; [| | |exact H]; intros t x x' [_ K]; exact K.
    - intros w semi e p toks a' e1 c e' RM H CH _ _. unfold Pd. rewrite R_all, (asked_child _ _ _ _ _ _ RM CH), <- (R_below_attrs e a'). cbn [andb].
      eapply parts_R; [| | |exact H]; intros t x x' [_ K]; exact K.
    - intros w e e' semi _ H. exact H.
    - reflexivity.
    - reflexivity.
    - intros w a p t i d [? ? ? i' ?] N _ (I & D & _). eapply let_R_all; [exact I|exact D|reflexivity|apply let_asked_none; exact N].
    - intros w a x toks a' p t i d [a1 p1 t1 i1 d1] c l' RM X _ (I & D & V) CH _ HX. eapply let_R_all; [exact I|exact D|reflexivity|].
      eapply let_asked_child; [exact RM|exact X|exact CH|]. intros G. specialize (V (HX G)). destruct i; [reflexivity|congruence].
    - intros w x a p g b c g' b' a' NA G _ B _. unfold Pa, Pd in *. inversion NA as [|q a0 ? ? ? b0 ? ? n k F RM BR]; subst; rewrite all_arm_eq; cbn [r_arm requests andb].
      + rewrite B, andb_true_r. eapply maybe_R; [|exact G]. intros t x x' [_ K]; exact K.
      + rewrite <- (branches_all R R_added _ _ _ _ BR tt), B, andb_true_r. eapply maybe_R; [|exact G]. intros t x x' [_ K]; exact K.
    - intros w x a p t i d i' d' a' NL I D _. unfold Pl, let_R.
      assert (I1 : fold_opt true (all R tt) i = true) by (eapply maybe_R; [|exact I]; intros t0 y y' [_ K]; exact K).
      assert (D1 : fold_opt true (all R tt) d = true) by (eapply maybe_R; [|exact D]; intros t0 y y' [_ K]; exact K).
      assert (V : i' <> None -> i <> None) by (inversion I; congruence).
      inversion NL as [| |q ? ? ? ? j ? ? n k _ RM BR]; subst; auto.
      split; [|split; [exact D1|discriminate]]. cbn [fold_opt] in *. rewrite <- (branches_all R R_added _ _ _ _ BR tt). exact I1.
    - intros w e e' N H. unfold Pq. rewrite R_all, (asked_none _ N). eapply parts_R; [| | |exact H]; intros t x x' [_ K]; exact K.
    - intros w e p toks a' e1 c e' RM H CH _ _. unfold Pq. rewrite R_all, (asked_child _ _ _ _ _ _ RM CH), <- (R_below_attrs e a'). cbn [andb].
      eapply parts_R; [| | |exact H]; intros t x x' [_ K]; exact K.
    - intros w e e' semi _ _ H. exact H.
    - intros w e p toks a' e1 c e' semi RM H CH _ _. unfold Ps. rewrite all_stmt_eq, R_all, (asked_child _ _ _ _ _ _ RM CH), <- (R_below_attrs e a'). cbn [andb].
      eapply parts_R; [| | |exact H]; intros t x x' [_ K]; exact K.
    - reflexivity.
    - reflexivity.
    - intros w a p t i d [? ? ? i' ?] N _ (I & D & _). eapply let_R_all; [exact I|exact D|reflexivity|apply let_asked_none; exact N].
    - intros w a x toks a' p t i d [a1 p1 t1 i1 d1] c l' RM X _ (I & D & V) CH _ HX. eapply let_R_all; [exact I|exact D|reflexivity|].
      eapply let_asked_child; [exact RM|exact X|exact CH|]. intros G. specialize (V (HX G)). destruct i; [reflexivity|congruence].
    - intros w a p g b c g' b' G _ B. unfold Pa, Pq in *. rewrite all_arm_eq; cbn [r_arm requests andb].
      rewrite B, andb_true_r. eapply maybe_R; [|exact G]. intros t x x' [_ K]; exact K.
    - intros w a p t i d i' d' I D. unfold Pl, let_R. split; [|split].
      + eapply maybe_R; [|exact I]; intros t0 y y' [_ K]; exact K.
      + eapply maybe_R; [|exact D]; intros t0 y y' [_ K]; exact K.
      + inversion I; congruence.
    - intros; exact Logic.I.
    - intros; exact Logic.I.
    - intros w a p t t' i d i' d' G _ _ _ K. congruence.
    - intros w a p t t' e e1 e' d _ _ _ _ _. discriminate.
    - intros; exact Logic.I.
    - intros; exact Logic.I.
    - intros w e e1 k e' B _ H. unfold Pq, Pd in *. rewrite <- (branches_all R R_added _ _ _ _ B). exact H.
    - intros w e e1 e' G _ B _ H. unfold Pq, Pd in *. rewrite <- (branches_all R R_added _ _ _ _ B). exact H. }
  split; [|split; [|split]]; intros w.
  - exact (ind_stmt _ _ _ _ _ _ _ _ _ _ _ _ _ C w).
  - exact (ind_body _ _ _ _ _ _ _ _ _ _ _ _ _ C w).
  - exact (ind_quiet _ _ _ _ _ _ _ _ _ _ _ _ _ C w).
  - exact (ind_qstmt _ _ _ _ _ _ _ _ _ _ _ _ _ C w).
Qed.
