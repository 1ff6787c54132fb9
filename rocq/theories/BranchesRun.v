(** Proofs about Branches.v. *)

Require Import Coq.Strings.String Coq.Lists.List Coq.Bool.Bool Coq.Arith.Arith Coq.NArith.NArith Lia.
Require Import Verif.Syntax Verif.Context Verif.ExprModel Verif.TypeAnalysis Verif.AutoEnum Verif.Edits.
Require Import Verif.RunLemmas Verif.NoValueSpec Verif.Tails Verif.Changes Verif.ChangesInd Verif.ExitsTop Verif.ChangesTop Verif.Branches.
Import ListNotations.
Open Scope string_scope.
Open Scope list_scope.

(** ** Sequences *)

Lemma seq2_nil {A} (R : A -> A -> Prop) t l l' : seq2 (fun _ => R) t l l' -> Forall2 R l l'.
Proof. induction 1; constructor; assumption. Qed.
Lemma seq2_in {A} (R : A -> A -> Prop) l l' : seq2 (fun _ => R) [] l l' <-> Forall2 R l l'.
Proof.
  split.
  - apply seq2_nil.
  - induction 1; [constructor|]. change (@nil string) with (@nil string ++ []). constructor; assumption.
Qed.
Lemma seq2_compose {A} (R : list string -> A -> A -> Prop) (Q : A -> A -> Prop) t l l1 l2 :
  seq2 R t l l1 -> Forall2 Q l1 l2 -> seq2 (fun t x z => exists y, R t x y /\ Q y z) t l l2.
Proof.
  intros H. revert l2. induction H as [|t1 t2 x x' l l' H1 H2 IH]; intros l2 F; inversion F; subst; constructor; eauto.
Qed.
Lemma seq2_app {A} (R : list string -> A -> A -> Prop) t l l' r :
  seq2 R t (l ++ r) l' -> exists t1 t2 l1 l2, t = t1 ++ t2 /\ l' = l1 ++ l2 /\ seq2 R t1 l l1 /\ seq2 R t2 r l2.
Proof.
  revert t l'. induction l as [|x l IH]; cbn; intros t l' H.
  - exists [], t, [], l'. repeat split; [constructor|exact H].
  - inversion H as [|t1 t2 y y' q q' H1 H2]; subst. destruct (IH _ _ H2) as (u1 & u2 & l1 & l2 & -> & -> & K1 & K2).
    exists (t1 ++ u1), u2, (y' :: l1), l2. rewrite app_assoc. repeat split; [constructor; assumption|exact K2].
Qed.
Lemma seq2_length {A} (R : list string -> A -> A -> Prop) t l l' : seq2 R t l l' -> length l' = length l.
Proof. induction 1; cbn; congruence. Qed.
Lemma block_done_snoc w r s b' : block_done w (r ++ [s]) b' ->
  exists r' s', b' = r' ++ [s'] /\ block_done w r r' /\ done_stmt w s s'.
Proof.
  unfold block_done. rewrite !seq2_in. intros F. apply Forall2_app_inv_l in F. destruct F as (r' & q & F1 & F2 & ->).
  inversion F2 as [|? s' ? ? D N]; subst. inversion N; subst. exists r', s'. rewrite seq2_in. auto.
Qed.

(** ** Attributes *)

Lemma no_help_named a : no_help a = true ->
  attr_named "auto_enum" a = false /\ attr_named "nested" a = false /\ attr_named "never" a = false /\ attr_named "rec" a = false.
Proof. unfold no_help. destruct (attr_named "auto_enum" a), (attr_named "nested" a), (attr_named "never" a), (attr_named "rec" a); auto. Qed.
Lemma has_any_named name a : has_any name a <-> attr_named name a = true.
Proof. unfold has_any, attr_named. rewrite existsb_exists. reflexivity. Qed.
Lemma has_plain_named name a : has_plain name a -> attr_named name a = true.
Proof. intros (p & I & E). apply has_any_named. exists (MPath p). auto. Qed.
Lemma removes_named name a x a' : removes name a x a' -> attr_named name a = true.
Proof.
  intros (l & r & -> & _ & E & _). unfold attr_named. rewrite existsb_app. cbn. rewrite E, orb_true_r. reflexivity.
Qed.
Lemma set_attrs_same e : set_attrs e (e_attrs e) = e.
Proof. destruct e; reflexivity. Qed.
Lemma attrs_step_same w a a' : no_help a = true -> attrs_step w a a' -> a' = a.
Proof.
  intros N H. apply no_help_named in N. destruct N as (_ & _ & N & _).
  destruct H as [|?|p b b' _ H]; try reflexivity. apply removes_named in H. congruence.
Qed.
Lemma past_same a w : attr_named "auto_enum" a = false -> past a w = w.
Proof. intros E. unfold past. rewrite E, orb_false_r. destruct w; reflexivity. Qed.

(** ** A step at an expression without annotations *)

Definition exit_or_macro (e : expr) : bool :=
  match e with EReturn _ _ | ETry _ _ | EMacro _ _ => true | _ => false end.

Lemma exit_step_none w e e' : ~ taken_exit w e -> exit_step w e e' -> e' = e.
Proof. intros N H. destruct H; try reflexivity; contradiction. Qed.
Lemma nested_step_none w e e' : attr_named "nested" (e_attrs e) = false -> nested_step w e e' -> e' = e.
Proof. intros N H. destruct H as [|? ? ? ? ? ? _ H]; [reflexivity|]. apply removes_named in H. congruence. Qed.
Lemma under_none w semi e e' : attr_named "auto_enum" (e_attrs e) = false -> under w semi e e' ->
  parts (fun _ => done w false) (fun _ => done_stmt w) (fun _ => done_arm w) [] e e'.
Proof. intros N H. destruct H as [|? ? ? ? ? ? ? ? ? H]; [assumption|]. apply removes_named in H. congruence. Qed.
Lemma marker_step_none w e e' : (forall a p x, e = EMacro a (Mac p x) -> is_ident p (w_marker w) = false) -> marker_step w e e' -> e' = e.
Proof. intros N H. destruct H as [v a p x E|]; [|reflexivity]. rewrite (N _ _ _ eq_refl) in E. discriminate. Qed.
Lemma close_none w e e' : no_help (e_attrs e) = true ->
  (forall a p x, e = EMacro a (Mac p x) -> is_ident p (w_marker w) = false) -> close_step w e e' -> e' = e.
Proof.
  intros N M H. destruct H as [|e e1 a' _ S A]; [reflexivity|]. apply marker_step_none in S; [|exact M]. subst e1.
  rewrite (attrs_step_same _ _ _ N A). apply set_attrs_same.
Qed.
Lemma parts_attrs Re Rs Ra t e e' : parts Re Rs Ra t e e' -> e_attrs e' = e_attrs e.
Proof. destruct 1; reflexivity. Qed.
Lemma parts_macro Re Rs Ra t e a m : parts Re Rs Ra t e (EMacro a m) -> e = EMacro a m.
Proof. inversion 1; reflexivity. Qed.

Lemma done_parts w semi e e' : no_help (e_attrs e) = true -> exit_or_macro e = false -> done w semi e e' ->
  parts (fun _ => done (enter e w) false) (fun _ => done_stmt (enter e w)) (fun _ => done_arm (enter e w)) [] e e'.
Proof.
  intros N X H. destruct H as [w semi e e1 e2 e3 e' H1 H2 H3 H4].
  destruct (no_help_named _ N) as (A & B & _).
  apply exit_step_none in H1. 2: { intros (_ & K). destruct e; try discriminate X; contradiction. } subst e1.
  apply nested_step_none in H2; [|exact B]. subst e2. apply under_none in H3; [|exact A].
  apply close_none in H4; [subst; exact H3| |].
  - rewrite (parts_attrs _ _ _ _ _ _ H3). exact N.
  - intros a p x ->. apply parts_macro in H3. subst. discriminate X.
Qed.
Definition plain_form (e : expr) : bool :=
  match e with EReturn _ _ | ETry _ _ | EMacro _ _ | EClosure _ _ _ | EBlk KTry _ _ => false | _ => true end.
Lemma done_plain w semi e e' : no_help (e_attrs e) = true -> plain_form e = true -> done w semi e e' ->
  parts (fun _ => done w false) (fun _ => done_stmt w) (fun _ => done_arm w) [] e e'.
Proof.
  intros N X H. replace w with (enter e w); [apply done_parts with (semi := semi); [exact N| |exact H]; destruct e; try discriminate X; reflexivity|].
  destruct (no_help_named _ N) as (A & _). unfold enter. rewrite past_same by exact A.
  destruct e; try discriminate X; try reflexivity. destruct k; try discriminate X; reflexivity.
Qed.

(** ** Down to the end *)

Ltac nilapp := repeat match goal with H : [] = ?a ++ ?b |- _ => symmetry in H; apply app_eq_nil in H; destruct H; subst
                                    | H : ?a ++ ?b = [] |- _ => apply app_eq_nil in H; destruct H; subst end.

Lemma no_value_block m a l r e : no_help a = true -> no_value m (EBlock a l (r ++ [SExpr e false])) -> no_value m e.
Proof.
  intros N H. destruct (no_help_named _ N) as (A & _ & B & _). inversion H as [? P|? P|? ? b s K E|?| | | | | | | |]; subst.
  - apply has_plain_named in P. cbn [e_attrs] in P. congruence.
  - apply has_any_named in P. cbn [e_attrs] in P. congruence.
  - match goal with E : _ ++ [_] = _ ++ [_] |- _ => apply app_inj_tail in E; destruct E; subst end.
    match goal with K : no_value_stmt _ _ |- _ => inversion K; subst; assumption end.
Qed.
Lemma no_value_unsafe m a r e : no_help a = true -> no_value m (EBlk KUnsafe a (r ++ [SExpr e false])) -> no_value m e.
Proof.
  intros N H. destruct (no_help_named _ N) as (A & _ & B & _). inversion H as [? P|? P| |? b s K E| | | | | | | |]; subst.
  - apply has_plain_named in P. cbn [e_attrs] in P. congruence.
  - apply has_any_named in P. cbn [e_attrs] in P. congruence.
  - match goal with E : _ ++ [_] = _ ++ [_] |- _ => apply app_inj_tail in E; destruct E; subst end.
    match goal with K : no_value_stmt _ _ |- _ => inversion K; subst; assumption end.
Qed.
Lemma no_value_method m a e q l : no_help a = true -> no_value m (EMethodCall a e q l) -> no_value m e.
Proof.
  intros N H. destruct (no_help_named _ N) as (A & _ & B & _). inversion H as [? P|? P| | | | | | | | | |]; subst.
  - apply has_plain_named in P. cbn [e_attrs] in P. congruence.
  - apply has_any_named in P. cbn [e_attrs] in P. congruence.
  - assumption.
Qed.
Lemma no_value_paren m a e : no_help a = true -> no_value m (EParen a e) -> no_value m e.
Proof.
  intros N H. destruct (no_help_named _ N) as (A & _ & B & _). inversion H as [? P|? P| | | | | | | | | |]; subst.
  - apply has_plain_named in P. cbn [e_attrs] in P. congruence.
  - apply has_any_named in P. cbn [e_attrs] in P. congruence.
  - assumption.
Qed.
Lemma ends_in_value_snoc r e : ends_in_value (r ++ [SExpr e false]) = true.
Proof.
  unfold ends_in_value. induction r as [|s r IH]; [reflexivity|]. cbn [app on_last]. destruct (r ++ [SExpr e false]) eqn:E; [destruct r; discriminate|].
  exact IH.
Qed.

Lemma branches_block w t a l r e e1 : no_help a = true -> branches w t (EBlock a l (r ++ [SExpr e false])) e1 ->
  exists x, e1 = EBlock a l (r ++ [SExpr x false]) /\ branches w t e x.
Proof.
  intros N. unfold branches. destruct (w_branches w); [|intros [-> ->]; eauto].
  inversion 1 as [? NV|? BL| | | |? ? ? r0 e0 x NV T E| | |]; subst.
  - exists e. split; [reflexivity|]. constructor. eapply no_value_block; eassumption.
  - cbn in BL. rewrite ends_in_value_snoc in BL. discriminate.
  - match goal with E : _ ++ [_] = _ ++ [_] |- _ => apply app_inj_tail in E; destruct E as [-> E]; injection E as -> end. eauto.
Qed.
Lemma branches_unsafe w t a r e e1 : no_help a = true -> branches w t (EBlk KUnsafe a (r ++ [SExpr e false])) e1 ->
  exists x, e1 = EBlk KUnsafe a (r ++ [SExpr x false]) /\ branches w t e x.
Proof.
  intros N. unfold branches. destruct (w_branches w); [|intros [-> ->]; eauto].
  inversion 1 as [? NV|? BL| | | | |? ? r0 e0 x NV T E| |]; subst.
  - exists e. split; [reflexivity|]. constructor. eapply no_value_unsafe; eassumption.
  - cbn in BL. rewrite ends_in_value_snoc in BL. discriminate.
  - match goal with E : _ ++ [_] = _ ++ [_] |- _ => apply app_inj_tail in E; destruct E as [-> E]; injection E as -> end. eauto.
Qed.
Lemma branches_method w t a e q l e1 : no_help a = true -> branches w t (EMethodCall a e q l) e1 ->
  exists x, e1 = EMethodCall a x q l /\ branches w t e x.
Proof.
  intros N. unfold branches. destruct (w_branches w); [|intros [-> ->]; eauto].
  inversion 1 as [? NV|? BL| | | | | |? ? ? x ? ? NV T E|]; subst.
  - exists e. split; [reflexivity|]. constructor. eapply no_value_method; eassumption.
  - discriminate.
  - eauto.
Qed.
Lemma branches_paren w t a e e1 : no_help a = true -> branches w t (EParen a e) e1 ->
  exists x, e1 = EParen a x /\ branches w t e x.
Proof.
  intros N. unfold branches. destruct (w_branches w); [|intros [-> ->]; eauto].
  inversion 1 as [? NV|? BL| | | | | | |? ? ? x NV T E]; subst.
  - exists e. split; [reflexivity|]. constructor. eapply no_value_paren; eassumption.
  - discriminate.
  - eauto.
Qed.

Theorem outcome_end w t e y e' : ends_with e y -> outcome w t e e' -> exists y', same_end e y e' y' /\ outcome w t y y'.
Proof.
  intros H. revert e'. induction H as [y|a l r e y N H IH|a r e y N H IH|a e m l y N H IH|a e y N H IH]; intros e' (e1 & B & D).
  - exists e'. split; [constructor|exists e1; auto].
  - apply branches_block in B; [|exact N]. destruct B as (x & -> & B). apply done_plain in D; [|exact N|reflexivity].
    inversion D as [? ? ? ? b' S| | | | | | | | | | | | | | | | | | |]; subst. apply block_done_snoc in S. destruct S as (r' & s' & -> & S1 & S2).
    inversion S2 as [? ? x' ? DX| | | |]; subst. destruct (IH x') as (y' & S & O); [exists x; auto|].
    exists y'. split; [constructor; [eapply seq2_length; exact S1|exact S]|exact O].
  - apply branches_unsafe in B; [|exact N]. destruct B as (x & -> & B). apply done_plain in D; [|exact N|reflexivity].
    inversion D as [|? ? ? ? b' S| | | | | | | | | | | | | | | | | |]; subst. apply block_done_snoc in S. destruct S as (r' & s' & -> & S1 & S2).
    inversion S2 as [? ? x' ? DX| | | |]; subst. destruct (IH x') as (y' & S & O); [exists x; auto|].
    exists y'. split; [constructor; [eapply seq2_length; exact S1|exact S]|exact O].
  - apply branches_method in B; [|exact N]. destruct B as (x & -> & B). apply done_plain in D; [|exact N|reflexivity].
    inversion D; subst. match goal with D : done w false x ?x' |- _ => destruct (IH x') as (y' & S & O); [exists x; auto|] end.
    exists y'. split; [constructor; [eapply seq2_length; eassumption|exact S]|exact O].
  - apply branches_paren in B; [|exact N]. destruct B as (x & -> & B). apply done_plain in D; [|exact N|reflexivity].
    inversion D; subst. match goal with D : done w false x ?x' |- _ => destruct (IH x') as (y' & S & O); [exists x; auto|] end.
    exists y'. split; [constructor; exact S|exact O].
Qed.

(** ** The forms *)

Lemma match_outcome w t a s x y' : w_branches w = true -> no_help a = true -> outcome w t (EMatch a s x) y' ->
  exists s' x', y' = EMatch a s' x' /\ done w false s s' /\ seq2 (arm_outcome w) t x x'.
Proof.
  intros WB N (e1 & B & D). destruct (no_help_named _ N) as (A & _ & NN & _).
  assert (exists x1, e1 = EMatch a s x1 /\ seq2 (arm_wrapped (w_enum w) (w_mark w)) t x x1) as (x1 & -> & S).
  { unfold branches in B. rewrite WB in B. inversion B as [? NV|? BL|? ? ? ? x1 NV S| | | | | |]; subst.
    - exists x. split; [reflexivity|]. inversion NV as [? P|? P| | | | | | | |? ? ? K| |]; subst.
      + apply has_plain_named in P. cbn [e_attrs] in P. congruence.
      + apply has_any_named in P. cbn [e_attrs] in P. congruence.
      + clear -K. induction K as [|b p g c d l P K IH|b p g c d l P K IH]; [constructor| |];
          (change (@nil string) with (@nil string ++ []); constructor; [constructor; cbn; tauto|exact IH]).
    - discriminate.
    - eauto. }
  apply done_plain in D; [|exact N|reflexivity]. inversion D as [| |t1 t2 ? ? s' ? x' D1 D2| | | | | | | | | | | | | | | | |]; subst. nilapp.
  exists s', x'. split; [reflexivity|]. split; [exact D1|]. apply (seq2_compose _ _ _ _ _ _ S), seq2_in. exact D2.
Qed.

Lemma if_shape own m t e e' : if_wrapped own m t e e' -> exists a c b o b' o', e = EIf a c b o /\ e' = EIf a c b' o'.
Proof. destruct 1; repeat eexists. Qed.
Lemma done_if w a c b o e' : no_help a = true -> done w false (EIf a c b o) e' ->
  exists c' b' o', e' = EIf a c' b' o' /\ done w false c c' /\ block_done w b b' /\ maybe2 (fun _ => done w false) [] o o'.
Proof.
  intros N D. apply done_plain in D; [|exact N|reflexivity].
  inversion D as [| | |t1 t2 t3 ? ? c' ? b' ? o' D1 D2 D3| | | | | | | | | | | | | | | |]; subst. nilapp. exists c', b', o'. auto.
Qed.
Lemma done_block w a l b e' : no_help a = true -> done w false (EBlock a l b) e' -> exists b', e' = EBlock a l b' /\ block_done w b b'.
Proof. intros N D. apply done_plain in D; [|exact N|reflexivity]. inversion D; subst. eauto. Qed.

Lemma chain_of w t e e1 : if_wrapped (w_enum w) (w_mark w) t e e1 -> bare_chain e = true ->
  forall e', done w false e1 e' -> chain_outcome w t e e'.
Proof.
  induction 1 as [t1 t2 a c b1 b1' ea l b2 b2' W1 W2|t1 t2 a c b1 b1' e2 e2' W1 W2 IH]; cbn [bare_chain]; intros N e' D;
    apply andb_true_iff in N; destruct N as [N1 N2]; apply done_if in D; try exact N1;
    destruct D as (c' & b' & o' & -> & D1 & D2 & D3); inversion D3 as [|? ? x' D4]; subst.
  - apply done_block in D4; [|exact N2]. destruct D4 as (eb' & -> & D4). constructor; [exact D1|exists b1'; auto|exists b2'; auto].
  - apply co_else_if; [exact D1|exists b1'; auto|auto].
Qed.
Lemma if_outcome w t e y' : w_branches w = true -> bare_chain e = true -> (exists a c b o, e = EIf a c b o) ->
  outcome w t e y' -> chain_outcome w t e y'.
Proof.
  intros WB N (a & c & b & o & ->) (e1 & B & D). unfold branches in B. rewrite WB in B.
  assert (NA : no_help a = true) by (cbn in N; destruct o; [apply andb_true_iff in N; tauto|exact N]).
  destruct (no_help_named _ NA) as (A & _ & NN & _).
  inversion B as [? NV|? BL| |? ? ? ? ? ? NV W| | | | |]; subst.
  - inversion NV as [? P|? P| | | | | | | | | |]; subst.
    + apply has_plain_named in P. cbn [e_attrs] in P. congruence.
    + apply has_any_named in P. cbn [e_attrs] in P. congruence.
  - discriminate.
  - eapply chain_of; eassumption.
Qed.
Lemma chain_else w t e e' : chain_outcome w t e e' -> no_else e = false.
Proof. induction 1; [reflexivity|cbn; assumption]. Qed.

Lemma loop_outcome_of w t a l b y' : w_branches w = true -> no_help a = true -> outcome w t (ELoop a l b) y' ->
  exists b', y' = ELoop a l b' /\ loop_outcome w l t b b'.
Proof.
  intros WB N (e1 & B & D). destruct (no_help_named _ N) as (A & _ & NN & _).
  assert (exists b1, e1 = ELoop a l b1 /\ seq2 (breaks_stmt (w_enum w) (w_mark w) l false) t b b1) as (b1 & -> & S).
  { unfold branches in B. rewrite WB in B. inversion B as [? NV|? BL| | |? ? ? ? b1 NV S| | | |]; subst.
    - inversion NV as [? P|? P| | | | | | | | | |]; subst.
      + apply has_plain_named in P. cbn [e_attrs] in P. congruence.
      + apply has_any_named in P. cbn [e_attrs] in P. congruence.
    - discriminate.
    - eauto. }
  apply done_plain in D; [|exact N|reflexivity]. inversion D; subst. eexists. split; [reflexivity|]. exists b1. auto.
Qed.

(** ** The whole *)

Lemma value_in_outcome own m e y x e1 e' :
  value_in m e y x -> code own m e e1 -> declared own e1 e' ->
  exists y' k, placed_in own e y e' y' /\ outcome (outermost own m x) (from 0 k) y y'.
Proof.
  intros V C D. destruct V as [a ps b y E|e y CL E].
  - inversion C as [? ? ? b' B|? ? NC]; subst; [|contradiction].
    inversion B as [? ? b1 k ? BR DN|? ? ? ? G]; subst; [|discriminate].
    destruct (outcome_end _ _ _ _ _ E (ex_intro _ _ (conj BR DN))) as (y' & S & O). exists y', k. split; [|exact O]. eapply pi_closure; eassumption.
  - inversion C as [? ? ? b' B|? ? NC B]; subst; [discriminate|].
    inversion B as [? ? b1 k ? BR DN|? ? ? ? G]; subst; [|discriminate].
    destruct (outcome_end _ _ _ _ _ E (ex_intro _ _ (conj BR DN))) as (y' & S & O). exists y', k. split; [|exact O]. eapply pi_other; eassumption.
Qed.

Lemma fn_takes_unique m b out x x' : fn_takes m b out x -> fn_takes m b out x' -> x' = x.
Proof.
  assert (R : forall bs, ~ result_impl (TImpl bs)).
  { intros bs H. apply result_impl_iff in H. discriminate. }
  destruct 1 as [bs|t RI Q|out N1 N2]; inversion 1; subst; try reflexivity; exfalso;
    repeat match goal with
    | H : result_impl (TImpl _) |- _ => exact (R _ H)
    | N : forall bs, Some (TImpl ?b) <> Some (TImpl bs) |- _ => exact (N b eq_refl)
    | N : forall t, Some ?u = Some t -> result_impl t -> _, H : result_impl ?u, Q : 2 <= _ |- _ =>
        apply (Nat.lt_irrefl 2); eapply Nat.le_lt_trans; [exact Q|]; exact (N u eq_refl H)
    end.
Qed.

Theorem value_outcome own m i i' y x : expanded own m i i' -> value_of m i y x ->
  exists y' k, placed own i y i' y' /\ outcome (outermost own m x) (from 0 k) y y'.
Proof.
  intros H V. destruct H as [e e1 e' C D|e e1 e' C D|e e1 e' B D|a p t t' e e1 e' d T C D|a sg out x' k b b1 b2 b' FT NE BB DS D|a mc semi].
  - inversion V; subst. destruct (value_in_outcome own _ _ _ _ _ _ ltac:(eassumption) C D) as (y' & k & P & O). exists y', k.
    split; [constructor; exact P|exact O].
  - inversion V; subst. destruct (value_in_outcome own _ _ _ _ _ _ ltac:(eassumption) C D) as (y' & k & P & O). exists y', k.
    split; [constructor; exact P|exact O].
  - inversion V.
  - inversion V; subst. destruct (value_in_outcome own _ _ _ _ _ _ ltac:(eassumption) C D) as (y' & k & P & O). exists y', k.
    split; [constructor; exact P|exact O].
  - inversion V as [| | |? ? ? r e ? ? FT' E]; subst. apply (fn_takes_unique _ _ _ _ _ FT) in FT'. subst x'.
    assert (exists e1, b1 = r ++ [SExpr e1 false] /\ branches (outermost own m x) (from 0 k) e e1) as (e1 & -> & BR).
    { unfold branches_body in BB. unfold branches. destruct (w_branches _); [|destruct BB as [-> ->]; eauto].
      inversion BB as [? r0 e0 e1 T E0|? NV]; subst.
      - match goal with E : _ ++ [_] = _ ++ [_] |- _ => apply app_inj_tail in E; destruct E as [-> E]; injection E as -> end. eauto.
      - rewrite ends_in_value_snoc in NV. discriminate. }
    apply block_done_snoc in DS. destruct DS as (r' & s' & -> & S1 & S2). inversion S2 as [? ? e2 ? DN| | | |]; subst.
    destruct (outcome_end _ _ _ _ _ E (ex_intro _ _ (conj BR DN))) as (y' & S & O). exists y', k.
    split; [|exact O]. eapply pl_fn; [eapply seq2_length; exact S1|exact S|exact D].
  - inversion V.
Qed.

(** ** Parts that use no variant *)

Lemma seq2_middle {A} (R : list string -> A -> A -> Prop) n k pre x post l' : seq2 R (from n k) (pre ++ x :: post) l' ->
  (forall t y, R t x y -> t = []) ->
  exists k1 k2 pre' x' post', l' = pre' ++ x' :: post' /\ seq2 R (from n k1) pre pre' /\ R [] x x' /\ seq2 R (from (n + k1) k2) post post'.
Proof.
  assert (FS : forall t1 t2 n k, from n k = t1 ++ t2 -> exists k1 k2, t1 = from n k1 /\ t2 = from (n + k1) k2).
  { induction t1 as [|v t1 IH]; intros t2 m j E; [exists 0, j; rewrite Nat.add_0_r; auto|].
    destruct j as [|j]; [discriminate|]. cbn in E. injection E as <- E. destruct (IH _ _ _ E) as (k1 & k2 & -> & ->).
    exists (S k1), k2. split; [reflexivity|]. f_equal. lia. }
  intros H NX. remember (from n k) as t eqn:E. remember (pre ++ x :: post) as l eqn:EL. symmetry in E. revert n k pre E EL.
  induction H as [|t1 t2 y y' l l' H1 H2 IH]; intros n k pre E EL; [destruct pre; discriminate|].
  destruct pre as [|z pre]; cbn in EL; injection EL as -> ->.
  - pose proof (NX _ _ H1) as ->. exists 0, k, [], y', l'. cbn in E. rewrite Nat.add_0_r, E. repeat split; [constructor|exact H1|exact H2].
  - destruct (FS _ _ _ _ E) as (j1 & j2 & -> & E2). subst t2. destruct (IH _ _ _ eq_refl eq_refl) as (k1 & k2 & pre' & x' & post' & -> & S1 & R1 & S2).
    exists (j1 + k1), k2, (y' :: pre'), x', post'. repeat split; [|exact R1|rewrite Nat.add_assoc; exact S2].
    replace (from n (j1 + k1)) with (from n j1 ++ from (n + j1) k1); [constructor; assumption|].
    unfold from. rewrite seq_app, map_app. reflexivity.
Qed.
