(** Proof: an attribute that wraps neither branches nor exits only replaces its markers ([only_markers], Branches.v). *)

Require Import Coq.Strings.String Coq.Lists.List Coq.Bool.Bool.
Require Import Verif.Syntax Verif.ExprModel Verif.Edits Verif.NoValueSpec Verif.Tails Verif.TwinEdits.
Require Import Verif.Changes Verif.ChangesInd Verif.ChangesTop Verif.Branches Verif.BranchesRun Verif.CleanRun Verif.BranchesClean.
Import ListNotations.
Open Scope string_scope.
Open Scope list_scope.

Definition idle_who (w : who) : Prop := w_branches w = false /\ w_exits w = TakesNone /\ w_foreign w = false.

Lemma lacks_split n e : lacks n e = true <-> attr_named n (e_attrs e) = false
  /\ fold_expr andb true (lacks n) (lacks_stmt n) (lacks_arm n) e = true.
Proof. destruct e; cbn [lacks e_attrs]; rewrite andb_true_iff, negb_true_iff; reflexivity. Qed.

Section Parts.
  Variables (Re Qe : list string -> expr -> expr -> Prop) (Rs Qs : list string -> stmt -> stmt -> Prop)
            (Ra Qa : list string -> arm -> arm -> Prop) (fe : expr -> bool) (fs : stmt -> bool) (fa : arm -> bool).
  Hypothesis He : forall t x x', Re t x x' -> fe x = true -> Qe t x x'.
  Hypothesis Hs : forall t x x', Rs t x x' -> fs x = true -> Qs t x x'.
  Hypothesis Ha : forall t x x', Ra t x x' -> fa x = true -> Qa t x x'.
  Lemma seq2_when {A} (R Q : list string -> A -> A -> Prop) (f : A -> bool) (H : forall t x x', R t x x' -> f x = true -> Q t x x') t l l' :
    seq2 R t l l' -> fold_list andb true f l = true -> seq2 Q t l l'.
  Proof. induction 1; cbn; [constructor|]. intros C. apply andb_true_iff in C. destruct C. constructor; auto. Qed.
  Lemma maybe2_when {A} (R Q : list string -> A -> A -> Prop) (f : A -> bool) (H : forall t x x', R t x x' -> f x = true -> Q t x x') t l l' :
    maybe2 R t l l' -> fold_opt true f l = true -> maybe2 Q t l l'.
  Proof. destruct 1; cbn; intros; constructor; auto. Qed.
  Lemma parts_when t e e' : parts Re Rs Ra t e e' -> fold_expr andb true fe fs fa e = true -> parts Qe Qs Qa t e e'.
  Proof.
    intros H C. destruct H; cbn [fold_expr] in C; repeat (apply andb_true_iff in C; destruct C as [? C]);
      constructor; eauto using seq2_when, maybe2_when.
  Qed.
End Parts.

Lemma ho_one name a b x : name = "nested" \/ name = "never" -> removes name a x b -> helpers_off a b.
Proof. intros N R. eapply ho_drop; [exact N|exact R|constructor]. Qed.
Lemma ho_trans a b c : helpers_off a b -> helpers_off b c -> helpers_off a c.
Proof. induction 1; intros; [assumption|]. econstructor; eauto. Qed.
Lemma ho_attrs w a a' : attrs_step w a a' -> helpers_off a a'.
Proof. destruct 1; try constructor. eapply ho_one; [right; reflexivity|eassumption]. Qed.
Lemma attrs_parts Re Rs Ra t e e' a : parts Re Rs Ra t (set_attrs e a) e' -> parts Re Rs Ra t e (set_attrs e' (e_attrs e)).
Proof. intros H. destruct e; cbn [set_attrs] in H; inversion H; subst; cbn [set_attrs e_attrs]; constructor; assumption. Qed.
Lemma parts_attrs_same Re Rs Ra t e e' : parts Re Rs Ra t e e' -> e_attrs e' = e_attrs e.
Proof. destruct 1; reflexivity. Qed.
Lemma set_twice e a b : set_attrs (set_attrs e a) b = set_attrs e b.
Proof. destruct e; reflexivity. Qed.
Lemma lacks_drop n m e x a' : removes m (e_attrs e) x a' -> lacks n e = true -> lacks n (set_attrs e a') = true.
Proof.
  intros (l & r & E & -> & _) H. apply lacks_split in H. destruct H as [H1 H2]. apply lacks_split.
  rewrite E in H1. unfold attr_named in *. rewrite existsb_app in H1. cbn in H1. apply orb_false_iff in H1. destruct H1 as [H1 H3].
  apply orb_false_iff in H3. destruct H3 as [_ H3].
  split; [|destruct e; exact H2]. destruct e; cbn [set_attrs e_attrs] in *; try (rewrite existsb_app, H1, H3; reflexivity). destruct l; discriminate.
Qed.

Theorem idle_only_markers :
  (forall w semi e e', done w semi e e' -> idle_who w -> lacks "auto_enum" e = true -> only_markers (w_enum w) (w_marker w) e e')
  /\ (forall w s s', done_stmt w s s' -> idle_who w -> lacks_stmt "auto_enum" s = true -> only_markers_stmt (w_enum w) (w_marker w) s s').
Proof.
  pose (Pd (w : who) (semi : bool) e e' := idle_who w -> lacks "auto_enum" e = true -> only_markers (w_enum w) (w_marker w) e e').
  pose (Pu (w : who) (semi : bool) e e' := idle_who w -> lacks "auto_enum" e = true ->
    parts (fun _ => only_markers (w_enum w) (w_marker w)) (fun _ => only_markers_stmt (w_enum w) (w_marker w))
          (fun _ => only_markers_arm (w_enum w) (w_marker w)) [] e e').
  pose (Ps (w : who) s s' := idle_who w -> lacks_stmt "auto_enum" s = true -> only_markers_stmt (w_enum w) (w_marker w) s s').
  pose (Pa (w : who) s s' := idle_who w -> lacks_arm "auto_enum" s = true -> only_markers_arm (w_enum w) (w_marker w) s s').
  pose (Pl (w : who) s s' := idle_who w -> lacks_local "auto_enum" s = true -> only_markers_stmt (w_enum w) (w_marker w) (SLocal s) (SLocal s')).
  assert (C : cases Pd Pu Ps (fun _ _ _ => True) Pa (fun _ _ _ => True) Pl (fun _ _ _ => True) (fun _ _ _ => True)
              (fun _ _ _ => True) (fun _ _ _ => True) (fun _ _ _ => True) (fun _ _ _ => True)).
  { constructor; try (intros; exact I).
    - intros w semi e e1 e2 e3 e' H1 H2 _ HU H4 (WB & WX & WF) L. pose proof L as L0. apply lacks_split in L. destruct L as [LA LF].
      assert (EN : enter e w = w \/ enter e w = set_exits TakesNone w).
      { unfold enter. rewrite past_same by exact LA. destruct e; auto. rewrite WX. destruct k; auto. }
      assert (ID : idle_who (enter e w)) by (destruct EN as [->| ->]; repeat split; assumption).
      assert (Q : w_enum (enter e w) = w_enum w /\ w_marker (enter e w) = w_marker w) by (destruct EN as [->| ->]; auto).
      destruct Q as [Q1 Q2]. unfold Pu in HU. rewrite Q1, Q2 in HU. destruct ID as (IB & IX & IF).
      assert (e1 = e) as ->.
      { inversion H1 as [? ? ? [_ K]|? ? ? [_ K]|]; subst; try reflexivity; rewrite IX in K; contradiction. }
      assert (E2 : exists a2, helpers_off (e_attrs e) a2 /\ e2 = set_attrs e a2 /\ lacks "auto_enum" e2 = true).
      { inversion H2 as [? K|? p a' n k ? K1 K2 K3]; subst.
        - exists (e_attrs e2). rewrite set_attrs_same. repeat split; [constructor|assumption].
        - exists a'. unfold branches in K3. rewrite IB in K3. destruct K3 as [_ ->]. repeat split; [eapply ho_one; [left; reflexivity|exact K2]|].
          eapply lacks_drop; eassumption. }
      destruct E2 as (a2 & HO & -> & L2). specialize (HU (conj IB (conj IX IF)) L2).
      pose proof (parts_attrs_same _ _ _ _ _ _ HU) as EA.
      inversion H4 as [? K|? e4 a' K1 K2 K3]; subst; [congruence|]. apply ho_attrs in K3.
      assert (HO2 : helpers_off (e_attrs e) (e_attrs (set_attrs e a2))).
      { destruct e; cbn [set_attrs e_attrs] in *; first [assumption|constructor]. }
      inversion K2 as [v a p x IM|e4' NM]; subst.
      + rewrite Q1, Q2 in *. cbn [set_attrs e_attrs] in *. assert (EX : e = EMacro (e_attrs e) (Mac p (Some x))).
        { inversion HU; subst; destruct e; try discriminate. cbn [set_attrs e_attrs] in *. congruence. }
        rewrite EX. apply om_mark; [exact IM|]. eapply ho_trans; [exact HO2|]. rewrite <- EA. exact K3.
      + assert (NM' : forall a p x, e = EMacro a (Mac p x) -> is_ident p (w_marker w) = false).
        { intros a p x ->. cbn [set_attrs] in HU. inversion HU; subst. rewrite <- Q2. eapply NM. reflexivity. }
        apply attrs_parts in HU. rewrite <- (set_twice e4 (e_attrs e) a'). apply om_parts; [exact NM'|exact HU|].
        eapply ho_trans; [exact HO2|]. rewrite <- EA. exact K3.
    - intros w semi e e' A H ID L. apply lacks_split in L. destruct L as [_ L].
      eapply parts_when; [| | |exact H|exact L]; cbn; intros t x x' [_ K] CX; exact (K ID CX).
    - intros w semi e p toks a' e1 c e' R _ _ _ _ ID L. apply removes_named in R. apply lacks_split in L. destruct L. congruence.
    - intros w e e' semi _ H ID L. constructor. exact (H ID L).
    - intros w i _ _. constructor.
    - intros w a m semi _ _. constructor.
    - intros w a p t i d l' A _ H ID L. exact (H ID L).
    - intros w a x toks a' p t i d l1 c l' R _ _ _ _ _ _ ID L. cbn in L. apply andb_true_iff in L. destruct L as [L _].
      apply removes_named in R. rewrite R in L. discriminate.
    - intros w x a p g b c g' b' a' NA G _ B AS ID L. apply ho_attrs in AS.
      assert (X : exists a0, x = Arm a0 p g b c /\ helpers_off a0 a).
      { destruct ID as (IB & _). inversion NA as [|? ? ? ? ? ? ? ? n k ? R K]; subst; [eexists; split; [reflexivity|constructor]|].
        unfold branches in K. rewrite IB in K. destruct K as [_ ->]. eexists. split; [reflexivity|]. eapply ho_one; [left; reflexivity|exact R]. }
      destruct X as (a0 & -> & HO). cbn [lacks_arm fold_arm] in L. apply andb_true_iff in L. destruct L as [L1 L2]. constructor.
      + eapply maybe2_when; [|exact G|exact L1]. intros t y y' [_ K] CX. exact (K ID CX).
      + exact (B ID L2).
      + eapply ho_trans; eassumption.
    - intros w x a p t i d i' d' a' NA G1 G2 AS ID L. apply ho_attrs in AS.
      assert (X : exists a0, x = Local a0 p t i d /\ helpers_off a0 a).
      { destruct ID as (IB & _). inversion NA as [|? ? ? ? ? ? ? R|? ? ? ? ? ? ? ? n k ? R K]; subst; try (eexists; split; [reflexivity|constructor]; fail).
        - eexists. split; [reflexivity|]. eapply ho_one; [left; reflexivity|exact R].
        - unfold branches in K. rewrite IB in K. destruct K as [_ ->]. eexists. split; [reflexivity|]. eapply ho_one; [left; reflexivity|exact R]. }
      destruct X as (a0 & -> & HO). cbn [lacks_local fold_local] in L. apply andb_true_iff in L. destruct L as [_ L].
      apply andb_true_iff in L. destruct L as [L1 L2]. constructor.
      + eapply maybe2_when; [|exact G1|exact L1]. intros t0 y y' [_ K] CX. exact (K ID CX).
      + eapply maybe2_when; [|exact G2|exact L2]. intros t0 y y' [_ K] CX. exact (K ID CX).
      + eapply ho_trans; eassumption. }
  split; intros w.
  - exact (ind_done _ _ _ _ _ _ _ _ _ _ _ _ _ C w).
  - exact (ind_stmt _ _ _ _ _ _ _ _ _ _ _ _ _ C w).
Qed.

Theorem semi_only_markers own m e i' : expanded own m (InStmt (SExpr e true)) i' -> lacks "auto_enum" e = true ->
  exists e1 e', i' = InStmt (SExpr e' true) /\ only_markers own m e e1 /\ declared own e1 e'.
Proof.
  intros H L. inversion H as [| |? e1 e' B D| | |]; subst. exists e1, e'. split; [reflexivity|]. split; [|exact D].
  inversion B as [? ? e2 k ? K1 K2|]; subst; [|discriminate]. unfold branches in K1. cbn in K1. destruct K1 as [_ ->].
  destruct idle_only_markers as [K _]. apply (K _ _ _ _ K2); [repeat split|exact L].
Qed.
