(** Consequences of the edits for the whole output of [attribute]. *)

Require Import Coq.Strings.String Coq.Lists.List Coq.Bool.Bool Coq.Arith.Arith Coq.NArith.NArith Lia.
Require Import Coq.Sorting.Permutation Coq.Numbers.DecimalString Coq.Numbers.DecimalNat.
Require Import Verif.Syntax Verif.Context Verif.ExprModel Verif.TypeAnalysis Verif.AutoEnum.
Require Import Verif.AstInd Verif.Edits Verif.Scope Verif.AttrFold Verif.RunLemmas Verif.EditsRun.
Require Import Verif.Frame Verif.VisitRun Verif.EngineRun Verif.AttributeRun Verif.ScopeRun.
Import ListNotations.
Open Scope string_scope.
Open Scope list_scope.

(** ** Names *)

Lemma to_uint_nonnil n : Nat.to_uint n <> Decimal.Nil.
Proof.
  intros E. pose proof (f_equal Nat.of_uint E) as F. rewrite Unsigned.of_to in F. cbn in F.
  subst. discriminate.
Qed.

Lemma dec_nat_inj n m : dec_nat n = dec_nat m -> n = m.
Proof.
  unfold dec_nat. intros H. apply (f_equal NilZero.uint_of_string) in H.
  rewrite !NilZero.usu in H by apply to_uint_nonnil.
  inversion H. apply Unsigned.to_uint_inj. assumption.
Qed.

Lemma append_inj a b c : String.append a b = String.append a c -> b = c.
Proof. induction a; cbn; [auto|]. intros H. inversion H. auto. Qed.

Lemma variant_name_inj n m : variant_name n = variant_name m -> n = m.
Proof. intros H. apply append_inj, dec_nat_inj in H. assumption. Qed.

Lemma variants_NoDup n : NoDup (variants n).
Proof.
  unfold variants. apply FinFun.Injective_map_NoDup; [|apply seq_NoDup].
  intros a b. apply variant_name_inj.
Qed.

(** ** Inputs *)

Section Input.
  Variable mk : string -> bool.

  Lemma uses_input t i i' iv :
    ed_input mk t i i' -> uses iv i' = uses iv i + count_occ ctor_dec (flat_map used t) iv.
  Proof.
    unfold uses. destruct (mentions_edit mk iv) as (He & _ & _ & Hs & Hss & _).
    intros H. inversion H; subst; cbn [mentions].
    - apply He; assumption.
    - match goal with HS : ed_stmt _ _ _ _ |- _ =>
        pose proof (Hs _ _ _ HS); inversion HS; subst; cbn [mentions]; try assumption end.
      match goal with |- context [match ?it with _ => _ end] => destruct it; cbn; lia end.
    - unfold mentions_block. inversion H0; subst; [apply Hss; assumption|].
      cbn [flat_map mentions_stmt fold_stmt used app]. rewrite app_nil_r. apply Hss. assumption.
  Qed.

  Lemma decls_input {B} (dec : forall x y : B, {x = y} + {x <> y}) (g : genum -> list B) b t i i' :
    ed_input mk t i i' ->
    count_occ dec (flat_map g (decls i')) b
    = count_occ dec (flat_map g (decls i)) b + count_occ dec (flat_map g (flat_map enums t)) b.
  Proof.
    destruct (decls_edit mk dec g b) as (He & _ & _ & Hs & Hss & _).
    intros H. inversion H; subst; cbn [decls].
    - apply He; assumption.
    - match goal with HS : ed_stmt _ _ _ _ |- _ =>
        pose proof (Hs _ _ _ HS); inversion HS; subst; cbn [decls]; try assumption end.
      match goal with |- context [match ?it with _ => _ end] => destruct it; cbn; lia end.
    - unfold decls_block. inversion H0; subst; [apply Hss; assumption|].
      cbn [flat_map decls_stmt fold_stmt enums app].
      match goal with HB : ed_stmts _ _ _ _ |- _ => pose proof (Hss _ _ _ HB) end.
      rewrite !app_nil_r. cbn [flat_map]. rewrite !count_occ_app. lia.
  Qed.

  Lemma decls_in_input t i i' g :
    ed_input mk t i i' -> (In g (decls i') <-> In g (decls i) \/ In g (flat_map enums t)).
  Proof.
    destruct (decls_in mk g) as (He & _ & _ & Hs & Hss & _).
    intros H. inversion H; subst; cbn [decls].
    - apply He; assumption.
    - match goal with HS : ed_stmt _ _ _ _ |- _ =>
        pose proof (Hs _ _ _ HS); inversion HS; subst; cbn [decls]; try assumption end.
      match goal with |- context [match ?it with _ => _ end] => destruct it; cbn; tauto end.
    - unfold decls_block. match goal with HB : ed_body _ _ _ _ |- _ => inversion HB; subst end;
        [apply Hss; assumption|].
      cbn [flat_map decls_stmt fold_stmt enums app]. rewrite app_nil_r.
      match goal with HB : ed_stmts _ _ _ _ |- _ => pose proof (Hss _ _ _ HB) end.
      cbn [In]. tauto.
  Qed.

  Lemma unscoped_input t i i' :
    ed_input mk t i i' -> incl (unscoped i') (unscoped i ++ flat_map free t).
  Proof.
    destruct (unscoped_edit mk) as (He & _ & _ & Hs & Hss & _).
    assert (F : forall l, filter (undeclared []) l = l).
    { induction l; cbn; congruence. }
    intros H. inversion H; subst; cbn [unscoped].
    - pose proof (He _ _ _ H0 []) as I. rewrite F in I. assumption.
    - match goal with HS : ed_stmt _ _ _ _ |- _ =>
        pose proof (proj1 (Hs _ _ _ HS) []) as I; rewrite F in I;
        inversion HS; subst; cbn [unscoped]; try assumption end.
      match goal with |- context [match ?it with _ => _ end] =>
        destruct it; cbn; rewrite ?app_nil_r; apply incl_refl end.
    - unfold unscoped_block.
      match goal with HB : ed_body _ _ _ _ |- _ => inversion HB; subst end;
        match goal with HB : ed_stmts _ _ _ _ |- _ => destruct (Hss _ _ _ HB) as [S E] end.
      + pose proof (sc_block t b b' [] S E) as I.
        rewrite F in I. exact I.
      + match goal with |- context [IEnum ?g0] => set (g := g0) end. cbn [flat_map unscoped_stmt app free].
        rewrite !app_nil_r.
        match goal with |- context [block_enums (SItem (IEnum g) :: ?l)] =>
          change (block_enums (SItem (IEnum g) :: l)) with (g :: block_enums l) end.
        rewrite E. intros x Hx. apply (S (g :: block_enums b)) in Hx. rewrite in_app_iff in *.
        destruct Hx as [Hx|Hx].
        * left. revert Hx. apply (mono_flat unscoped_stmt).
          -- apply Forall_all. apply unscoped_mono.
          -- apply (weaker_skip [g]).
        * right. rewrite !filter_In in *. destruct Hx as [Hx D].
          unfold undeclared in D. cbn in D. rewrite negb_orb in D. apply andb_prop in D. tauto.
  Qed.

  (** Every generated enum has the shape of [enum_of]. *)
  Definition shaped (g : genum) : Prop :=
    exists i n d, 2 <= n /\ g = enum_of i (variants n) d.

  Lemma enums_shaped_edit :
    (forall t e e', ed_expr mk t e e' -> Forall shaped (flat_map enums t))
    /\ (forall t l l', ed_exprs mk t l l' -> Forall shaped (flat_map enums t))
    /\ (forall t o o', ed_opt mk t o o' -> Forall shaped (flat_map enums t))
    /\ (forall t s s', ed_stmt mk t s s' -> Forall shaped (flat_map enums t))
    /\ (forall t l l', ed_stmts mk t l l' -> Forall shaped (flat_map enums t))
    /\ (forall t x x', ed_arm mk t x x' -> Forall shaped (flat_map enums t))
    /\ (forall t l l', ed_arms mk t l l' -> Forall shaped (flat_map enums t))
    /\ (forall t x x', ed_local mk t x x' -> Forall shaped (flat_map enums t)).
  Proof.
    apply (ed_ind mk); intros; rewrite ?flat_map_app; cbn;
      repeat (apply Forall_app; split); auto.
    rewrite app_nil_r. constructor; [|assumption]. unfold shaped. eauto.
  Qed.

  Lemma enums_shaped t i i' : ed_input mk t i i' -> Forall shaped (flat_map enums t).
  Proof.
    destruct enums_shaped_edit as (He & _ & _ & Hs & Hss & _).
    intros H. inversion H; subst; eauto.
    match goal with HB : ed_body _ _ _ _ |- _ => inversion HB; subst; eauto end.
    cbn. rewrite app_nil_r. constructor; [|eauto]. unfold shaped. eauto.
  Qed.
End Input.

(** ** Outputs *)

Section Output.
  Variables (hash : node -> N) (ta : bool).

  Theorem uses_output n args i i' cx iv :
    attribute hash ta n args i = ROk (Code i' cx) -> decls i = [] ->
    uses iv i' = uses iv i + count_occ ctor_dec (flat_map ctors (decls i')) iv.
  Proof.
    intros H D. destruct (attribute_edits _ _ _ _ _ _ _ H) as (t & R & _ & _ & P).
    rewrite (uses_input _ _ _ _ iv R), (decls_input _ ctor_dec ctors iv _ _ _ R), D. cbn.
    f_equal. apply Permutation_count_occ. assumption.
  Qed.

  Theorem scoped_output n args i i' cx :
    attribute hash ta n args i = ROk (Code i' cx) -> incl (unscoped i') (unscoped i).
  Proof.
    intros H. destruct (attribute_edits _ _ _ _ _ _ _ H) as (t & R & _ & F & _).
    pose proof (unscoped_input _ _ _ _ R) as I. rewrite F, app_nil_r in I. exact I.
  Qed.

  Theorem shaped_output n args i i' cx :
    attribute hash ta n args i = ROk (Code i' cx) -> decls i = [] -> Forall shaped (decls i').
  Proof.
    intros H D. destruct (attribute_edits _ _ _ _ _ _ _ H) as (t & R & _ & F & _).
    pose proof (enums_shaped _ _ _ _ R) as S.
    apply Forall_forall. intros g Hg. rewrite Forall_forall in S. apply S.
    apply (decls_in_input _ _ _ _ g R) in Hg. rewrite D in Hg. destruct Hg as [[]|Hg]. exact Hg.
  Qed.
End Output.
