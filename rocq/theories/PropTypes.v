(** Property C43: the associated types of generated implementations. *)

Require Import Coq.Strings.String Coq.Lists.List Coq.Bool.Bool.
Require Import Verif.Syntax Verif.Derive Verif.DeriveTable Verif.EnumDerive Verif.DeriveSpec Verif.DeriveRun Verif.DeriveTop Verif.RequestRun Verif.TransposeRun.
Require Import Verif.AgreeSpec Verif.AgreeRun.
Import ListNotations.
Open Scope string_scope.
Open Scope list_scope.

(** A generated implementation applies exactly to the enums whose fields satisfy what the trait asks for; it asks for
    nothing else. *)
Theorem C43_applies : forall (T : Type) (W : setting T) feat ts i o g tr,
  enum_derive feat ts i = inr o -> In (GImpl g) (do_items o) -> gi_trait g = Some tr ->
  (applies (holds_in W) g <->
   fits W (fun t => exists v, has_variant i v t) (gn_where (ei_generics i)) (map fst (gi_assoc g)) tr).
Proof.
  intros T W feat ts i o g tr H Hg ET. destruct (output_fits W _ _ _ _ _ H Hg) as (d & D & G). destruct (G tr ET) as [G1 _].
  assert (X : forall t, In t (field_types d) <-> exists v, has_variant i v t).
  { intros t. rewrite (all_fields_types _ _ D). split; [intros Ht; eapply field_has_variant; eauto|intros [v V]; eapply has_variant_field; eauto]. }
  assert (Y : gn_where (d_generics d) = gn_where (ei_generics i)).
  { unfold parse_data in D. destruct (ei_variants i); [discriminate|]. destruct (variant_types _); [|discriminate]. injection D as <-. reflexivity. }
  rewrite Y in G1. unfold applies. rewrite G1. split; apply fits_field; intros t; [apply X|symmetry; apply X].
Qed.
Print Assumptions C43_applies.

(** Where it applies, an associated type that it declares is the one of every field. *)
Theorem C43_types : forall (T : Type) (W : setting T) feat ts i o g tr n x v t,
  enum_derive feat ts i = inr o -> In (GImpl g) (do_items o) -> gi_trait g = Some tr -> applies (holds_in W) g ->
  In (n, x) (gi_assoc g) -> has_variant i v t -> denotes W x = type_of W t tr n.
Proof.
  intros T W feat ts i o g tr n x v t H Hg ET A Hx V. pose proof (proj1 (C43_applies T W feat ts i o g tr H Hg ET) A) as F.
  destruct (output_fits W _ _ _ _ _ H Hg) as (d & D & G). destruct (G tr ET) as [_ G2]. destruct (G2 _ _ Hx) as (t0 & H0 & ->). cbn [denotes].
  rewrite (all_fields_types _ _ D) in H0. destruct (field_has_variant _ _ _ _ _ H H0) as [v0 V0].
  apply (fits_types _ _ _ _ _ F); [apply in_map_iff; exists (n, AProj t0 tr n); auto|eauto|eauto].
Qed.
Print Assumptions C43_types.

(** [enum E<A, B> { X(A), Y(B) }] with [A] and [B] iterators over the same type. *)
Definition two : enum_item :=
  EnumItem [] "E" (Generics [(false, ["A"]); (false, ["B"])] false [["A"; ":"; "Send"]])
    [VariantItem "X" (FTuple [["A"]]) None; VariantItem "Y" (FTuple [["B"]]) None].
(** Everything is a number: the items of both are [1]. *)
Definition same_items : setting nat := Setting nat (fun _ _ => True) (fun _ _ _ => 1) (fun _ => True) (fun _ => True) (fun _ => 1).
(** The items of [B] are [2]. *)
Definition other_items : setting nat :=
  Setting nat (fun _ _ => True) (fun t _ _ => if existsb (String.eqb "B") t then 2 else 1) (fun _ => True) (fun _ => True) (fun _ => 1).
(** The implementations for a list of traits. *)
Definition impls (names : list string) : list gimpl :=
  match enum_derive (fun _ => true) (flat_map (fun n => [TkIdent n; TkComma]) names) two with
  | inr o => flat_map (fun it => match it with GImpl g => [g] | _ => [] end) (do_items o)
  | inl _ => []
  end.
Example C43_example :
  match impls ["Iterator"; "DoubleEndedIterator"; "Fn"; "Error"] with
  | a :: b :: l =>
      Forall (applies (holds_in same_items)) (a :: b :: l) /\ l <> []
      /\ ~ applies (holds_in other_items) a /\ ~ applies (holds_in other_items) b /\ gi_assoc a <> [] /\ gi_assoc b = []
  | _ => False
  end.
Proof.
  vm_compute. repeat match goal with |- _ /\ _ => split end.
  - repeat constructor; intros n x H; repeat (destruct H as [H|H]; [injection H as <- <-; reflexivity|]); destruct H.
  - discriminate.
  - intros A; inversion A as [|? ? _ A1]; inversion A1 as [|? ? _ A2]; inversion A2 as [|? ? E _]; clear - E; cbv beta in E; destruct E as [_ E];
      specialize (E _ _ (or_introl eq_refl)); discriminate E.
  - intros A; inversion A as [|? ? _ A1]; inversion A1 as [|? ? _ A2]; inversion A2 as [|? ? E _]; clear - E; cbv beta in E; destruct E as [_ E];
      specialize (E _ _ (or_introl eq_refl)); discriminate E.
  - discriminate.
  - reflexivity.
Qed.
