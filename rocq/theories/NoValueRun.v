(** [is_unreachable] decides [no_value]. *)

Require Import Coq.Strings.String Coq.Lists.List Coq.Bool.Bool Coq.Arith.Arith Lia.
Require Import Verif.Syntax Verif.Context Verif.ExprModel.
Require Import Verif.AstInd Verif.ArgsSpec Verif.ArgsRun Verif.NoValueSpec.
Import ListNotations.
Open Scope string_scope.
Open Scope list_scope.

(** The names that a context takes for markers. *)
Definition ctx_marker (cx : ctx) (s : string) : Prop :=
  s = cx_marker cx \/ (cx_root cx = false /\ In s (cx_markers cx)).

Lemma marker_macro_iff cx m :
  is_marker_macro cx m = true <-> exists s, ctx_marker cx s /\ is_ident (mac_path m) s = true.
Proof.
  unfold is_marker_macro, is_marker_macro_exact, ctx_marker.
  destruct (is_ident (mac_path m) (cx_marker cx)) eqn:E.
  - cbn. split; [intros _; eauto|reflexivity].
  - cbn. destruct (cx_root cx).
    + split; [discriminate|]. intros (s & [->|[X _]] & H); congruence.
    + rewrite existsb_exists. split.
      * intros (s & I & H). exists s. auto.
      * intros (s & [->|[_ I]] & H); [congruence|eauto].
Qed.

Lemma unreachable_macro_iff cx m :
  is_unreachable_macro cx m = true <-> no_value_macro (ctx_marker cx) m.
Proof.
  unfold is_unreachable_macro, no_value_macro, panics. destruct m as [p x]. cbn [existsb].
  rewrite !orb_true_iff, marker_macro_iff. cbn [mac_path].
  rewrite <- (path_eq_names p [] "panic"), <- (path_eq_names p [] "unreachable"). cbn [app].
  split; [intros [[X|[X|X]]|X]; try discriminate; auto|intros [[X|X]|X]; auto].
Qed.

Lemma empty_attr_iff a name : any_empty_attr a name = true <-> has_plain name a.
Proof.
  unfold any_empty_attr, has_plain. rewrite existsb_exists. split.
  - intros ([p| |] & I & H); try discriminate. eauto.
  - intros (p & I & H). eauto.
Qed.

Lemma any_attr_iff a name : any_attr a name = true <-> has_any name a.
Proof. unfold any_attr, has_any. apply existsb_exists. Qed.

Lemma try_exit_iff x : is_try_exit x = true <-> stops_try x.
Proof.
  split.
  - destruct x; try discriminate; cbn [is_try_exit].
    + destruct args as [|y [|]]; cbn [length Nat.eqb]; try discriminate.
      destruct x; try discriminate. destruct qself; [discriminate|]. intros H. apply st_err.
      apply (path_eq_names p ["result"; "Result"] "Err"). exact H.
    + destruct qself; [discriminate|]. intros H. apply st_none.
      apply (path_eq_names p ["option"; "Option"] "None"). exact H.
  - intros [a p H|a b p e H]; cbn.
    + apply (path_eq_names p ["option"; "Option"] "None"). exact H.
    + apply (path_eq_names p ["result"; "Result"] "Err"). exact H.
Qed.

Lemma on_last_snoc {A} (f : stmt -> A) d b s : on_last f d (b ++ [s]) = f s.
Proof.
  induction b as [|x b IH]; [reflexivity|]. cbn [app on_last].
  destruct (b ++ [s]) eqn:E; [destruct b; discriminate|]. exact IH.
Qed.

Lemma on_last_inv {A} (f : stmt -> A) d b : b = [] \/ exists b0 s, b = b0 ++ [s] /\ on_last f d b = f s.
Proof.
  destruct b as [|s b] using rev_ind; [auto|]. right. exists b, s. split; [reflexivity|]. apply on_last_snoc.
Qed.

Section Iff.
  Variable cx : ctx.
  Notation nv := (no_value (ctx_marker cx)).
  Notation nvs := (no_value_stmt (ctx_marker cx)).
  Notation nva := (no_value_arms (ctx_marker cx)).

  Lemma attr_case e (b : bool) :
    (if any_empty_attr (e_attrs e) NEVER || any_attr (e_attrs e) NAME then true else b) = true <->
    has_plain "never" (e_attrs e) \/ has_any "auto_enum" (e_attrs e) \/ b = true.
  Proof.
    rewrite <- empty_attr_iff, <- any_attr_iff. change "never" with NEVER. change "auto_enum" with NAME.
    destruct (any_empty_attr _ _), (any_attr _ _), b; cbn; intuition congruence.
  Qed.

  Lemma unreachable_sound :
    (forall e, is_unreachable cx e = true -> nv e)
    /\ (forall s, is_unreachable_stmt cx s = true -> nvs s)
    /\ (forall x, match x with Arm a _ _ b _ => is_unreachable cx b = true -> nv b end)
    /\ (forall l, match l with Local _ _ _ (Some e) _ => is_unreachable cx e = true -> nv e | _ => True end).
  Proof.
    assert (BL : forall b, Forall (fun s => is_unreachable_stmt cx s = true -> nvs s) b ->
               on_last (is_unreachable_stmt cx) false b = true -> exists b0 s, b = b0 ++ [s] /\ nvs s).
    { intros b H E. destruct (on_last_inv (is_unreachable_stmt cx) false b) as [->|(b0 & s & -> & X)]; [discriminate|].
      exists b0, s. split; [reflexivity|]. rewrite X in E. apply Forall_app in H. destruct H as [_ H].
      inversion H; subst. auto. }
    apply ast_ind; intros; cbn [is_unreachable is_unreachable_stmt] in *;
      try (match goal with H : context [any_empty_attr] |- _ => apply attr_case in H end;
           match goal with H : _ \/ _ \/ _ |- _ => destruct H as [X|[X|X]];
             [apply nv_never; exact X|apply nv_auto_enum; exact X|] end);
      try discriminate;
      try (first [apply nv_break|apply nv_continue|apply nv_return|apply nvs_item]; fail); auto.
    - destruct (BL _ H X) as (b0 & s & -> & N). apply nv_block. assumption.
    - destruct k; try discriminate. destruct (BL _ H X) as (b0 & s & -> & N). apply nv_unsafe. assumption.
    - apply nv_match. clear H. induction H0 as [|x l Hx _ IH]; [constructor|].
      destruct x as [a0 p g b c]. cbn [forallb] in X. apply andb_true_iff in X. destruct X as [X1 X2].
      apply orb_true_iff in X1. destruct X1 as [X1|X1].
      + apply nva_never; [apply empty_attr_iff; exact X1|auto].
      + apply nva_body; auto.
    - apply nv_try. apply try_exit_iff. exact X.
    - apply nv_macro. apply unreachable_macro_iff. exact X.
    - apply nv_method. auto.
    - apply nv_paren. auto.
    - destruct l as [a p t [e|] d]; [|discriminate]. constructor. auto.
    - constructor. auto.
    - constructor. apply unreachable_macro_iff. assumption.
  Qed.

  Lemma unreachable_complete :
    (forall e, nv e -> is_unreachable cx e = true)
    /\ (forall l, nva l -> forallb (fun x => match x with
                             | Arm a _ _ b _ => any_empty_attr a NEVER || is_unreachable cx b
                             end) l = true)
    /\ (forall s, nvs s -> is_unreachable_stmt cx s = true).
  Proof.
    apply (no_value_ind3 (ctx_marker cx) (fun e _ => is_unreachable cx e = true)
       (fun l _ => forallb (fun x => match x with
                             | Arm a _ _ b _ => any_empty_attr a NEVER || is_unreachable cx b
                             end) l = true)
       (fun s _ => is_unreachable_stmt cx s = true)); intros; cbn [is_unreachable is_unreachable_stmt forallb];
      try (apply attr_case; right; right; cbn; auto; fail).
    - destruct e; apply attr_case; auto.
    - destruct e; apply attr_case; auto.
    - apply attr_case. right. right. rewrite on_last_snoc. assumption.
    - apply attr_case. right. right. rewrite on_last_snoc. assumption.
    - apply attr_case. right. right. apply unreachable_macro_iff. assumption.
    - apply attr_case. right. right. apply try_exit_iff. assumption.
    - reflexivity.
    - apply empty_attr_iff in h. change "never" with NEVER in h. rewrite h. cbn. assumption.
    - rewrite H, orb_true_r. cbn. assumption.
    - assumption.
    - assumption.
    - reflexivity.
    - apply unreachable_macro_iff. assumption.
  Qed.

  Theorem unreachable_iff e : is_unreachable cx e = true <-> nv e.
  Proof. split; [apply unreachable_sound|apply unreachable_complete]. Qed.

  Theorem unreachable_stmt_iff s : is_unreachable_stmt cx s = true <-> nvs s.
  Proof. split; [apply unreachable_sound|apply unreachable_complete]. Qed.
End Iff.
