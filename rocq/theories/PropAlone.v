(** Property C51: under [#[auto_enum]] without arguments each attribute acts as if it were alone. *)

Require Import Coq.Strings.String Coq.Lists.List Coq.Bool.Bool Coq.Arith.Arith Coq.NArith.NArith Lia.
Require Import Verif.Syntax Verif.Context Verif.ExprModel Verif.TypeAnalysis Verif.AutoEnum.
Require Import Verif.TraitRun Verif.ArgsSpec Verif.ContextRun Verif.HaltRun Verif.Deeper Verif.Tails Verif.Changes Verif.Outside Verif.OutsideRun
  Verif.Alike Verif.Alone Verif.AloneRun Verif.AloneErr Verif.Samples Verif.PropContext.
Import ListNotations.
Open Scope string_scope.
Open Scope list_scope.

(** Each part with its own attribute, the inner ones first, is replaced by what that attribute alone
    makes of it; everything else stays. *)
Theorem C51_parts : forall hash ta n args i i' cx,
  parse_args args = inr ([], None) -> finds_nothing ta i ->
  attribute hash ta n args i = ROk (Code i' cx) -> alone_input hash ta i i'.
Proof.
  intros hash ta n args i i' cx HP F H. eapply dummy_parts; [exact HP| |exact H]. apply taken_none. exact F.
Qed.
Print Assumptions C51_parts.

(** The errors are those of one part, whose attribute alone gives the same ones. *)
Theorem C51_errors : forall hash ta n args i l,
  parse_args args = inr ([], None) -> finds_nothing ta i -> flat_input i = true ->
  attribute hash ta n args i = ROk (Errors l) ->
  exists s, In s (sites_input i)
    /\ (chooses_marker s \/ (site_args s = None /\ l = [ErrExpectedList]) \/ site_alone hash ta s (Errors l)).
Proof.
  intros hash ta n args i l HP F W H. eapply dummy_refused; [exact HP| |exact W|exact H]. apply taken_none. exact F.
Qed.
Print Assumptions C51_errors.

(** If each attribute alone is accepted, all of them together are. *)
Theorem C51_accepted : forall hash ta n args i o,
  parse_args args = inr ([], None) -> finds_nothing ta i -> flat_input i = true ->
  (forall s, In s (sites_input i) -> ~ chooses_marker s /\ exists j cx, site_alone hash ta s (Code j cx)) ->
  attribute hash ta n args i = ROk o -> exists i' cx, o = Code i' cx.
Proof.
  intros hash ta n args i o HP F W A H. destruct o as [i' cx|l]; [eauto|exfalso].
  destruct (C51_errors _ _ _ _ _ _ HP F W H) as (s & I & R). destruct (A s I) as (M & j & cx & S).
  destruct R as [R|[[R _]|R]]; [exact (M R)| |]; destruct s as [[nd at_] part].
  - destruct S as (toks & k & S & _). congruence.
  - destruct S as (toks & k & S1 & S2), R as (toks2 & k2 & R1 & R2).
    rewrite R1 in S1. inversion S1; subst.
    pose proof (attribute_unique _ _ _ _ _ _ _ _ R2 S2). discriminate.
Qed.
Print Assumptions C51_accepted.

(** Only the name of the enum of the attribute itself is set by [with_name]. *)
Theorem C51_name : forall hash ta n args i,
  attribute (with_name hash (hash (NInput i))) ta n args i = attribute hash ta n args i.
Proof. intros. unfold attribute. cbn [with_name]. rewrite engine_with_name. reflexivity. Qed.
Print Assumptions C51_name.

(** [let y = #[auto_enum(Clone)] if d { u() } else { v() };
     #[auto_enum(Iterator)] let z = match x { 0 => { #[auto_enum(Clone)] if d { u() } else { v() } }, _ => w() };
     #[auto_enum(Iterator)] match x { .. }] *)
Definition C51_body : list stmt :=
  [SLocal (Local [] (PBind "y") None (Some sample_nested_if) None);
   SLocal (Local [auto_enum_attr sample_args] (PBind "z") None
     (Some (EMatch [] (var "x") [arm1 "0" (EBlock [] None [SExpr sample_nested_if false]); arm1 "_" (call0 "w")])) None);
   SExpr (set_attrs sample_match [auto_enum_attr sample_args]) false].
Definition C51_fn (b : list stmt) : input := InStmt (SItem (IFn [] "f" (Some (impl_ty "Iterator")) b)).
(** The same without the part in a part. *)
Definition C51_flat : list stmt :=
  [SLocal (Local [] (PBind "y") None (Some sample_nested_if) None);
   SExpr (set_attrs sample_match [auto_enum_attr sample_args]) false].

(** A part whose attribute is accepted alone, by computation. *)
Definition alone_code (s : site) : bool :=
  match s with
  | (nd, _, part) =>
      match site_args s with
      | Some toks =>
          match parse_args toks with
          | inr (_, None) =>
              match attribute (with_name sample_hash (sample_hash nd)) false 50 toks part with
              | ROk (Code _ _) => true | _ => false end
          | _ => false
          end
      | None => false
      end
  end.
Lemma alone_code_ok s : alone_code s = true ->
  ~ chooses_marker s /\ exists j cx, site_alone sample_hash false s (Code j cx).
Proof.
  destruct s as [[nd at_] part]. unfold alone_code. destruct (site_args (nd, at_, part)) as [toks|] eqn:A; [|discriminate].
  destruct (parse_args toks) as [|[ps [m|]]] eqn:P; try discriminate.
  destruct (attribute _ false 50 toks part) as [[j cx|]| |] eqn:X; try discriminate. intros _. split.
  - intros (toks2 & ps2 & m & B & C). congruence.
  - exists j, cx, toks, 50. auto.
Qed.

Example C51_example :
  parse_args [] = inr ([], None) /\ finds_nothing false (C51_fn C51_body)
  /\ (exists i cx, run [] (C51_fn C51_body) = ROk (Code i cx))
  /\ flat_input (C51_fn C51_body) = false /\ flat_input (C51_fn C51_flat) = true
  /\ length (sites_input (C51_fn C51_flat)) = 2
  /\ (exists i cx, run [] (C51_fn C51_flat) = ROk (Code i cx))
  /\ (forall s, In s (sites_input (C51_fn C51_flat)) ->
        ~ chooses_marker s /\ exists j cx, site_alone sample_hash false s (Code j cx)).
Proof.
  split; [reflexivity|]. split; [intros t bs q X; discriminate|].
  split; [eexists; eexists; vm_compute; reflexivity|]. split; [vm_compute; reflexivity|].
  split; [vm_compute; reflexivity|]. split; [vm_compute; reflexivity|].
  split; [eexists; eexists; vm_compute; reflexivity|].
  assert (X : forallb alone_code (sites_input (C51_fn C51_flat)) = true) by (vm_compute; reflexivity).
  rewrite forallb_forall in X. intros s I. apply alone_code_ok. auto.
Qed.

(** An error: the second part has one branch only. *)
Definition C51_bad : list stmt :=
  [SLocal (Local [] (PBind "y") None (Some sample_nested_if) None);
   SExpr (EMatch [auto_enum_attr sample_args] (var "x") [arm1 "_" (call0 "w")]) true].
Example C51_error_example :
  flat_input (C51_fn C51_bad) = true
  /\ exists l, run [] (C51_fn C51_bad) = ROk (Errors l)
       /\ exists s, In s (sites_input (C51_fn C51_bad)) /\ site_alone sample_hash false s (Errors l).
Proof.
  split; [vm_compute; reflexivity|]. eexists. split; [vm_compute; reflexivity|].
  eexists. split; [right; left; reflexivity|]. exists sample_args, 50. split; [reflexivity|vm_compute; reflexivity].
Qed.

(** The condition on markers is needed: an attribute that chooses the marker [m] leaves [marker!(a())]
    alone under another attribute, but wraps it when it is the only one. *)
Definition C51_own : expr :=
  EMatch [auto_enum_attr (C21_toks "Iterator" "m")] (var "x")
    [arm1 "0" (EMacro [] (Mac (plain_path ["marker"]) (Some (call0 "a")))); arm1 "1" (call0 "b"); arm1 "_" (call0 "w")].
Example C51_condition :
  exists e e', code_of (run [] (InExpr C51_own)) = Some (InExpr e)
    /\ code_of (attribute (with_name sample_hash (sample_hash (NExpr (set_attrs C51_own [])))) false 50
                  (C21_toks "Iterator" "m") (InExpr (set_attrs C51_own []))) = Some (InExpr e')
    /\ e <> e'.
Proof. eexists. eexists. split; [vm_compute; reflexivity|]. split; [vm_compute; reflexivity|]. discriminate. Qed.
