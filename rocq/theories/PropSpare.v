(** C52: an attribute with traits that finds nothing to wrap acts like one without arguments, or is refused. *)

Require Import Coq.Strings.String Coq.Lists.List Coq.Bool.Bool Coq.Arith.Arith Coq.NArith.NArith.
Require Import Verif.Syntax Verif.Context Verif.ExprModel Verif.TypeAnalysis Verif.AutoEnum Verif.ArgsSpec Verif.Samples.
Require Import Verif.Tails Verif.RootRun Verif.PropContext Verif.Alone Verif.PropAlone Verif.Spare Verif.SpareTop.
Import ListNotations.
Open Scope string_scope.
Open Scope list_scope.

(** ** C52 *)

(** If the code has another attribute, the traits make no difference. *)
Theorem C52_same : forall hash ta n args ps i o,
  parse_args args = inr (ps, None) -> ps <> [] -> finds_nothing ta i -> spare_input i -> other_input i = true ->
  attribute hash ta n args i = ROk o ->
  exists o', attribute hash ta n [] i = ROk o' /\ same_outcome o o'.
Proof.
  intros hash ta n args ps i o HP NP F S O H. destruct (spare_run hash ta n args ps i o HP NP F S H) as (o' & H' & X).
  rewrite O in X. eauto.
Qed.
Print Assumptions C52_same.

(** If it has none, the attribute is refused because there are no branches. *)
Theorem C52_refused : forall hash ta n args ps i o,
  parse_args args = inr (ps, None) -> ps <> [] -> finds_nothing ta i -> spare_input i -> other_input i = false ->
  attribute hash ta n args i = ROk o -> o = Errors [ErrFewVariants false (ends_in_semi i)].
Proof.
  intros hash ta n args ps i o HP NP F S O H. destruct (spare_run hash ta n args ps i o HP NP F S H) as (o' & H' & X).
  rewrite O in X. exact X.
Qed.
Print Assumptions C52_refused.

(** The parts with their own attribute are replaced by what it makes of them alone. *)
Theorem C52_parts : forall hash ta n args ps i i' cx,
  parse_args args = inr (ps, None) -> ps <> [] -> finds_nothing ta i -> spare_input i ->
  attribute hash ta n args i = ROk (Code i' cx) -> other_input i = true /\ alone_input hash ta i i'.
Proof.
  intros hash ta n args ps i i' cx HP NP F S H. destruct (other_input i) eqn:O.
  - destruct (C52_same _ _ _ _ _ _ _ HP NP F S O H) as ([j c|] & H' & X); [|contradiction]. cbn in X. subst j.
    split; [reflexivity|]. exact (C51_parts hash ta n [] i i' c eq_refl F H').
  - pose proof (C52_refused _ _ _ _ _ _ _ HP NP F S O H). discriminate.
Qed.
Print Assumptions C52_parts.

(** If each of these attributes is accepted alone, the code is accepted. *)
Theorem C52_accepted : forall hash ta n args ps i o,
  parse_args args = inr (ps, None) -> ps <> [] -> finds_nothing ta i -> spare_input i -> other_input i = true ->
  flat_input i = true ->
  (forall s, In s (sites_input i) -> ~ chooses_marker s /\ exists j cx, site_alone hash ta s (Code j cx)) ->
  attribute hash ta n args i = ROk o -> exists i' cx, o = Code i' cx.
Proof.
  intros hash ta n args ps i o HP NP F S O W A H.
  destruct (C52_same _ _ _ _ _ _ _ HP NP F S O H) as (o' & H' & X).
  destruct (C51_accepted _ _ _ _ _ _ (eq_refl : parse_args [] = inr ([], None)) F W A H') as (j & c & ->).
  destruct o as [i' cx|]; [eauto|contradiction].
Qed.
Print Assumptions C52_accepted.

(** [#[auto_enum(Iterator)] fn f() -> impl Iterator { let y = #[auto_enum(Clone)] if d { u() } else { v() };
    #[auto_enum(Iterator)] match x { .. } }]: the match is not wrapped again. *)
Example C52_example :
  parse_args sample_args = inr ([plain_path ["Iterator"]], None) /\ finds_nothing false (C51_fn C51_flat)
  /\ spare_input (C51_fn C51_flat) /\ other_input (C51_fn C51_flat) = true /\ flat_input (C51_fn C51_flat) = true
  /\ exists i cx, run sample_args (C51_fn C51_flat) = ROk (Code i cx) /\ i <> C51_fn C51_flat.
Proof.
  split; [reflexivity|]. split; [intros t bs q X; discriminate|].
  split; [split; [discriminate|]; split; [vm_compute; reflexivity|left; vm_compute; reflexivity]|].
  split; [vm_compute; reflexivity|]. split; [vm_compute; reflexivity|].
  eexists. eexists. split; [vm_compute; reflexivity|discriminate].
Qed.

(** The same for a statement, a [let] and an expression, and a function without branches, which is refused. *)
Definition C52_plain : input :=
  InStmt (SItem (IFn [] "f" None [SExpr (EReturn [] (Some (call0 "w"))) true; SExpr (EParen [] (call0 "a")) false])).
Example C52_others :
  spare_input (InStmt (SExpr (EClosure [] [] sample_nested_if) true)) /\ other_input (InStmt (SExpr (EClosure [] [] sample_nested_if) true)) = true
  /\ spare_input (InStmt (SLocal (Local [] (PBind "z") None (Some (EParen [] sample_nested_if)) None)))
  /\ spare_input (InExpr (ECall [] (var "f") [sample_nested_if]))
  /\ spare_input C52_plain /\ other_input C52_plain = false
  /\ run sample_args C52_plain = ROk (Errors [ErrFewVariants false false]).
Proof.
  split; [split; [vm_compute; reflexivity|left; reflexivity]|]. split; [reflexivity|].
  split; [repeat split|]. split; [repeat split|].
  split; [|split; vm_compute; reflexivity].
  split; [discriminate|]. split; [vm_compute; reflexivity|]. right. split; [vm_compute; reflexivity|].
  intros (t & E & _). discriminate.
Qed.

(** The conditions are needed: with a [return], a match at the end, or a marker there is a branch to wrap. *)
Definition C52_return : input :=
  InStmt (SItem (IFn [] "f" (Some (impl_ty "Iterator"))
    [SExpr (EReturn [] (Some (call0 "w"))) true; SExpr (EReturn [] (Some (call0 "a"))) true; SExpr (set_attrs sample_match [auto_enum_attr sample_args]) false])).
Example C52_condition :
  other_input C52_return = true
  /\ match run sample_args C52_return, run [] C52_return with
     | ROk (Code i _), ROk (Code j _) => i <> j | _, _ => False end.
Proof. split; [vm_compute; reflexivity|]. vm_compute. discriminate. Qed.
