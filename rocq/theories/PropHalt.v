(** Property C14: the expansion always ends, without panicking and with one result. *)

Require Import Coq.Strings.String Coq.Lists.List Coq.Bool.Bool Coq.Arith.Arith Coq.NArith.NArith Lia.
Require Import Verif.Syntax Verif.Context Verif.ExprModel Verif.AutoEnum.
Require Import Verif.Grammar Verif.HaltRun Verif.Deeper Verif.Samples.
Import ListNotations.
Open Scope string_scope.
Open Scope list_scope.

(** The samples are grammatical and are expanded. *)
Example sample_wf : wf_input sample_fn = true /\ wf_input (InExpr sample_match) = true.
Proof. vm_compute. auto. Qed.

(** From some depth of recursion on the macro returns code or errors, always the same.  The depth is
    not bounded in the Rust code, so this is its termination. *)
Theorem C14_terminates : forall hash ta args i,
  wf_input i = true ->
  exists n o, forall m, n <= m -> attribute hash ta m args i = ROk o.
Proof. exact attribute_halts. Qed.
Print Assumptions C14_terminates.

(** No panic ([unreachable!], [unwrap] of nothing, failed [debug_assert!]) is reached at any depth. *)
Theorem C14_no_panic : forall hash ta n args i s,
  wf_input i = true -> attribute hash ta n args i <> RPanic s.
Proof. exact attribute_no_panic. Qed.
Print Assumptions C14_no_panic.

(** The results at two depths agree. *)
Theorem C14_unique : forall hash ta n m args i o o',
  attribute hash ta n args i = ROk o -> attribute hash ta m args i = ROk o' -> o = o'.
Proof. exact attribute_unique. Qed.
Print Assumptions C14_unique.

(** The condition is needed: [if c {} else f()], which Rust's grammar does not have, panics. *)
Example C14_condition :
  let i := InExpr (EIf [] (var "c") [] (Some (call0 "f"))) in
  wf_input i = false /\ attribute sample_hash false 50 sample_args i = RPanic "wrong_if".
Proof. vm_compute. auto. Qed.

(** A deep input needs many levels: a chain of parentheses around the sample. *)
Fixpoint parens (n : nat) (e : expr) : expr :=
  match n with O => e | S n => EParen [] (parens n e) end.
Example C14_depth :
  let i := InExpr (parens 60 sample_match) in
  wf_input i = true
  /\ attribute sample_hash false 50 sample_args i = RFuel
  /\ exists i' cx, attribute sample_hash false 100 sample_args i = ROk (Code i' cx).
Proof. vm_compute. eauto. Qed.
