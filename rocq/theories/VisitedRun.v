(** The visitor of an attribute follows the specification of the visit (Changes.v) at every node. *)

Require Import Coq.Strings.String Coq.Lists.List Coq.Bool.Bool Coq.NArith.NArith.
Require Import Verif.Syntax Verif.Context Verif.ExprModel Verif.AutoEnum Verif.Edits Verif.NoValueSpec Verif.Tails Verif.ArgsSpec Verif.Changes.
Require Import Verif.RunLemmas Verif.Twin Verif.TwinBase Verif.TwinRun Verif.ChangesRun Verif.ChangesInd Verif.BranchesRun Verif.ArgsRun.
Import ListNotations.
Open Scope string_scope.
Open Scope list_scope.

(** The variants so far are [Variant0], [Variant1], ..., as in every context that [Context::new] and [next_expr] make. *)
Definition numbered (cx : ctx) : Prop := cx_variants cx = variants (length (cx_variants cx)).

Lemma st_self cx : numbered cx -> st cx cx.
Proof. intros H. split; try reflexivity. exact H. Qed.

Section Visited.
  Variables (hash : node -> N) (ta : bool) (n : nat) (sc : scope) (cx cx' : ctx).
  Hypothesis good : cx_errs cx' = [].
  Hypothesis num : numbered cx.
  Let R := engine hash ta n.

  Lemma visited_expr semi e e' : r_vexpr R sc semi e cx = ROk (e', cx') -> done (who_of cx sc) semi e e'.
  Proof.
    intros H. apply (g_vexpr _ (changes_engine hash ta n)).
    destruct (i_vexpr _ _ (into_engine hash ta n) cx sc semi e _ _ _ H good (st_self cx num)) as (P & _ & -> & Q). exact Q.
  Qed.
  Lemma visited_stmt s s' : r_vstmt R sc s cx = ROk (s', cx') -> done_stmt (who_of cx sc) s s'.
  Proof.
    intros H. apply (g_vstmt _ (changes_engine hash ta n)).
    destruct (i_vstmt _ _ (into_engine hash ta n) cx sc s _ _ _ H good (st_self cx num)) as (P & _ & -> & Q). exact Q.
  Qed.
  Lemma visited_arm y y' : r_varm R sc y cx = ROk (y', cx') -> done_arm (who_of cx sc) y y'.
  Proof.
    intros H. apply (g_varm _ (changes_engine hash ta n)).
    destruct (i_varm _ _ (into_engine hash ta n) cx sc y _ _ _ H good (st_self cx num)) as (P & _ & -> & Q). exact Q.
  Qed.
  Lemma visited_local y y' : r_vlocal R sc y cx = ROk (y', cx') -> done_local (who_of cx sc) y y'.
  Proof.
    intros H. apply (g_vlocal _ (changes_engine hash ta n)).
    destruct (i_vlocal _ _ (into_engine hash ta n) cx sc y _ _ _ H good (st_self cx num)) as (P & _ & -> & Q). exact Q.
  Qed.
End Visited.

Lemma removes_fun name a x a' y b' : removes name a x a' -> removes name a y b' -> x = y /\ a' = b'.
Proof.
  intros (l & r & -> & -> & I1 & N1) (l2 & r2 & E & -> & I2 & N2). unfold attr_named in *. revert l2 E N2.
  induction l as [|z l IH]; intros [|z2 l2] E N2; cbn in *; try injection E as -> E; subst.
  - auto.
  - rewrite I1 in N2. discriminate.
  - rewrite I2 in N1. discriminate.
  - apply orb_false_iff in N1, N2. destruct N1 as [_ N1], N2 as [_ N2]. destruct (IH N1 l2 E N2) as [-> ->]. auto.
Qed.

(** An expression with [#[auto_enum(..)]] on it: first its parts are visited by the attribute [w] around it, then it is expanded. *)
Definition visited_by (w : who) (e e' : expr) : Prop :=
  parts (fun _ => done (lent w) false) (fun _ => done_stmt (lent w)) (fun _ => done_arm (lent w)) [] e e'.
(** Neither an exit nor a macro, closure or [unsafe], [async], [try] block. *)
Definition plain_form (e : expr) : Prop :=
  match e with EReturn _ _ | ETry _ _ | EMacro _ _ | EClosure _ _ _ | EBlk _ _ _ => False | _ => True end.
Lemma done_child w semi e e' p toks a' :
  done w semi e e' -> removes "auto_enum" (e_attrs e) (MList p toks) a' ->
  plain_form e ->
  exists e1 c e2, visited_by (past (e_attrs e) w) (set_attrs e a') e1
    /\ child w toks c /\ expands (if semi then set_branches false c else c) e1 e2 /\ close_step (past (e_attrs e) w) e2 e'.
Proof.
  intros D R K. inversion D as [? ? ? e1 e2 e3 ? X N U C]; subst.
  assert (EN : enter e w = past (e_attrs e) w) by (destruct e; cbn in K; try contradiction; reflexivity). rewrite EN in *.
  assert (NM : attr_named "auto_enum" (e_attrs e) = true) by (eapply removes_named; exact R).
  assert (e1 = e) as -> by (inversion X; subst; try contradiction; reflexivity).
  assert (e2 = e) as -> by (inversion N as [|? ? ? ? ? ? F]; subst; [reflexivity|cbn in F; rewrite NM, orb_true_r in F; discriminate]).
  inversion U as [? ? ? ? A|? ? ? p2 toks2 a2 e1 c ? R2 P C2 X2]; subst; [congruence|].
  destruct (removes_fun _ _ _ _ _ _ R R2) as [E1 E2]. injection E1 as <- <-. subst a2. exists e1, c, e3. repeat split; try assumption; apply C2.
Qed.

Lemma close_same w e e' : close_step w e e' -> w_foreign w = true -> match e with EMacro _ _ => False | _ => True end -> e' = e.
Proof.
  intros H F K. inversion H as [|? e1 a' F1 MS AS]; subst; [reflexivity|].
  inversion MS; subst; [contradiction|]. inversion AS; subst; try congruence. destruct e1; reflexivity.
Qed.

Lemma child_given w toks c ps mo : child w toks c -> parse_args toks = inr (ps, mo) -> ps <> [] -> w_given c = true.
Proof.
  intros (_ & _ & _ & _ & _ & _ & l & A & G & MK) P N. apply G.
  assert (Q : parse_args toks = inr (traits_of l, match markers_of l with [m] => Some m | _ => None end)).
  { destruct (markers_of l) as [|m [|]] eqn:E; [| |contradiction]; apply parse_args_grammar; exists l; auto. }
  congruence.
Qed.
