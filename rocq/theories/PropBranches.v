(** Properties C04, C05, C06, C24 and the parts of C07, C18, C19, C20 that are about branches: what the attribute makes of
    the expression whose branches it wraps.

    [value_of m i y x] (Branches.v): the expression [y] stands at the end of the annotated code [i] - the expression, the
    value of the [let], the body of the closure or the function, through blocks, parentheses and method receivers; [x] tells
    which exits are taken.  [placed own i y i' y']: in the output [y'] stands in its place. *)

Require Import Coq.Strings.String Coq.Lists.List Coq.Bool.Bool Coq.Arith.Arith Coq.NArith.NArith Lia.
Require Import Verif.Syntax Verif.Context Verif.ExprModel Verif.AutoEnum Verif.Edits Verif.NoValueSpec Verif.Tails.
Require Import Verif.ArgsSpec Verif.RunLemmas Verif.Exits Verif.ExitsTop Verif.Changes Verif.ChangesTop Verif.Branches Verif.BranchesRun.
Require Import Verif.ChangesRun Verif.VisitedRun Verif.CleanRun Verif.ElseRun Verif.Loops Verif.LoopsRun Verif.BranchesClean Verif.MarkersRun Verif.Samples.
Import ListNotations.
Open Scope string_scope.
Open Scope list_scope.

Notation enum_for hash i := (enum_name (hash (NInput i))).

(** ** C04 *)

(** An annotated [match]: attributes, scrutinee, patterns and guards stay, the arms use the variants [0 .. k-1] in the order
    of the source; each arm uses one or, if it is skipped, none ([arm_wrapped]).  Afterwards the parts are visited ([done],
    [done_arm]: exits, markers, nested attributes). *)
Theorem C04_arms : forall hash ta n args ps mo i i' cx a s arms x,
  parse_args args = inr (ps, mo) -> ps <> [] ->
  attribute hash ta n args i = ROk (Code i' cx) ->
  value_of (own_marker mo) i (EMatch a s arms) x -> x <> TakesQuestions -> no_help a = true ->
  let w := outermost (enum_for hash i) (own_marker mo) x in
  exists k s' arms', placed (enum_for hash i) i (EMatch a s arms) i' (EMatch a s' arms')
    /\ done w false s s' /\ seq2 (arm_outcome w) (from 0 k) arms arms'.
Proof.
  intros hash ta n args ps mo i i' cx a s arms x HP N H V X NH w. pose proof (attribute_changes hash ta n args ps mo HP N i i' cx H) as E.
  destruct (value_outcome _ _ _ _ _ _ E V) as (y' & k & PL & O).
  apply match_outcome in O; [|destruct x; [reflexivity|reflexivity|congruence]|exact NH]. destruct O as (s' & arms' & -> & D & S). eauto 8.
Qed.
Print Assumptions C04_arms.

(** If its parts hold nothing else that the attribute deals with, the wrapping of arms is the only change. *)
Theorem C04_exact : forall hash ta n args ps mo i i' cx a s arms x,
  parse_args args = inr (ps, mo) -> ps <> [] ->
  attribute hash ta n args i = ROk (Code i' cx) ->
  value_of (own_marker mo) i (EMatch a s arms) x -> x <> TakesQuestions -> clean (own_marker mo) x (EMatch a s arms) = true ->
  exists k arms', placed (enum_for hash i) i (EMatch a s arms) i' (EMatch a s arms')
    /\ seq2 (arm_wrapped (enum_for hash i) (w_mark (outermost (enum_for hash i) (own_marker mo) x))) (from 0 k) arms arms'.
Proof.
  intros hash ta n args ps mo i i' cx a s arms x HP N H V X CL. apply clean_split in CL. destruct CL as [C1 C2].
  apply andb_true_iff in C1. destruct C1 as [C1 _]. cbn [fold_expr exits_in] in C2. apply andb_true_iff in C2. destruct C2 as [C2 C3].
  destruct (C04_arms _ _ _ _ _ _ _ _ _ _ _ _ _ HP N H V X C1) as (k & s' & arms' & PL & D & S). exists k, arms'.
  destruct done_clean_all as (DE & _). rewrite (DE _ _ _ _ D eq_refl C2) in PL. split; [exact PL|].
  apply (arms_clean (outermost (enum_for hash i) (own_marker mo) x)); [reflexivity| |exact S].
  clear -C3. induction arms as [|y arms IH]; [reflexivity|]. cbn in *. apply andb_true_iff in C3. destruct C3. apply andb_true_iff. auto.
Qed.
Print Assumptions C04_exact.

Lemma match_nested : forall w toks c e e' a s arms,
  child w toks c -> w_given c = true -> expands c e e' -> closure e = false -> ends_with e (EMatch a s arms) -> no_help a = true ->
  exists k e1 s' arms', declared (w_enum c) e1 e' /\ same_end e (EMatch a s arms) e1 (EMatch a s' arms')
    /\ done c false s s' /\ seq2 (arm_outcome c) (from 0 k) arms arms'.
Proof.
  intros w toks c e e' a s arms (_ & _ & CB & CX & _) G E CL EW NH. inversion E as [? ? ? G1|? ? e1 ? G1 I D]; subst; [congruence|].
  inversion I as [|? ? ? _ B]; subst; [discriminate|]. inversion B as [? ? e2 k ? BR DN|]; subst; [|congruence].
  destruct (outcome_end c (from 0 k) e _ e1 EW) as (y' & SE & O); [exists e2; auto|].
  apply match_outcome in O; [|exact CB|exact NH]. destruct O as (s' & arms' & -> & D' & S). eauto 10.
Qed.

(** The same for a nested attribute, wherever the visitor of the attribute around it comes upon an expression [e] with it:
    [e] is first visited by that attribute, which makes [e1] of it ([visited_by], VisitedRun.v), then the [match] at its end is treated
    like that of an outermost attribute.  [who_of cx sc] (ChangesRun.v) sums up the context of the visitor. *)
Theorem C04_nested : forall hash ta n sc cx cx' e e' p toks a' ps mo,
  r_vexpr (engine hash ta n) sc false e cx = ROk (e', cx') -> cx_errs cx' = [] -> numbered cx ->
  removes "auto_enum" (e_attrs e) (MList p toks) a' -> parse_args toks = inr (ps, mo) -> ps <> [] -> plain_form e ->
  exists e1 c, visited_by (past (e_attrs e) (who_of cx sc)) (set_attrs e a') e1 /\ child (who_of cx sc) toks c
    /\ forall b s arms, ends_with e1 (EMatch b s arms) -> no_help b = true ->
         exists k e2 s' arms', declared (w_enum c) e2 e' /\ same_end e1 (EMatch b s arms) e2 (EMatch b s' arms')
           /\ done c false s s' /\ seq2 (arm_outcome c) (from 0 k) arms arms'.
Proof.
  intros hash ta n sc cx cx' e e' p toks a' ps mo H G NU R HP N PF. apply visited_expr in H; try assumption.
  destruct (done_child _ _ _ _ _ _ _ H R PF) as (e1 & c & e2 & V & C & X & K). cbn iota in X. exists e1, c. split; [exact V|]. split; [exact C|].
  intros b s arms EW NH. assert (GI := child_given _ _ _ _ _ C HP N).
  destruct (match_nested _ _ _ _ _ b s arms C GI X) as (k & e3 & s' & arms' & D & SE & S1 & S2);
    try assumption; [inversion EW; reflexivity|].
  exists k, e3, s', arms'. assert (e' = e2) as ->; [|auto].
  apply close_same in K; [exact K| |].
  - cbn. rewrite (removes_named _ _ _ _ R). apply orb_true_r.
  - destruct D as [->|(? & ? & _ & ->)]; [|exact I]. inversion SE; exact I.
Qed.
Print Assumptions C04_nested.

Lemma skipped_arms : forall w k pre x post arms',
  seq2 (arm_outcome w) (from 0 k) (pre ++ x :: post) arms' -> arm_skipped (w_mark w) x ->
  exists k1 k2 pre' x' post', arms' = pre' ++ x' :: post' /\ length pre' = length pre
    /\ seq2 (arm_outcome w) (from 0 k1) pre pre' /\ done_arm w x x' /\ seq2 (arm_outcome w) (from k1 k2) post post'.
Proof.
  intros w k pre x post arms' H SK. assert (K : forall t y, arm_outcome w t x y -> t = [] /\ done_arm w x y).
  { intros t y (x1 & A & D). inversion A; subst; [auto|contradiction]. }
  destruct (seq2_middle _ _ _ _ _ _ _ H (fun t y A => proj1 (K t y A))) as (k1 & k2 & pre' & x' & post' & -> & S1 & R1 & S2).
  exists k1, k2, pre', x', post'. repeat split; [eapply seq2_length; exact S1|exact S1|apply (K _ _ R1)|exact S2].
Qed.

(** An arm that is skipped uses no variant: the arms [pre] before it use [k1] of them, those after it the next ones. *)
Theorem C04_skipped : forall hash ta n args ps mo i i' cx a s pre y post x,
  parse_args args = inr (ps, mo) -> ps <> [] ->
  attribute hash ta n args i = ROk (Code i' cx) ->
  value_of (own_marker mo) i (EMatch a s (pre ++ y :: post)) x -> x <> TakesQuestions -> no_help a = true ->
  let w := outermost (enum_for hash i) (own_marker mo) x in
  arm_skipped (w_mark w) y ->
  exists k1 k2 s' pre' y' post', placed (enum_for hash i) i (EMatch a s (pre ++ y :: post)) i' (EMatch a s' (pre' ++ y' :: post'))
    /\ length pre' = length pre /\ seq2 (arm_outcome w) (from 0 k1) pre pre' /\ done_arm w y y' /\ seq2 (arm_outcome w) (from k1 k2) post post'.
Proof.
  intros hash ta n args ps mo i i' cx a s pre y post x HP N H V X NH w SK.
  destruct (C04_arms _ _ _ _ _ _ _ _ _ _ _ _ _ HP N H V X NH) as (k & s' & arms' & PL & D & S).
  destruct (skipped_arms _ _ _ _ _ _ S SK) as (k1 & k2 & pre' & y' & post' & -> & L & S1 & DA & S2).
  exists k1, k2, s', pre', y', post'. auto.
Qed.
Print Assumptions C04_skipped.

(** [match x { 0 => a(), 1 if g() => b(), 2 => panic!(), _ => return } .f()] as the value of a [let]. *)
Definition C04_sample_arms : list arm :=
  [arm1 "0" (call0 "a"); Arm [] (POther "1") (Some (call0 "g")) (EBlock [] None [SExpr (call0 "b") false]) false;
   arm1 "2" (EMacro [] (Mac (plain_path ["panic"]) None)); arm1 "3" (EReturn [] None); arm1 "_" (call0 "c")].
Definition C04_sample : input :=
  InStmt (SLocal (Local [] (PBind "y") None (Some (EMethodCall [] (EMatch [] (var "x") C04_sample_arms) "f" [])) None)).
Example C04_example :
  value_of "marker" C04_sample (EMatch [] (var "x") C04_sample_arms) TakesNone
  /\ clean "marker" TakesNone (EMatch [] (var "x") C04_sample_arms) = true
  /\ match code_of (run sample_args C04_sample) with
     | Some (InStmt (SLocal (Local _ _ _ (Some (EBlock _ _ [_; SExpr (EMethodCall _ (EMatch _ s arms) _ _) _])) _))) =>
         s = var "x"
         /\ arms = [arm1 "0" (wrap "__Enum1" "__Variant0" (call0 "a"));
                    Arm [] (POther "1") (Some (call0 "g")) (wrap "__Enum1" "__Variant1" (EBlock [] None [SExpr (call0 "b") false])) true;
                    arm1 "2" (EMacro [] (Mac (plain_path ["panic"]) None)); arm1 "3" (EReturn [] None);
                    arm1 "_" (wrap "__Enum1" "__Variant2" (call0 "c"))]
     | _ => False
     end.
Proof.
  split; [|vm_compute; auto]. constructor. apply vi_other; [reflexivity|]. apply ew_method; [reflexivity|constructor].
Qed.
(** A nested attribute as in the third theorem: [(#[auto_enum(Clone)] match x { .. })], come upon in the code of an attribute. *)
Example C04_nested_example :
  let e := EParen [auto_enum_attr [TkIdent "Clone"]] (EMatch [] (var "x") C04_sample_arms) in
  numbered sample_ctx /\ removes "auto_enum" (e_attrs e) (auto_enum_attr [TkIdent "Clone"]) [] /\ plain_form e
  /\ exists e' cx', r_vexpr (engine sample_hash false 50) scope0 false e sample_ctx = ROk (e', cx') /\ cx_errs cx' = [].
Proof.
  cbv zeta. split; [reflexivity|]. split; [exists [], []; repeat split|]. split; [exact I|]. do 2 eexists. vm_compute. split; reflexivity.
Qed.

(** ** C05 *)

(** An annotated chain of [if]s: the branches use the variants [0 .. k-1] in the order of the source; a branch [{ b }] that
    uses one becomes [{ Enum::V({ b }) }] ([branch_wrapped]).  Attributes stay; then the parts are visited. *)
Theorem C05_chain : forall hash ta n args ps mo i i' cx a c b o x,
  parse_args args = inr (ps, mo) -> ps <> [] ->
  attribute hash ta n args i = ROk (Code i' cx) ->
  value_of (own_marker mo) i (EIf a c b o) x -> x <> TakesQuestions -> bare_chain (EIf a c b o) = true ->
  exists k y', placed (enum_for hash i) i (EIf a c b o) i' y'
    /\ chain_outcome (outermost (enum_for hash i) (own_marker mo) x) (from 0 k) (EIf a c b o) y'.
Proof.
  intros hash ta n args ps mo i i' cx a c b o x HP N H V X BC. pose proof (attribute_changes hash ta n args ps mo HP N i i' cx H) as E.
  destruct (value_outcome _ _ _ _ _ _ E V) as (y' & k & PL & O). exists k, y'. split; [exact PL|].
  apply if_outcome; [destruct x; [reflexivity|reflexivity|congruence]|exact BC|eauto 6|exact O].
Qed.
Print Assumptions C05_chain.

(** If its parts hold nothing else that the attribute deals with, the wrapping of branches is the only change. *)
Theorem C05_exact : forall hash ta n args ps mo i i' cx a c b o x,
  parse_args args = inr (ps, mo) -> ps <> [] ->
  attribute hash ta n args i = ROk (Code i' cx) ->
  value_of (own_marker mo) i (EIf a c b o) x -> x <> TakesQuestions -> bare_chain (EIf a c b o) = true ->
  clean (own_marker mo) x (EIf a c b o) = true ->
  exists k y', placed (enum_for hash i) i (EIf a c b o) i' y'
    /\ if_wrapped (enum_for hash i) (w_mark (outermost (enum_for hash i) (own_marker mo) x)) (from 0 k) (EIf a c b o) y'.
Proof.
  intros hash ta n args ps mo i i' cx a c b o x HP N H V X BC CL.
  destruct (C05_chain _ _ _ _ _ _ _ _ _ _ _ _ _ _ HP N H V X BC) as (k & y' & PL & CO). exists k, y'. split; [exact PL|].
  apply (chain_clean (outermost (enum_for hash i) (own_marker mo) x)); [reflexivity|exact CL|exact CO].
Qed.
Print Assumptions C05_exact.

Lemma if_nested : forall w toks c e e' a cd b o,
  child w toks c -> w_given c = true -> expands c e e' -> closure e = false -> ends_with e (EIf a cd b o) -> bare_chain (EIf a cd b o) = true ->
  exists k e1 y', declared (w_enum c) e1 e' /\ same_end e (EIf a cd b o) e1 y' /\ chain_outcome c (from 0 k) (EIf a cd b o) y'.
Proof.
  intros w toks c e e' a cd b o (_ & _ & CB & CX & _) G E CL EW NH. inversion E as [? ? ? G1|? ? e1 ? G1 I D]; subst; [congruence|].
  inversion I as [|? ? ? _ B]; subst; [discriminate|]. inversion B as [? ? e2 k ? BR DN|]; subst; [|congruence].
  destruct (outcome_end c (from 0 k) e _ e1 EW) as (y' & SE & O); [exists e2; auto|].
  apply if_outcome in O; [|exact CB|exact NH|eauto 6]. eauto 8.
Qed.

(** A nested attribute, as in [C04_nested]. *)
Theorem C05_nested : forall hash ta n sc cx cx' e e' p toks a' ps mo,
  r_vexpr (engine hash ta n) sc false e cx = ROk (e', cx') -> cx_errs cx' = [] -> numbered cx ->
  removes "auto_enum" (e_attrs e) (MList p toks) a' -> parse_args toks = inr (ps, mo) -> ps <> [] -> plain_form e ->
  exists e1 c, visited_by (past (e_attrs e) (who_of cx sc)) (set_attrs e a') e1 /\ child (who_of cx sc) toks c
    /\ forall b cd t o, ends_with e1 (EIf b cd t o) -> bare_chain (EIf b cd t o) = true ->
         exists k e2 y', declared (w_enum c) e2 e' /\ same_end e1 (EIf b cd t o) e2 y' /\ chain_outcome c (from 0 k) (EIf b cd t o) y'.
Proof.
  intros hash ta n sc cx cx' e e' p toks a' ps mo H G NU R HP N PF. apply visited_expr in H; try assumption.
  destruct (done_child _ _ _ _ _ _ _ H R PF) as (e1 & c & e2 & V & C & X & K). cbn iota in X. exists e1, c. split; [exact V|]. split; [exact C|].
  intros b cd t o EW NH. assert (GI := child_given _ _ _ _ _ C HP N).
  destruct (if_nested _ _ _ _ _ b cd t o C GI X) as (k & e3 & y' & D & SE & S); try assumption; [inversion EW; reflexivity|].
  exists k, e3, y'. assert (e' = e2) as ->; [|auto].
  apply close_same in K; [exact K| |].
  - cbn. rewrite (removes_named _ _ _ _ R). apply orb_true_r.
  - destruct D as [->|(? & ? & _ & ->)]; [|exact I]. inversion SE; subst; try exact I. inversion S; exact I.
Qed.
Print Assumptions C05_nested.

(** A chain without [else] is rejected: the output consists of errors, the one about the missing [else] among them. *)
Theorem C05_missing_else : forall hash ta n args ps mo i a c b o x out,
  parse_args args = inr (ps, mo) -> ps <> [] ->
  value_of (own_marker mo) i (EIf a c b o) x -> x <> TakesQuestions ->
  bare_chain (EIf a c b o) = true -> no_else (EIf a c b o) = true ->
  attribute hash ta n args i = ROk out -> exists l, out = Errors l /\ In ErrNoElse l.
Proof. intros. eapply no_else_errors; eassumption. Qed.
Print Assumptions C05_missing_else.

Lemma chain_one_by_one : forall w t e e', chain_outcome w t e e' ->
  seq2 (branch_outcome w) t (chain_branches e) (chain_branches e').
Proof.
  induction 1 as [t1 t2 a c c' b b' ea l eb eb' D B1 B2|t1 t2 a c c' b b' e e' D B H IH]; cbn [chain_branches].
  - constructor; [exact B1|]. rewrite <- (app_nil_r t2). constructor; [exact B2|constructor].
  - constructor; assumption.
Qed.

(** The branches of the chain one by one. *)
Theorem C05_branches : forall hash ta n args ps mo i i' cx a c b o x,
  parse_args args = inr (ps, mo) -> ps <> [] ->
  attribute hash ta n args i = ROk (Code i' cx) ->
  value_of (own_marker mo) i (EIf a c b o) x -> x <> TakesQuestions -> bare_chain (EIf a c b o) = true ->
  exists k y', placed (enum_for hash i) i (EIf a c b o) i' y'
    /\ seq2 (branch_outcome (outermost (enum_for hash i) (own_marker mo) x)) (from 0 k) (chain_branches (EIf a c b o)) (chain_branches y').
Proof.
  intros hash ta n args ps mo i i' cx a c b o x HP N H V X BC.
  destruct (C05_chain _ _ _ _ _ _ _ _ _ _ _ _ _ _ HP N H V X BC) as (k & y' & PL & CO). apply chain_one_by_one in CO. eauto.
Qed.
Print Assumptions C05_branches.

(** [if c { let y; a() } else if d { panic!() } else if let p = e { b() } else { return u }] at the end of a function. *)
Definition C05_sample_if : expr :=
  EIf [] (var "c") [SExpr (call0 "z") true; SExpr (call0 "a") false]
    (Some (EIf [] (var "d") [SExpr (EMacro [] (Mac (plain_path ["panic"]) None)) false]
      (Some (EIf [] (ELet [] (PBind "p") (var "e")) [SExpr (call0 "b") false]
        (Some (EBlock [] None [SExpr (EReturn [] (Some (var "u"))) false])))))).
Definition C05_sample (out : option ty) : input := InStmt (SItem (IFn [] "f" out [SExpr (call0 "s") true; SExpr C05_sample_if false])).
Example C05_example :
  value_of "marker" (C05_sample None) C05_sample_if TakesNone
  /\ bare_chain C05_sample_if = true /\ clean "marker" TakesNone C05_sample_if = true
  /\ match code_of (run sample_args (C05_sample None)) with
     | Some (InStmt (SItem (IFn _ _ _ [_; _; SExpr e _]))) =>
         e = EIf [] (var "c") [SExpr (wrap "__Enum1" "__Variant0" (EBlock [] None [SExpr (call0 "z") true; SExpr (call0 "a") false])) false]
               (Some (EIf [] (var "d") [SExpr (EMacro [] (Mac (plain_path ["panic"]) None)) false]
                 (Some (EIf [] (ELet [] (PBind "p") (var "e")) [SExpr (wrap "__Enum1" "__Variant1" (EBlock [] None [SExpr (call0 "b") false])) false]
                   (Some (EBlock [] None [SExpr (EReturn [] (Some (var "u"))) false]))))))
     | _ => False
     end.
Proof.
  split; [|vm_compute; auto]. apply (vo_fn "marker" [] "f" None [SExpr (call0 "s") true] C05_sample_if); [|constructor].
  apply ft_other; intros; discriminate.
Qed.
(** Without the last [else]. *)
Example C05_missing_else_example :
  let e := EParen [] (EIf [] (var "c") [SExpr (call0 "a") false] (Some (EIf [] (var "d") [SExpr (call0 "b") false] None))) in
  value_of "marker" (InExpr e) (EIf [] (var "c") [SExpr (call0 "a") false] (Some (EIf [] (var "d") [SExpr (call0 "b") false] None))) TakesNone
  /\ match run sample_args (InExpr e) with ROk (Errors l) => l = [ErrNoElse] | _ => False end.
Proof. split; [|vm_compute; auto]. constructor. apply vi_other; [reflexivity|]. apply ew_paren; [reflexivity|constructor]. Qed.

(** ** C06 *)

(** An annotated [loop]: [breaks_stmt] (Tails.v) says which [break]s use a variant. *)
Theorem C06_loop : forall hash ta n args ps mo i i' cx a l b x,
  parse_args args = inr (ps, mo) -> ps <> [] ->
  attribute hash ta n args i = ROk (Code i' cx) ->
  value_of (own_marker mo) i (ELoop a l b) x -> x <> TakesQuestions -> no_help a = true ->
  exists k b', placed (enum_for hash i) i (ELoop a l b) i' (ELoop a l b')
    /\ loop_outcome (outermost (enum_for hash i) (own_marker mo) x) l (from 0 k) b b'.
Proof.
  intros hash ta n args ps mo i i' cx a l b x HP N H V X NH. pose proof (attribute_changes hash ta n args ps mo HP N i i' cx H) as E.
  destruct (value_outcome _ _ _ _ _ _ E V) as (y' & k & PL & O).
  apply loop_outcome_of in O; [|destruct x; [reflexivity|reflexivity|congruence]|exact NH]. destruct O as (b' & -> & LO). eauto.
Qed.
Print Assumptions C06_loop.

(** By the scoping rules of Rust (Loops.v): the [break]s that leave the loop, are not below [#[never]] and hold no marker use
    the variants [0 .. k-1], each one; all others are kept.
    Missing: bodies in which an inner loop or block has the same label, or a [break] stands in the iterator of a [for]; for
    these the claim is false, see below. *)
Theorem C06_breaks_partial : forall hash ta n args ps mo i i' cx a l b x,
  parse_args args = inr (ps, mo) -> ps <> [] ->
  attribute hash ta n args i = ROk (Code i' cx) ->
  value_of (own_marker mo) i (ELoop a l b) x -> x <> TakesQuestions -> no_help a = true ->
  scoped_body l b = true ->
  let w := outermost (enum_for hash i) (own_marker mo) x in
  exists k b1 b', placed (enum_for hash i) i (ELoop a l b) i' (ELoop a l b')
    /\ seq2 (break_done (enum_for hash i) (w_mark w) l) (from 0 k) (loop_breaks l b) (loop_breaks l b1)
    /\ block_done w b1 b' /\ (forallb (clean_stmt (own_marker mo) x) b = true -> b' = b1).
Proof.
  intros hash ta n args ps mo i i' cx a l b x HP N H V X NH SC w.
  destruct (C06_loop _ _ _ _ _ _ _ _ _ _ _ _ _ HP N H V X NH) as (k & b' & PL & b1 & S & D). exists k, b1, b'.
  split; [exact PL|]. split; [apply breaks_found; assumption|]. split; [exact D|].
  intros C. apply (block_clean w); [reflexivity| |exact D].
  destruct (breaks_clean (w_enum w) (w_mark w) l (w_marker w)) as (_ & BS & _).
  clear -S C BS. induction S; [reflexivity|]. cbn in *. apply andb_true_iff in C. destruct C. apply andb_true_iff.
  split; [eapply (BS _ _ _ _ ltac:(eassumption)); assumption|auto].
Qed.
Print Assumptions C06_breaks_partial.

(** ['a: loop { break f(); loop { break; break 'a g(); || break 'z }; #[never] { break h(); } for p in q { break } break }] *)
Definition C06_sample_body : list stmt :=
  [SExpr (EIf [] (var "c") [SExpr (EBreak [] None (Some (call0 "f"))) true] None) false;
   SExpr (ELoop [] None [SExpr (EBreak [] None None) true; SExpr (EBreak [] (Some "a") (Some (call0 "g"))) true]) true;
   SExpr (EBlock [plain_attr "never"] None [SExpr (EBreak [] None (Some (call0 "h"))) true]) true;
   SExpr (EFor [] None (PBind "p") (var "q") [SExpr (EBreak [] None None) true]) true;
   SExpr (EBreak [] None (Some (EMacro [] (Mac (plain_path ["marker"]) (Some (call0 "k")))))) true;
   SExpr (EBreak [] None None) true].
Definition C06_sample : input := InExpr (EBlk KUnsafe [] [SExpr (ELoop [] (Some "a") C06_sample_body) false]).
Example C06_example :
  value_of "marker" C06_sample (ELoop [] (Some "a") C06_sample_body) TakesNone /\ scoped_body (Some "a") C06_sample_body = true
  /\ map (fun x => (b_leaves x, b_never x)) (loop_breaks (Some "a") C06_sample_body)
     = [(true, false); (false, false); (true, false); (true, true); (false, false); (true, false); (true, false)]
  /\ match code_of (run sample_args C06_sample) with
     | Some (InExpr (EBlock _ _ [_; SExpr (EBlk KUnsafe _ [SExpr (ELoop _ _ b') _]) _])) =>
         map b_value (loop_breaks (Some "a") b')
         = [Some (wrap "__Enum2" "__Variant0" (call0 "f")); None; Some (wrap "__Enum2" "__Variant1" (call0 "g")); Some (call0 "h"); None;
            Some (wrap "__Enum2" "__Variant3" (call0 "k")); Some (wrap "__Enum2" "__Variant2" (operand None))]
     | _ => False
     end.
Proof.
  split; [|vm_compute; auto]. constructor. apply vi_other; [reflexivity|]. apply (ew_unsafe [] []); [reflexivity|constructor].
Qed.

(** The claim for all bodies. *)
Definition C06_claim (l : option string) (b : list stmt) : Prop :=
  forall b', code_of (run sample_args (InExpr (ELoop [] l b))) = Some (InExpr (ELoop [] l b'))
    \/ (exists d, code_of (run sample_args (InExpr (ELoop [] l b))) = Some (InExpr (EBlock [] None [d; SExpr (ELoop [] l b') false]))) ->
  forall j x x', nth_error (loop_breaks l b) j = Some x -> nth_error (loop_breaks l b') j = Some x' ->
  (break_taken (fun s => s = "marker") x <-> x' <> x).

(** It is false if an inner loop has the same label (which Rust permits, with a warning): its [break]s are wrapped as well. *)
Theorem C06_shadowed_label_refuted : exists l b, ~ C06_claim l b.
Proof.
  exists (Some "a"), [SExpr (ELoop [] (Some "a") [SExpr (EBreak [] (Some "a") (Some (call0 "f"))) true]) true;
                      SExpr (EBreak [] None (Some (call0 "g"))) true].
  intros C. unfold C06_claim in C. edestruct (C _ (or_intror (ex_intro _ _ eq_refl)) 0 _ _ eq_refl eq_refl) as [_ K].
  destruct K as (T & _); discriminate.
Qed.
Print Assumptions C06_shadowed_label_refuted.
(** It is false if a [break] stands in the iterator of an inner [for] loop, where it leaves the outer loop: it is not wrapped. *)
Theorem C06_for_iterator_refuted : exists l b, ~ C06_claim l b.
Proof.
  exists None, [SExpr (EFor [] None (PBind "p") (EBlock [] None [SExpr (EBreak [] None (Some (call0 "f"))) false]) []) true;
                SExpr (EIf [] (var "c") [SExpr (EBreak [] None (Some (call0 "g"))) true] None) false;
                SExpr (EBreak [] None (Some (call0 "h"))) true].
  intros C. unfold C06_claim in C. edestruct (C _ (or_intror (ex_intro _ _ eq_refl)) 0 _ _ eq_refl eq_refl) as [K _].
  apply K; [|reflexivity]. repeat split. intros (e & E & a & p & s & y & -> & _). discriminate.
Qed.
Print Assumptions C06_for_iterator_refuted.

(** ** C07 *)

(** Where [?]s are replaced, the last expression is only visited ([done]: with [w_branches] off no branch is wrapped) ... *)
Theorem C07_last : forall hash ta n args ps mo i i' cx y,
  parse_args args = inr (ps, mo) -> ps <> [] ->
  attribute hash ta n args i = ROk (Code i' cx) -> value_of (own_marker mo) i y TakesQuestions ->
  exists y', placed (enum_for hash i) i y i' y' /\ done (outermost (enum_for hash i) (own_marker mo) TakesQuestions) false y y'.
Proof.
  intros hash ta n args ps mo i i' cx y HP N H V. pose proof (attribute_changes hash ta n args ps mo HP N i i' cx H) as E.
  destruct (value_outcome _ _ _ _ _ _ E V) as (y' & k & PL & e1 & B & D). destruct B as [_ ->]. eauto.
Qed.
Print Assumptions C07_last.
(** ... so that it stays as it is if it holds no [?], marker or annotation of its own. *)
Theorem C07_last_exact : forall hash ta n args ps mo i i' cx y,
  parse_args args = inr (ps, mo) -> ps <> [] ->
  attribute hash ta n args i = ROk (Code i' cx) -> value_of (own_marker mo) i y TakesQuestions ->
  clean (own_marker mo) TakesQuestions y = true -> placed (enum_for hash i) i y i' y.
Proof.
  intros hash ta n args ps mo i i' cx y HP N H V C. destruct (C07_last _ _ _ _ _ _ _ _ _ _ HP N H V) as (y' & PL & D).
  destruct done_clean_all as (DE & _). rewrite (DE _ _ _ _ D eq_refl C) in PL. exact PL.
Qed.
Print Assumptions C07_last_exact.

(** [fn f() -> Result<T, impl Trait> { a()?; b()?; if c { Ok(u) } else { return v } }] *)
Definition C07_result_ty : ty :=
  TPath None (Path false [Seg "Result" (AAngle false [GType (TOther "T" []); GType (impl_ty "Trait")])]).
Definition C07_tail : expr :=
  EIf [] (var "c") [SExpr (ECall [] (var "Ok") [var "u"]) false] (Some (EBlock [] None [SExpr (EReturn [] (Some (var "v"))) false])).
Definition C07_sample : input :=
  InStmt (SItem (IFn [] "f" (Some C07_result_ty)
    ([SExpr (ETry [] (call0 "a")) true; SExpr (ETry [] (call0 "b")) true] ++ [SExpr C07_tail false]))).
Example C07_last_example :
  value_of "marker" C07_sample C07_tail TakesQuestions /\ clean "marker" TakesQuestions C07_tail = true
  /\ match code_of (run sample_args C07_sample) with
     | Some (InStmt (SItem (IFn _ _ _ [SItem (IEnum _); _; _; SExpr e _]))) => e = C07_tail
     | _ => False
     end.
Proof.
  split; [|vm_compute; auto]. apply vo_fn; [|constructor]. apply ft_result.
  - exists false, [], "Result", (TOther "T" []), [BTrait (plain_path ["Trait"])]. split; [reflexivity|left; reflexivity].
  - vm_compute. auto.
Qed.

(** ** C18 *)

(** An arm with [#[never]] in front of it or of its body uses no variant; it is only visited. *)
Definition never_arm (x : arm) : Prop :=
  match x with Arm a _ _ b _ => has_plain "never" a \/ has_plain "never" (e_attrs b) end.
Theorem C18_arm : forall hash ta n args ps mo i i' cx a s pre y post x,
  parse_args args = inr (ps, mo) -> ps <> [] ->
  attribute hash ta n args i = ROk (Code i' cx) ->
  value_of (own_marker mo) i (EMatch a s (pre ++ y :: post)) x -> x <> TakesQuestions -> no_help a = true -> never_arm y ->
  let w := outermost (enum_for hash i) (own_marker mo) x in
  exists k1 k2 s' pre' y' post', placed (enum_for hash i) i (EMatch a s (pre ++ y :: post)) i' (EMatch a s' (pre' ++ y' :: post'))
    /\ seq2 (arm_outcome w) (from 0 k1) pre pre' /\ done_arm w y y' /\ seq2 (arm_outcome w) (from k1 k2) post post'.
Proof.
  intros hash ta n args ps mo i i' cx a s pre y post x HP N H V X NH NA w.
  destruct (C04_arms _ _ _ _ _ _ _ _ _ _ _ _ _ HP N H V X NH) as (k & s' & arms' & PL & D & S).
  destruct (skipped_arms _ _ _ _ _ _ S) as (k1 & k2 & pre' & y' & post' & -> & L & S1 & DA & S2).
  { destruct y as [ya p g b c]. destruct NA as [NA|NA]; [left; exact NA|]. right. right. left. apply nv_never. exact NA. }
  exists k1, k2, s', pre', y', post'. auto.
Qed.
Print Assumptions C18_arm.
Lemma never_arm_visit : forall w a p g b c y', w_foreign w = false -> done_arm w (Arm a p g b c) y' ->
  has_plain "never" a -> attr_named "nested" a = false ->
  fold_opt true (clean (w_marker w) (w_exits w)) g = true -> clean (w_marker w) (w_exits w) b = true ->
  exists q a', removes "never" a (MPath q) a' /\ y' = Arm a' p g b c.
Proof.
  intros w a p g b c y' F D NV NN CG CB. destruct done_clean_all as (DE & _).
  inversion D as [? ? a1 ? ? ? ? g' b' a' NA G B AS]; subst.
  assert (X : a1 = a /\ p0 = p /\ g0 = g /\ b0 = b).
  { inversion NA as [|? ? ? ? ? ? ? ? ? ? ? R]; subst; [auto|]. apply removes_named in R. congruence. }
  destruct X as (-> & -> & -> & ->). assert (g' = g /\ b' = b) as [-> ->].
  { split; [destruct G as [|? ? ? G]; [reflexivity|f_equal; exact (DE _ _ _ _ G F CG)]|exact (DE _ _ _ _ B F CB)]. }
  assert (NP : attr_named "never" a = true).
  { destruct NV as (q & I & Q). unfold attr_named. apply existsb_exists. exists (MPath q). auto. }
  inversion AS as [? K|? K1 K2|q ? ? K1 K2 K3]; subst; try congruence. inversion NA; subst; eauto.
Qed.

(** The visit of an arm with [#[never]]: if guard and body hold nothing else that the attribute deals with, [#[never]] is removed and
    nothing else changed. *)
Theorem C18_arm_visit : forall hash ta n sc cx cx' a p g b c y',
  r_varm (engine hash ta n) sc (Arm a p g b c) cx = ROk (y', cx') -> cx_errs cx' = [] -> numbered cx -> sc_foreign sc = false ->
  has_plain "never" a -> attr_named "nested" a = false ->
  fold_opt true (clean (cx_marker cx) (takes_of (cx_mode cx) sc)) g = true -> clean (cx_marker cx) (takes_of (cx_mode cx) sc) b = true ->
  exists q a', removes "never" a (MPath q) a' /\ y' = Arm a' p g b c.
Proof.
  intros hash ta n sc cx cx' a p g b c y' H G NU F NV NN CG CB. apply visited_arm in H; try assumption.
  exact (never_arm_visit (who_of cx sc) a p g b c y' F H NV NN CG CB).
Qed.
Print Assumptions C18_arm_visit.
Example C18_arm_visit_example :
  let y := Arm [plain_attr "never"] (POther "0") (Some (call0 "g")) (call0 "f") true in
  has_plain "never" [plain_attr "never"] /\ clean "marker" TakesNone (call0 "f") = true
  /\ exists cx', r_varm (engine sample_hash false 50) scope0 y sample_ctx = ROk (Arm [] (POther "0") (Some (call0 "g")) (call0 "f") true, cx') /\ cx_errs cx' = [].
Proof. cbv zeta. split; [eexists; split; [left; reflexivity|reflexivity]|]. split; [reflexivity|]. eexists. vm_compute. split; reflexivity. Qed.

(** A branch whose last expression has [#[never]] uses no variant. *)
Theorem C18_branch : forall hash ta n args ps mo i i' cx a c b o x pre r e post,
  parse_args args = inr (ps, mo) -> ps <> [] ->
  attribute hash ta n args i = ROk (Code i' cx) ->
  value_of (own_marker mo) i (EIf a c b o) x -> x <> TakesQuestions -> bare_chain (EIf a c b o) = true ->
  chain_branches (EIf a c b o) = pre ++ (r ++ [SExpr e false]) :: post -> has_plain "never" (e_attrs e) ->
  let w := outermost (enum_for hash i) (own_marker mo) x in
  exists k1 k2 y' pre' b' post', placed (enum_for hash i) i (EIf a c b o) i' y' /\ chain_branches y' = pre' ++ b' :: post'
    /\ seq2 (branch_outcome w) (from 0 k1) pre pre' /\ block_done w (r ++ [SExpr e false]) b'
    /\ seq2 (branch_outcome w) (from k1 k2) post post'.
Proof.
  intros hash ta n args ps mo i i' cx a c b o x pre r e post HP N H V X BC CB NE w.
  destruct (C05_chain _ _ _ _ _ _ _ _ _ _ _ _ _ _ HP N H V X BC) as (k & y' & PL & CO). apply chain_one_by_one in CO. rewrite CB in CO.
  assert (K : forall t z, branch_outcome w t (r ++ [SExpr e false]) z -> t = [] /\ block_done w (r ++ [SExpr e false]) z).
  { intros t z (b1 & B & D). inversion B as [? SK|? ? SK]; subst; [auto|]. exfalso. apply SK. exists r, (SExpr e false). split; [reflexivity|].
    right. left. apply nv_never. exact NE. }
  destruct (seq2_middle _ _ _ _ _ _ _ CO (fun t z A => proj1 (K t z A))) as (k1 & k2 & pre' & b' & post' & E & S1 & R1 & S2).
  exists k1, k2, y', pre', b', post'. repeat split; try assumption. apply (K _ _ R1).
Qed.
Print Assumptions C18_branch.

(** A [break] below [#[never]] uses no variant and is not changed when the [break]s are wrapped. *)
Theorem C18_break : forall hash ta n args ps mo i i' cx a l b x,
  parse_args args = inr (ps, mo) -> ps <> [] ->
  attribute hash ta n args i = ROk (Code i' cx) ->
  value_of (own_marker mo) i (ELoop a l b) x -> x <> TakesQuestions -> no_help a = true ->
  exists b1 b', placed (enum_for hash i) i (ELoop a l b) i' (ELoop a l b')
    /\ Forall2 (fun y y' => b_never y = true -> y' = y) (loop_breaks l b) (loop_breaks l b1)
    /\ block_done (outermost (enum_for hash i) (own_marker mo) x) b1 b'.
Proof.
  intros hash ta n args ps mo i i' cx a l b x HP N H V X NH.
  destruct (C06_loop _ _ _ _ _ _ _ _ _ _ _ _ _ HP N H V X NH) as (k & b' & PL & b1 & S & D). exists b1, b'.
  repeat split; [exact PL| |exact D]. eapply breaks_never. exact S.
Qed.
Print Assumptions C18_break.

(** [#[never] 0 => a(), 1 => b(), 2 => #[never] { c() }, _ => d()] *)
Definition C18_arms : list arm :=
  [Arm [plain_attr "never"] (POther "0") None (call0 "a") true; arm1 "1" (call0 "b");
   arm1 "2" (EBlock [plain_attr "never"] None [SExpr (call0 "c") false]); arm1 "_" (call0 "d")].
Example C18_arm_example :
  value_of "marker" (InExpr (EMatch [] (var "x") C18_arms)) (EMatch [] (var "x") C18_arms) TakesNone
  /\ (exists y r, C18_arms = [] ++ y :: r /\ never_arm y)
  /\ match code_of (run sample_args (InExpr (EMatch [] (var "x") C18_arms))) with
     | Some (InExpr (EBlock _ _ [_; SExpr (EMatch _ _ arms) _])) =>
         arms = [arm1 "0" (call0 "a"); arm1 "1" (wrap "__Enum2" "__Variant0" (call0 "b"));
                 arm1 "2" (EBlock [] None [SExpr (call0 "c") false]); arm1 "_" (wrap "__Enum2" "__Variant1" (call0 "d"))]
     | _ => False
     end.
Proof.
  split; [constructor; apply vi_other; [reflexivity|constructor]|]. split; [|vm_compute; auto].
  do 2 eexists. split; [reflexivity|]. left. exists (plain_path ["never"]). split; [left; reflexivity|reflexivity].
Qed.
Example C18_branch_example :
  let e := EIf [] (var "c") [SExpr (call0 "a") false]
             (Some (EIf [] (var "d") [SExpr (call0 "z") true; SExpr (ECall [plain_attr "never"] (var "b") []) false]
               (Some (EBlock [] None [SExpr (call0 "e") false])))) in
  value_of "marker" (InExpr e) e TakesNone /\ bare_chain e = true
  /\ match code_of (run sample_args (InExpr e)) with
     | Some (InExpr (EBlock _ _ [_; SExpr e' _])) =>
         chain_branches e' = [wrap_branch "__Enum2" "__Variant0" [SExpr (call0 "a") false]; [SExpr (call0 "z") true; SExpr (call0 "b") false];
                              wrap_branch "__Enum2" "__Variant1" [SExpr (call0 "e") false]]
     | _ => False
     end.
Proof. cbv zeta. split; [constructor; apply vi_other; [reflexivity|constructor]|]. vm_compute. auto. Qed.

(** ** C19, C20 *)

(** An arm that contains [#[nested]] is not wrapped itself, nor is one whose body is a marker. *)
Definition nested_or_marker (mk : string -> Prop) (x : arm) : Prop :=
  nested_in_arm x = true \/ match x with Arm _ _ _ b _ => is_mark mk b end.
Theorem C19_C20_arm : forall hash ta n args ps mo i i' cx a s pre y post x,
  parse_args args = inr (ps, mo) -> ps <> [] ->
  attribute hash ta n args i = ROk (Code i' cx) ->
  value_of (own_marker mo) i (EMatch a s (pre ++ y :: post)) x -> x <> TakesQuestions -> no_help a = true ->
  let w := outermost (enum_for hash i) (own_marker mo) x in
  nested_or_marker (w_mark w) y ->
  exists k1 k2 s' pre' y' post', placed (enum_for hash i) i (EMatch a s (pre ++ y :: post)) i' (EMatch a s' (pre' ++ y' :: post'))
    /\ seq2 (arm_outcome w) (from 0 k1) pre pre' /\ done_arm w y y' /\ seq2 (arm_outcome w) (from k1 k2) post post'.
Proof.
  intros hash ta n args ps mo i i' cx a s pre y post x HP N H V X NH w NA.
  destruct (C04_arms _ _ _ _ _ _ _ _ _ _ _ _ _ HP N H V X NH) as (k & s' & arms' & PL & D & S).
  destruct (skipped_arms _ _ _ _ _ _ S) as (k1 & k2 & pre' & y' & post' & -> & L & S1 & DA & S2).
  { destruct y as [ya p g b c]. unfold arm_skipped. destruct NA as [NA|NA].
    - cbn [nested_in_arm fold_arm] in NA. apply orb_true_iff in NA. destruct NA as [NA|NA]; [apply plain_iff in NA; auto|].
      apply orb_true_iff in NA. destruct NA as [NA|NA]; [|auto 6]. destruct g as [g|]; [|discriminate]. right. right. right. left. eauto.
    - right. right. left. destruct NA as (ma & p0 & s0 & z & -> & M & I). apply nv_macro; right; eexists; split; eassumption. }
  exists k1, k2, s', pre', y', post'. auto.
Qed.
Print Assumptions C19_C20_arm.

(** A branch that contains [#[nested]], or whose last expression is a marker, is not wrapped itself. *)
Theorem C19_C20_branch : forall hash ta n args ps mo i i' cx a c b o x pre r e post,
  parse_args args = inr (ps, mo) -> ps <> [] ->
  attribute hash ta n args i = ROk (Code i' cx) ->
  value_of (own_marker mo) i (EIf a c b o) x -> x <> TakesQuestions -> bare_chain (EIf a c b o) = true ->
  let w := outermost (enum_for hash i) (own_marker mo) x in
  chain_branches (EIf a c b o) = pre ++ (r ++ [SExpr e false]) :: post ->
  is_mark (w_mark w) e \/ existsb nested_in_stmt (r ++ [SExpr e false]) = true ->
  exists k1 k2 y' pre' b' post', placed (enum_for hash i) i (EIf a c b o) i' y' /\ chain_branches y' = pre' ++ b' :: post'
    /\ seq2 (branch_outcome w) (from 0 k1) pre pre' /\ block_done w (r ++ [SExpr e false]) b'
    /\ seq2 (branch_outcome w) (from k1 k2) post post'.
Proof.
  intros hash ta n args ps mo i i' cx a c b o x pre r e post HP N H V X BC w CB NE.
  destruct (C05_chain _ _ _ _ _ _ _ _ _ _ _ _ _ _ HP N H V X BC) as (k & y' & PL & CO). apply chain_one_by_one in CO. rewrite CB in CO.
  assert (K : forall t z, branch_outcome w t (r ++ [SExpr e false]) z -> t = [] /\ block_done w (r ++ [SExpr e false]) z).
  { intros t z (b1 & B & D). inversion B as [? SK|? ? SK]; subst; [auto|]. exfalso. apply SK. exists r, (SExpr e false). split; [reflexivity|].
    right. destruct NE as [(ma & p0 & s0 & z0 & -> & M & I)|NE]; [left; apply nv_macro; right; eexists; split; eassumption|right].
    apply existsb_exists in NE. exact NE. }
  destruct (seq2_middle _ _ _ _ _ _ _ CO (fun t z A => proj1 (K t z A))) as (k1 & k2 & pre' & b' & post' & E & S1 & R1 & S2).
  exists k1, k2, y', pre', b', post'. repeat split; try assumption. apply (K _ _ R1).
Qed.
Print Assumptions C19_C20_branch.

Lemma enter_branches e w t x x' : w_branches w = true -> branches (enter e w) t x x' -> tail (w_enum w) (w_mark w) t x x'.
Proof.
  intros WB H. unfold branches, enter in H. destruct e; try destruct k; try destruct (w_exits w); cbn in H; rewrite WB in H; exact H.
Qed.
Lemma inner_expr : forall w semi e e', w_foreign w = false -> w_branches w = true -> attr_named "auto_enum" (e_attrs e) = false ->
  attr_named "nested" (e_attrs e) = true -> ~ taken_exit (enter e w) e -> done w semi e e' ->
  exists q a' n k e1 e2, removes "nested" (e_attrs e) (MPath q) a' /\ tail (w_enum w) (w_mark w) (from n k) (set_attrs e a') e1
    /\ under (enter e w) semi e1 e2 /\ close_step (enter e w) e2 e'.
Proof.
  intros w semi e e' F WB A NP NT D. inversion D as [? ? ? e1 e2 e3 ? H1 H2 H3 H4]; subst.
  assert (e1 = e) as -> by (inversion H1; subst; [contradiction|contradiction|reflexivity]).
  assert (EF : w_foreign (enter e w) = false).
  { unfold enter. rewrite past_same by exact A. destruct e; try destruct k; try destruct (w_exits w); exact F. }
  inversion H2 as [? [K|K]|? q a' m k ? K1 K2 K3]; subst; [congruence|congruence|].
  exists q, a', m, k, e2, e3. split; [exact K2|]. split; [eapply enter_branches; eassumption|]. auto.
Qed.
Lemma inner_arm : forall w a p g b c y', w_foreign w = false -> w_branches w = true ->
  attr_named "nested" a = true -> done_arm w (Arm a p g b c) y' ->
  exists q a1 a' n k b1 g' b', removes "nested" a (MPath q) a1 /\ tail (w_enum w) (w_mark w) (from n k) b b1
    /\ maybe2 (fun _ => done w false) [] g g' /\ done w false b1 b' /\ attrs_step w a1 a' /\ y' = Arm a' p g' b' c.
Proof.
  intros w a p g b c y' F WB NP D. inversion D as [? ? a1 ? ? b1 ? g' b' a' NA G B AS]; subst.
  inversion NA as [? ? ? ? ? [K|K]|q ? ? ? ? ? ? ? m k K1 K2 K3]; subst; [congruence|congruence|].
  exists q, a1, a', m, k, b1, g', b'. unfold branches in K3. rewrite WB in K3. auto 8.
Qed.
Lemma inner_let : forall w a p t e d y', w_foreign w = false -> w_branches w = true ->
  attr_named "nested" a = true -> done_local w (Local a p t (Some e) d) y' ->
  exists q a1 a' n k e1 e' d', removes "nested" a (MPath q) a1 /\ tail (w_enum w) (w_mark w) (from n k) e e1
    /\ done w false e1 e' /\ maybe2 (fun _ => done w false) [] d d' /\ attrs_step w a1 a' /\ y' = Local a' p t (Some e') d'.
Proof.
  intros w a p t e d y' F WB NP D. inversion D as [? ? a1 ? ? i1 ? i' d' a' NA G1 G2 AS]; subst.
  inversion NA as [? ? ? ? ? [K|K]|? ? ? ? ? ? K1 K2|q ? ? ? ? ? e1 ? m k K1 K2 K3]; subst; [congruence|congruence|].
  inversion G1 as [|? ? e' G]; subst. exists q, a1, a', m, k, e1, e', d'. unfold branches in K3. rewrite WB in K3. auto 8.
Qed.

(** The visitor at an expression, arm or [let] with [#[nested]]: the annotation goes, the branches are wrapped with new variants
    of the same enum by the rules of C04-C06 ([tail]), and the result is visited. *)
Theorem C19_inner : forall hash ta n sc cx cx' semi e e',
  r_vexpr (engine hash ta n) sc semi e cx = ROk (e', cx') -> cx_errs cx' = [] -> numbered cx -> sc_foreign sc = false -> visit_last cx = true ->
  attr_named "auto_enum" (e_attrs e) = false -> attr_named "nested" (e_attrs e) = true ->
  let w := who_of cx sc in
  ~ taken_exit (enter e w) e ->
  exists q a' n k e1 e2, removes "nested" (e_attrs e) (MPath q) a' /\ tail (cx_ident cx) (w_mark w) (from n k) (set_attrs e a') e1
    /\ under (enter e w) semi e1 e2 /\ close_step (enter e w) e2 e'.
Proof.
  intros hash ta n sc cx cx' semi e e' H G NU F L A NE w NT. apply visited_expr in H; try assumption.
  exact (inner_expr w semi e e' F L A NE NT H).
Qed.
Print Assumptions C19_inner.
Theorem C19_inner_arm : forall hash ta n sc cx cx' a p g b c y',
  r_varm (engine hash ta n) sc (Arm a p g b c) cx = ROk (y', cx') -> cx_errs cx' = [] -> numbered cx -> sc_foreign sc = false -> visit_last cx = true ->
  attr_named "nested" a = true ->
  let w := who_of cx sc in
  exists q a1 a' n k b1 g' b', removes "nested" a (MPath q) a1 /\ tail (cx_ident cx) (w_mark w) (from n k) b b1
    /\ maybe2 (fun _ => done w false) [] g g' /\ done w false b1 b' /\ attrs_step w a1 a' /\ y' = Arm a' p g' b' c.
Proof.
  intros hash ta n sc cx cx' a p g b c y' H G NU F L NE w. apply visited_arm in H; try assumption.
  exact (inner_arm w a p g b c y' F L NE H).
Qed.
Print Assumptions C19_inner_arm.
Theorem C19_inner_let : forall hash ta n sc cx cx' a p t e d y',
  r_vlocal (engine hash ta n) sc (Local a p t (Some e) d) cx = ROk (y', cx') -> cx_errs cx' = [] -> numbered cx -> sc_foreign sc = false -> visit_last cx = true ->
  attr_named "nested" a = true ->
  let w := who_of cx sc in
  exists q a1 a' n k e1 e' d', removes "nested" a (MPath q) a1 /\ tail (cx_ident cx) (w_mark w) (from n k) e e1
    /\ done w false e1 e' /\ maybe2 (fun _ => done w false) [] d d' /\ attrs_step w a1 a' /\ y' = Local a' p t (Some e') d'.
Proof.
  intros hash ta n sc cx cx' a p t e d y' H G NU F L NE w. apply visited_local in H; try assumption.
  exact (inner_let w a p t e d y' F L NE H).
Qed.
Print Assumptions C19_inner_let.

(** [match x { 0 => a(), 1 => { let y = 1; #[nested] if c { b() } else { marker!(d()) } } , _ => marker!(e()) }] *)
Definition mark (e : expr) : expr := EMacro [] (Mac (plain_path ["marker"]) (Some e)).
Definition C19_arms : list arm :=
  [arm1 "0" (call0 "a");
   arm1 "1" (EBlock [] None
     [SLocal (Local [] (PBind "y") None (Some (var "z")) None);
      SExpr (EIf [plain_attr "nested"] (var "c") [SExpr (call0 "b") false] (Some (EBlock [] None [SExpr (mark (call0 "d")) false]))) false]);
   arm1 "_" (mark (call0 "e"))].
Example C19_C20_example :
  value_of "marker" (InExpr (EMatch [] (var "x") C19_arms)) (EMatch [] (var "x") C19_arms) TakesNone
  /\ Forall (nested_or_marker (fun s => s = "marker")) (tl C19_arms)
  /\ match code_of (run sample_args (InExpr (EMatch [] (var "x") C19_arms))) with
     | Some (InExpr (EBlock _ _ [_; SExpr (EMatch _ _ arms) _])) =>
         arms = [arm1 "0" (wrap "__Enum2" "__Variant0" (call0 "a"));
                 arm1 "1" (EBlock [] None
                   [SLocal (Local [] (PBind "y") None (Some (var "z")) None);
                    SExpr (EIf [] (var "c") [SExpr (wrap "__Enum2" "__Variant1" (EBlock [] None [SExpr (call0 "b") false])) false]
                      (Some (EBlock [] None [SExpr (wrap "__Enum2" "__Variant2" (call0 "d")) false]))) false]);
                 arm1 "_" (wrap "__Enum2" "__Variant3" (call0 "e"))]
     | _ => False
     end.
Proof.
  split; [constructor; apply vi_other; [reflexivity|constructor]|]. split; [|vm_compute; auto].
  constructor; [left; reflexivity|]. constructor; [|constructor]. right. repeat eexists; reflexivity.
Qed.
(** The visit of a [#[nested]] expression, arm and [let]. *)
Example C19_inner_example :
  let e := EIf [plain_attr "nested"] (var "c") [SExpr (call0 "b") false] (Some (EBlock [] None [SExpr (call0 "d") false])) in
  let R := engine sample_hash false 50 in
  let w := who_of sample_ctx scope0 in
  numbered sample_ctx /\ visit_last sample_ctx = true /\ attr_named "auto_enum" (e_attrs e) = false /\ attr_named "nested" (e_attrs e) = true
  /\ ~ taken_exit (enter e w) e
  /\ (exists e' cx', r_vexpr R scope0 false e sample_ctx = ROk (e', cx') /\ cx_errs cx' = [] /\ length (cx_variants cx') = 2)
  /\ (exists y' cx', r_varm R scope0 (Arm [plain_attr "nested"] (POther "0") None (set_attrs e []) true) sample_ctx = ROk (y', cx')
        /\ cx_errs cx' = [] /\ length (cx_variants cx') = 2)
  /\ (exists y' cx', r_vlocal R scope0 (Local [plain_attr "nested"] (PBind "y") None (Some (set_attrs e [])) None) sample_ctx = ROk (y', cx')
        /\ cx_errs cx' = [] /\ length (cx_variants cx') = 2).
Proof.
  cbv zeta. split; [reflexivity|]. split; [reflexivity|]. split; [reflexivity|]. split; [reflexivity|]. split; [intros [_ K]; exact K|].
  split; [|split]; do 2 eexists; vm_compute; repeat split; reflexivity.
Qed.

(** "No value is wrapped twice" is false if [#[nested]] stands on an expression whose branches are wrapped anyway. *)
Theorem C19_twice_refuted : exists i i' v u x,
  code_of (run sample_args i) = Some i'
  /\ match i' with
     | InExpr (EBlock _ _ [_; SExpr (EMatch _ _ (Arm _ _ _ b _ :: _)) _]) => b = wrap "__Enum2" v (wrap "__Enum2" u x)
     | _ => False
     end.
Proof.
  exists (InExpr (EMatch [plain_attr "nested"] (var "x") [arm1 "0" (call0 "a"); arm1 "_" (call0 "b")])).
  do 4 eexists. split; [vm_compute; reflexivity|reflexivity].
Qed.
Print Assumptions C19_twice_refuted.

(** ** C24 *)

(** If the annotated expression is followed by [;], its only changes are markers that become variants and annotations
    [#[nested]] and [#[never]] that are removed; nested attributes aside. *)
Theorem C24_only_markers : forall hash ta n args ps mo e i' cx,
  parse_args args = inr (ps, mo) -> ps <> [] ->
  attribute hash ta n args (InStmt (SExpr e true)) = ROk (Code i' cx) -> lacks "auto_enum" e = true ->
  let own := enum_for hash (InStmt (SExpr e true)) in
  exists e1 e', i' = InStmt (SExpr e' true) /\ only_markers own (own_marker mo) e e1 /\ declared own e1 e'.
Proof.
  intros hash ta n args ps mo e i' cx HP N H L own. apply semi_only_markers; [|exact L].
  exact (attribute_changes hash ta n args ps mo HP N _ i' cx H).
Qed.
Print Assumptions C24_only_markers.
(** With nested attributes: no branch is wrapped and no exit taken by the attribute itself. *)
Theorem C24_nested : forall hash ta n args ps mo e i' cx,
  parse_args args = inr (ps, mo) -> ps <> [] ->
  attribute hash ta n args (InStmt (SExpr e true)) = ROk (Code i' cx) ->
  let own := enum_for hash (InStmt (SExpr e true)) in
  exists e1 e', i' = InStmt (SExpr e' true) /\ declared own e1 e'
    /\ done (set_branches false (outermost own (own_marker mo) TakesNone)) false e e1.
Proof.
  intros hash ta n args ps mo e i' cx HP N H own. pose proof (attribute_changes hash ta n args ps mo HP N _ i' cx H) as E.
  inversion E as [| |? e1 e' B D| | |]; subst. exists e1, e'. split; [reflexivity|]. split; [exact D|].
  inversion B as [? ? e2 k ? K1 K2|]; subst; [|discriminate]. destruct K1 as [_ ->]. exact K2.
Qed.
Print Assumptions C24_nested.

(** [match x { 0 => y = marker!(a()), 1 => b(), _ => loop { break marker!(c()); } };] *)
Definition C24_sample : expr :=
  EMatch [] (var "x")
    [arm1 "0" (EOther [] "Assign" [var "y"; mark (call0 "a")]); Arm [plain_attr "never"] (POther "1") None (call0 "b") true;
     arm1 "_" (ELoop [] None [SExpr (EBreak [] None (Some (mark (call0 "c")))) true; SExpr (EBreak [] None None) true])].
Example C24_example :
  lacks "auto_enum" C24_sample = true
  /\ match code_of (run sample_args (InStmt (SExpr C24_sample true))) with
     | Some (InStmt (SExpr (EBlock _ _ [SItem (IEnum _); SExpr e _]) true)) =>
         e = EMatch [] (var "x")
               [arm1 "0" (EOther [] "Assign" [var "y"; wrap "__Enum1" "__Variant0" (call0 "a")]); arm1 "1" (call0 "b");
                arm1 "_" (ELoop [] None [SExpr (EBreak [] None (Some (wrap "__Enum1" "__Variant1" (call0 "c")))) true;
                                         SExpr (EBreak [] None None) true])]
     | _ => False
     end.
Proof. vm_compute. auto. Qed.
