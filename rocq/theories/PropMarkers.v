(** Property C20: marker macros.

    [r_vexpr (engine ..) sc semi e cx]: the visitor of an attribute with the context [cx] at the expression [e].  [owned_code M m i] (Owners.v): each
    macro of the code whose name is in [M] stands where an attribute with that marker name owns the place, [m] being the marker
    of the outermost one. *)

Require Import Coq.Strings.String Coq.Lists.List Coq.Bool.Bool Coq.NArith.NArith.
Require Import Verif.Syntax Verif.Context Verif.ExprModel Verif.AutoEnum Verif.Edits Verif.Tails Verif.Changes Verif.ChangesTop.
Require Import Verif.BranchesRun Verif.Nodes Verif.Annotations Verif.AnnotRun Verif.Owners Verif.OwnersRun Verif.Samples Verif.ExitsTop Verif.ChangesRun Verif.VisitedRun.
Import ListNotations.
Open Scope string_scope.
Open Scope list_scope.

Lemma marker_replaced : forall w semi a p o e',
  done w semi (EMacro a (Mac p o)) e' -> is_ident p (w_marker w) = true -> free_of a = true ->
  w_foreign w = false \/ w_marker w <> "marker" ->
  exists v x, o = Some x /\ e' = ECall a (EPath [] false (ctor (w_enum w) v)) [x].
Proof.
  intros w semi a p o e' H I FR F. apply GoneRun.free_parts in FR. destruct FR as (FA & FN & FV).
  inversion H as [? ? ? e1 e2 e3 ? X N U C]; subst. inversion X; subst. cbn [enter past w_foreign e_attrs] in *.
  assert (e2 = EMacro a (Mac p o)) as -> by (inversion N as [|? ? ? ? ? ? _ R]; subst; [reflexivity|apply removes_named in R; cbn [e_attrs] in R; congruence]).
  assert (e3 = EMacro a (Mac p o)) as ->.
  { inversion U as [? ? ? ? _ P|? ? ? ? ? ? ? ? ? R]; subst; [inversion P; reflexivity|apply removes_named in R; cbn [e_attrs] in R; congruence]. }
  inversion C as [? F1 M|? e4 a' F1 MS AS]; subst.
  - cbn in F1, M. rewrite FA, orb_false_r in F1. destruct F; congruence.
  - inversion MS as [v ? ? x _|? NM]; subst; [|specialize (NM _ _ _ eq_refl); cbn in NM; congruence].
    exists v, x. split; [reflexivity|]. cbn [set_attrs e_attrs w_enum] in *. f_equal.
    inversion AS as [| |? ? ? _ R]; subst; try reflexivity. apply removes_named in R. congruence.
Qed.

(** Wherever the visitor comes upon the attribute's own marker, it becomes one variant applied to the argument; the attributes of the
    macro stay.  In the code of a nested attribute ([sc_foreign]) this holds if the marker is not called [marker]. *)
Theorem C20_replaced : forall hash ta n sc cx cx' semi a p o e',
  r_vexpr (engine hash ta n) sc semi (EMacro a (Mac p o)) cx = ROk (e', cx') -> cx_errs cx' = [] -> numbered cx ->
  is_ident p (cx_marker cx) = true -> free_of a = true -> sc_foreign sc = false \/ cx_marker cx <> "marker" ->
  exists v x, o = Some x /\ e' = ECall a (EPath [] false (ctor (cx_ident cx) v)) [x].
Proof.
  intros hash ta n sc cx cx' semi a p o e' H G NU I FR F. apply visited_expr in H; try assumption.
  exact (marker_replaced (who_of cx sc) semi a p o e' H I FR F).
Qed.
Print Assumptions C20_replaced.

Lemma others_kept : forall w semi a m e',
  done w semi (EMacro a m) e' -> match m with Mac p _ => is_ident p (w_marker w) = false end -> free_of a = true -> e' = EMacro a m.
Proof.
  intros w semi a m e' H I FR. apply GoneRun.free_parts in FR. destruct FR as (FA & FN & FV).
  inversion H as [? ? ? e1 e2 e3 ? X N U C]; subst. inversion X; subst. cbn [enter past w_foreign e_attrs] in *.
  assert (e2 = EMacro a m) as -> by (inversion N as [|? ? ? ? ? ? _ R]; subst; [reflexivity|apply removes_named in R; cbn [e_attrs] in R; congruence]).
  assert (e3 = EMacro a m) as ->.
  { inversion U as [? ? ? ? _ P|? ? ? ? ? ? ? ? ? R]; subst; [inversion P; reflexivity|apply removes_named in R; cbn [e_attrs] in R; congruence]. }
  inversion C as [|? e4 a' F1 MS AS]; subst; [reflexivity|].
  inversion MS as [v ? p x K|]; subst; [cbn in *; congruence|]. cbn [set_attrs e_attrs] in *. f_equal.
  inversion AS as [| |? ? ? _ R]; subst; try reflexivity. apply removes_named in R. congruence.
Qed.

(** All other macros stay. *)
Theorem C20_others : forall hash ta n sc cx cx' semi a p o e',
  r_vexpr (engine hash ta n) sc semi (EMacro a (Mac p o)) cx = ROk (e', cx') -> cx_errs cx' = [] -> numbered cx ->
  is_ident p (cx_marker cx) = false -> free_of a = true -> e' = EMacro a (Mac p o).
Proof.
  intros hash ta n sc cx cx' semi a p o e' H G NU I FR. apply visited_expr in H; try assumption.
  exact (others_kept (who_of cx sc) semi a (Mac p o) e' H I FR).
Qed.
Print Assumptions C20_others.

(** If each macro with a name in [M] is owned where it stands, none is left.  [M] is any list of names, for instance the
    marker names of all attributes in the code. *)
Theorem C20_none_left : forall M hash ta n args ps mo i i' cx,
  parse_args args = inr (ps, mo) -> ps <> [] ->
  attribute hash ta n args i = ROk (Code i' cx) ->
  owned_code M (own_marker mo) i = true -> none_left M i' = true.
Proof. intros M hash ta n args ps mo i i' cx HP N H. eapply expanded_owned. eapply attribute_changes; eassumption. Qed.
Print Assumptions C20_none_left.

(** [#[auto_enum(Iterator, marker = m)] match x { 0 => { let y = #[auto_enum(Clone)] match z { 0 => u(), 1 => marker!(v()), _ => return #[k] m!(q()) };
    m!(a()) }, 1 => (m!(b())), _ => other!(..) }]. *)
Definition mac (m : string) (e : expr) : expr := EMacro [] (Mac (plain_path [m]) (Some e)).
Definition C20_args : list token := [TkIdent "Iterator"; TkComma; TkIdent "marker"; TkEq; TkIdent "m"].
Definition C20_sample : input :=
  InExpr (EMatch [] (var "x")
    [arm1 "0" (EBlock [] None [
       SLocal (Local [] (PBind "y") None (Some (EMatch [auto_enum_attr [TkIdent "Clone"]] (var "z")
         [arm1 "0" (call0 "u"); arm1 "1" (mac "marker" (call0 "v"));
          arm1 "_" (EReturn [] (Some (EMacro [MPath (plain_path ["k"])] (Mac (plain_path ["m"]) (Some (call0 "q"))))))])) None);
       SExpr (mac "m" (call0 "a")) false]);
     arm1 "1" (EParen [] (mac "m" (call0 "b")));
     arm1 "_" (mac "other" (call0 "c"))]).
Example C20_example :
  parse_args C20_args = inr ([plain_path ["Iterator"]], Some "m") /\ owned_code ["m"; "marker"] "m" C20_sample = true
  /\ none_left ["m"; "marker"] C20_sample = false
  /\ exists i cx, run C20_args C20_sample = ROk (Code i cx) /\ none_left ["m"; "marker"] i = true /\ none_left ["other"] i = false.
Proof. split; [reflexivity|]. split; [reflexivity|]. split; [reflexivity|]. do 2 eexists. vm_compute. repeat split; reflexivity. Qed.
Example C20_replaced_example :
  let R := engine sample_hash false 50 in
  let m s := EMacro [MPath (plain_path ["k"])] (Mac (plain_path [s]) (Some (call0 "q"))) in
  numbered sample_ctx /\ cx_marker sample_ctx = "marker" /\ free_of [MPath (plain_path ["k"])] = true
  /\ (exists e' cx', r_vexpr R scope0 false (m "marker") sample_ctx = ROk (e', cx') /\ cx_errs cx' = [] /\ e' <> m "marker")
  /\ (exists e' cx', r_vexpr R scope0 false (m "other") sample_ctx = ROk (e', cx') /\ cx_errs cx' = [] /\ e' = m "other").
Proof.
  cbv zeta. split; [reflexivity|]. split; [reflexivity|]. split; [reflexivity|]. split; do 2 eexists; vm_compute; repeat split; try reflexivity. discriminate.
Qed.

(** An arm that holds a marker of an outer attribute is wrapped a second time: in
    [#[auto_enum(Iterator, marker = m)] match x { 0 => { let y = #[auto_enum(Clone)] match z { 0 => m!(u()), _ => v() }; a() }, _ => b() }] the outer
    attribute replaces its marker before the inner one looks at its arms. *)
Theorem C20_outer_marker_refuted : exists i i' cx,
  i = InExpr (EMatch [] (var "x")
        [arm1 "0" (EBlock [] None [
           SLocal (Local [] (PBind "y") None (Some (EMatch [auto_enum_attr [TkIdent "Clone"]] (var "z")
             [arm1 "0" (mac "m" (call0 "u")); arm1 "_" (call0 "v")])) None);
           SExpr (call0 "a") false]); arm1 "_" (call0 "b")])
  /\ run C20_args i = ROk (Code i' cx)
  /\ match i' with
     | InExpr (EBlock _ _ [_; SExpr (EMatch _ _ (Arm _ _ _ (ECall _ _ [EBlock _ _
         (SLocal (Local _ _ _ (Some (EBlock _ _ [_; SExpr (EMatch _ _ (y :: _)) _])) _) :: _)]) _ :: _)) _]) =>
         y = arm1 "0" (wrap "__Enum4" "__Variant0" (wrap "__Enum2" "__Variant2" (call0 "u")))
     | _ => False
     end.
Proof. do 3 eexists. split; [reflexivity|]. vm_compute. split; reflexivity. Qed.
Print Assumptions C20_outer_marker_refuted.
