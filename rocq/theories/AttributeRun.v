(** Every run of [attribute] that returns code makes only the edits of Edits.v. *)

Require Import Coq.Strings.String Coq.Lists.List Coq.Bool.Bool Coq.Arith.Arith Coq.NArith.NArith Lia.
Require Import Coq.Sorting.Permutation.
Require Import Verif.Syntax Verif.Context Verif.ExprModel Verif.TypeAnalysis Verif.AutoEnum.
Require Import Verif.AstInd Verif.Edits Verif.AttrFold Verif.RunLemmas Verif.EditsRun.
Require Import Verif.Frame Verif.VisitRun Verif.EngineRun.
Import ListNotations.
Open Scope string_scope.
Open Scope list_scope.

(** The arguments (trait list, marker name) of the [auto_enum] attributes inside the annotated code. *)
Definition names_input (i : input) : list nitem :=
  match i with
  | InExpr e => names_expr e
  | InStmt (SItem (IFn _ _ _ b)) => names_stmts b
  | InStmt s => names_stmt s
  | InBad => []
  end.

(** The arguments of the attribute itself. *)
Definition names_args (toks : list token) : list nitem :=
  match parse_args toks with inr r => [r] | _ => [] end.

(** The arguments of the attribute and of all attributes inside. *)
Definition all_args (toks : list token) (i : input) : list nitem := names_args toks ++ names_input i.

(** The names that may be markers. *)
Definition marker_name (toks : list token) (i : input) (m : string) : bool :=
  existsb (String.eqb m)
    (DEFAULT_MARKER :: flat_map (fun r => match snd r with Some x => [x] | None => [] end) (all_args toks i)).

(** The trait lists given, and whether there is an attribute inside. *)
Definition run_cfg (toks : list token) (i : input) : Cfg :=
  MkCfg (fun ps => In ps (map fst (all_args toks i))) (names_input i <> []).

Lemma marker_name_in toks i r m :
  In r (all_args toks i) -> snd r = Some m -> marker_name toks i m = true.
Proof.
  intros H E. unfold marker_name. apply existsb_exists.
  exists m. split; [right|apply String.eqb_refl]. apply in_flat_map. exists r. rewrite E.
  split; [assumption|left; reflexivity].
Qed.

Lemma names_input_nok toks i : @nok (run_cfg toks i) (marker_name toks i) (names_input i).
Proof.
  apply Forall_forall. intros r Hr. unfold nitem_ok. cbn.
  assert (HI : In r (all_args toks i)) by (apply in_or_app; right; assumption).
  split; [intros E; rewrite E in Hr; contradiction|]. split; [apply in_map; assumption|].
  destruct (snd r) eqn:E; [|exact I]. eapply marker_name_in; eassumption.
Qed.

Section Attribute.
  Variable hash : node -> N.
  Variable ta : bool.

  (** A run of the expansion, with or without errors. *)
  Lemma expand_run n args i cx0 i' cx' :
    ctx_root (enum_name (hash (NInput i))) args = inr cx0 ->
    expand_input ta (engine hash ta n) i cx0 = ROk (i', cx') ->
    @bext (run_cfg args i) cx0 cx'
    /\ (cx_errs cx' = [] ->
        exists t, ed_input (marker_name args i) t i i' /\ @closed (run_cfg args i) t).
  Proof.
    intros EC EI.
    set (mk := marker_name args i). pose (K := run_cfg args i).
    assert (D : mk DEFAULT_MARKER = true) by reflexivity.
    pose proof (@engine_is_good (run_cfg args i) mk hash ta D n) as G.
    assert (NI : @nok (run_cfg args i) mk (names_input i)).
    { apply names_input_nok. }
    unfold ctx_root in EC. apply ctx_new_ok in EC.
    destruct EC as (cur & ps & m & EP & Ec & _ & ->).
    assert (IA : In (ps, m) (all_args args i)).
    { apply in_or_app. left. unfold names_args. rewrite EP. left. reflexivity. }
    assert (P : mk cur = true).
    { destruct m as [s|]; rewrite Ec; [|reflexivity]. eapply marker_name_in; [exact IA|reflexivity]. }
    match type of EI with expand_input _ _ _ ?c = _ =>
      assert (FN : @fine (run_cfg args i) c)
        by (split; [apply gen_enum_name|]; cbn; apply (in_map fst) in IA; exact IA)
    end.
    unfold expand_input in EI. destruct i as [s|e|].
    - apply bind_ok in EI. destruct EI as (s' & cx1 & H1 & H2). minv.
      destruct (no_item s) eqn:NO.
      + assert (NS : nok mk (names_stmt s)) by (destruct s; try discriminate NO; exact NI).
        destruct (expand_parent_stmt_good mk ta _ G s NO _ _ _ H1 P NS eq_refl) as (t & R & B & C).
        split; [exact B|]. intros EE. exists t. split; [apply ei_stmt; assumption|apply (C EE), FN].
      + destruct s as [|it| |]; try discriminate NO. cbn [expand_parent_stmt] in H1.
        destruct it as [a sg out b| |].
        * minv. match goal with HB : expand_parent_item_fn _ _ _ _ _ = _ |- _ =>
            destruct (expand_parent_fn_good mk ta _ G _ _ _ _ _ HB P NI eq_refl) as (t & R & B & C)
          end.
          split; [exact B|]. intros EE. exists t. split; [apply ei_fn; assumption|apply (C EE), FN].
        * minv. split; [apply ext_error|]. cbn. discriminate.
        * minv. split; [apply ext_error|]. cbn. discriminate.
    - apply bind_ok in EI. destruct EI as (s' & cx1 & H1 & H2). minv.
      destruct (expand_parent_expr_good mk ta _ G false e _ _ _ H1 P NI eq_refl) as (t & R & B & C).
      split; [exact B|]. intros EE. exists t. split; [apply ei_expr; assumption|apply (C EE), FN].
    - minv. split; [eapply bext_trans; apply ext_error|]. cbn. discriminate.
  Qed.

  Lemma attribute_run n args i i' cx' :
    attribute hash ta n args i = ROk (Code i' cx') ->
    exists cx0 t, ctx_root (enum_name (hash (NInput i))) args = inr cx0
      /\ expand_input ta (engine hash ta n) i cx0 = ROk (i', cx') /\ cx_errs cx' = []
      /\ ed_input (marker_name args i) t i i' /\ @bext (run_cfg args i) cx0 cx'
      /\ @closed (run_cfg args i) t.
  Proof.
    unfold attribute. destruct (ctx_root _ args) as [e|cx] eqn:EC; [discriminate|]. intros H.
    destruct (expand_input _ _ i cx) as [[j cxj]| |] eqn:EI; try discriminate.
    destruct (cx_errs cxj) eqn:EE; [|discriminate]. inversion H; subst j cxj. clear H.
    destruct (expand_run _ _ _ _ _ _ EC EI) as (B & T). destruct (T EE) as (t & R & C).
    exists cx, t. auto 7.
  Qed.

  Theorem attribute_edits n args i i' cx' :
    attribute hash ta n args i = ROk (Code i' cx') ->
    exists t, ed_input (marker_name args i) t i i' /\ @closed (run_cfg args i) t.
  Proof.
    intros H. destruct (attribute_run _ _ _ _ _ H) as (cx0 & t & _ & _ & _ & R & _ & C). eauto.
  Qed.
End Attribute.
