(** Sums over all attribute lists of a syntax tree (marker arguments included, items not), and how
    edits change them. *)

Require Import Coq.Strings.String Coq.Lists.List Coq.Bool.Bool Coq.Arith.Arith Lia.
Require Import Verif.Syntax Verif.Context Verif.ExprModel Verif.AstInd Verif.Edits.
Import ListNotations.
Open Scope string_scope.
Open Scope list_scope.

Section AttrFold.
  Context {A : Type} (plus : A -> A -> A) (zero : A) (f : list attr -> A).

  (** Sum over the attribute lists of an expression and of everything below it; the argument of
      a macro counts, because a marker macro gives way to its argument. *)
  Fixpoint af_expr (e : expr) : A :=
    plus (f (e_attrs e))
      match e with
      | EMacro _ (Mac _ (Some x)) => af_expr x
      | _ => fold_expr plus zero af_expr af_stmt af_arm e
      end
  with af_stmt (s : stmt) : A :=
    match s with
    | SMacro a _ _ => f a
    | _ => fold_stmt zero af_expr af_local s
    end
  with af_arm (x : arm) : A :=
    match x with Arm a _ _ _ _ => plus (f a) (fold_arm plus zero af_expr x) end
  with af_local (x : local) : A :=
    match x with Local a _ _ _ _ => plus (f a) (fold_local plus zero af_expr x) end.

  (** Blocks. *)
  Definition af_block (b : list stmt) : A := fold_list plus zero af_stmt b.

  Variable le : A -> A -> Prop.
  Hypothesis le_refl : forall x, le x x.
  Hypothesis le_trans : forall x y z, le x y -> le y z -> le x z.
  Hypothesis le_plus : forall x x' y y', le x x' -> le y y' -> le (plus x y) (plus x' y').
  Hypothesis zero_l : forall x, plus zero x = x.
  Hypothesis zero_r : forall x, plus x zero = x.
  Hypothesis le_zero : forall x, le zero x.
  Hypothesis f_nil : f [] = zero.
  Hypothesis f_drop : forall a a', drops_attr a a' -> le (f a') (f a).
  Variable mk : string -> bool.

  Lemma af_set_attrs (e : expr) (a' : list attr) :
    le (f a') (f (e_attrs e)) -> le (af_expr (set_attrs e a')) (af_expr e).
  Proof.
    intros H. destruct e; cbn [set_attrs af_expr e_attrs fold_expr] in *;
      try destruct m as [p [x|]]; cbn [fold_expr]; try apply le_plus; auto.
  Qed.

  Lemma af_skip_l (x y : A) : le y (plus x y).
  Proof. rewrite <- (zero_l y) at 1. apply le_plus; auto. Qed.

  Ltac go :=
    cbn [af_expr af_stmt af_arm af_local fold_expr fold_stmt fold_arm fold_local fold_opt e_attrs
         fold_list fold_right set_attrs question_arms wrap wrap_branch result_ctor ctor plain_path
         operand];
    rewrite ?f_nil, ?zero_l, ?zero_r;
    repeat first [ apply le_refl | assumption | apply le_plus | apply le_zero ].

  Theorem af_edit :
    (forall t e e', ed_expr mk t e e' -> le (af_expr e') (af_expr e))
    /\ (forall t l l', ed_exprs mk t l l' -> le (fold_list plus zero af_expr l') (fold_list plus zero af_expr l))
    /\ (forall t o o', ed_opt mk t o o' -> le (fold_opt zero af_expr o') (fold_opt zero af_expr o))
    /\ (forall t s s', ed_stmt mk t s s' -> le (af_stmt s') (af_stmt s))
    /\ (forall t l l', ed_stmts mk t l l' -> le (fold_list plus zero af_stmt l') (fold_list plus zero af_stmt l))
    /\ (forall t x x', ed_arm mk t x x' -> le (af_arm x') (af_arm x))
    /\ (forall t l l', ed_arms mk t l l' -> le (fold_list plus zero af_arm l') (fold_list plus zero af_arm l))
    /\ (forall t x x', ed_local mk t x x' -> le (af_local x') (af_local x)).
  Proof.
    apply (ed_ind mk); intros;
      try solve [ eapply le_trans; eassumption ];
      try solve [ go ].
    - apply af_set_attrs; auto.
    - destruct o as [x|]; go.
    - destruct o as [x|]; go.
    - go. apply af_skip_l.
    - go. apply f_drop; assumption.
    - go. apply f_drop; assumption.
  Qed.
End AttrFold.

(** ** Arguments of [auto_enum] attributes *)

(** Traits and marker name of one [auto_enum] attribute. *)
Definition nitem : Type := (list path * option string)%type.

(** The arguments of an [auto_enum(..)] attribute (nothing if they do not parse). *)
Definition attr_marker (x : attr) : list nitem :=
  if is_ident (attr_path x) NAME then
    match x with
    | MList _ toks => match parse_args toks with inr r => [r] | inl _ => [([], None)] end
    | _ => [([], None)]
    end
  else [].

(** The arguments of all [auto_enum] attributes inside an expression. *)
Definition names_expr : expr -> list nitem := af_expr (@app nitem) [] (flat_map attr_marker).
Definition names_stmt : stmt -> list nitem := af_stmt (@app nitem) [] (flat_map attr_marker).
Definition names_arm : arm -> list nitem := af_arm (@app nitem) [] (flat_map attr_marker).
Definition names_local : local -> list nitem := af_local (@app nitem) [] (flat_map attr_marker).
Definition names_stmts : list stmt -> list nitem := af_block (@app nitem) [] (flat_map attr_marker).

Lemma names_drop a a' : drops_attr a a' -> incl (flat_map attr_marker a') (flat_map attr_marker a).
Proof.
  intros (l & x & r & -> & -> & _). rewrite !flat_map_app. cbn.
  intros y. rewrite !in_app_iff. tauto.
Qed.

Lemma names_edit mk :
    (forall t e e', ed_expr mk t e e' -> incl (names_expr e') (names_expr e))
    /\ (forall t l l', ed_exprs mk t l l' ->
          incl (fold_list (@app nitem) [] names_expr l') (fold_list (@app nitem) [] names_expr l))
    /\ (forall t o o', ed_opt mk t o o' ->
          incl (fold_opt [] names_expr o') (fold_opt [] names_expr o))
    /\ (forall t s s', ed_stmt mk t s s' -> incl (names_stmt s') (names_stmt s))
    /\ (forall t l l', ed_stmts mk t l l' ->
          incl (fold_list (@app nitem) [] names_stmt l') (fold_list (@app nitem) [] names_stmt l))
    /\ (forall t x x', ed_arm mk t x x' -> incl (names_arm x') (names_arm x))
    /\ (forall t l l', ed_arms mk t l l' ->
          incl (fold_list (@app nitem) [] names_arm l') (fold_list (@app nitem) [] names_arm l))
    /\ (forall t x x', ed_local mk t x x' -> incl (names_local x') (names_local x)).
Proof.
  apply (af_edit (@app nitem) [] (flat_map attr_marker) (@incl nitem)); auto using incl_refl.
  - intros. eapply incl_tran; eassumption.
  - intros. apply incl_app_app; assumption.
  - apply app_nil_r.
  - intros x y H. inversion H.
  - apply names_drop.
Qed.
