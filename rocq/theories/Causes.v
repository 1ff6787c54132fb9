(** Specification: what the macro may complain about. *)

Require Import Coq.Strings.String Coq.Lists.List Coq.Bool.Bool.
Require Import Verif.Syntax Verif.Context Verif.ExprModel Verif.Edits Verif.AttrFold Verif.AttributeRun Verif.Scope.
Import ListNotations.
Open Scope string_scope.
Open Scope list_scope.

(** ** Parts of code *)

(** An expression, an arm of a [match], or a [let]. *)
Inductive part :=
| PtExpr (e : expr)
| PtArm (x : arm)
| PtLet (l : local).

(** All parts of an expression, itself included; the argument of a macro call counts, the items do not. *)
Fixpoint parts_of (e : expr) : list part :=
  PtExpr e
  :: match e with
     | EMacro _ (Mac _ (Some x)) => parts_of x
     | _ => fold_expr (@app part) [] parts_of parts_of_stmt parts_of_arm e
     end
with parts_of_stmt (s : stmt) : list part := fold_stmt [] parts_of parts_of_let s
with parts_of_arm (x : arm) : list part := PtArm x :: fold_arm (@app part) [] parts_of x
with parts_of_let (l : local) : list part := PtLet l :: fold_local (@app part) [] parts_of l.

(** The parts of the annotated code. *)
Definition input_parts (i : input) : list part :=
  match i with
  | InExpr e => parts_of e
  | InStmt (SItem (IFn _ _ _ b)) => flat_map parts_of_stmt b
  | InStmt s => parts_of_stmt s
  | InBad => []
  end.

(** The attributes of a part. *)
Definition part_attrs (p : part) : list attr :=
  match p with
  | PtExpr e => e_attrs e
  | PtArm (Arm a _ _ _ _) => a
  | PtLet (Local a _ _ _ _) => a
  end.

(** The attribute [#[name]], [#[name(..)]] or [#[name = ..]]. *)
Definition named (name : string) (x : attr) : Prop := is_ident (attr_path x) name = true.

(** The part has an attribute of this name. *)
Definition annotated (name : string) (p : part) : Prop := exists x, In x (part_attrs p) /\ named name x.

(** The part is expanded on its own: it is an expression or a [let] with the attribute [x] (on an arm
    of a [match] the attribute means nothing to the macro). *)
Definition auto_attr (p : part) (x : attr) : Prop :=
  In x (part_attrs p) /\ named "auto_enum" x /\ (forall y, p <> PtArm y).

(** ** An [if] without [else] at the end *)

(** Every [if] whose value is the value of the expression has an [else]. *)
Fixpoint ends_well (e : expr) : bool :=
  match e with
  | EBlock _ _ b | EBlk KUnsafe _ b =>
      on_last (fun s => match s with SExpr x false => ends_well x | _ => true end) true b
  | EIf _ _ _ els =>
      match els with
      | None => false
      | Some (EBlock _ _ _) => true
      | Some x => ends_well x
      end
  | EMethodCall _ r _ _ => ends_well r
  | EParen _ x => ends_well x
  | EClosure _ _ b => ends_well b
  | EMacro _ (Mac _ (Some x)) => ends_well x
  | _ => true
  end.

(** The value of a part. *)
Definition part_ends_well (p : part) : bool :=
  match p with
  | PtExpr e => ends_well e
  | PtArm (Arm _ _ _ b _) => ends_well b
  | PtLet (Local _ _ _ (Some e) _) => ends_well e
  | PtLet _ => true
  end.

(** The value of the annotated code; nothing is the value of a statement with a semicolon. *)
Definition input_ends_well (i : input) : bool :=
  match i with
  | InExpr e | InStmt (SExpr e false) | InStmt (SLocal (Local _ _ _ (Some e) _)) => ends_well e
  | InStmt (SItem (IFn _ _ _ b)) =>
      on_last (fun s => match s with SExpr x false => ends_well x | _ => true end) true b
  | _ => true
  end.

(** ** Nested attributes *)

(** The arguments of a nested attribute of a part: [#[auto_enum(toks)]], or [#[auto_enum]] on a [let]. *)
Definition nested_args (p : part) (x : attr) (toks : list token) : Prop :=
  match p, x with
  | PtExpr _, MList _ l => toks = l
  | PtLet _, MList _ l => toks = l
  | PtLet _, MPath _ => toks = []
  | _, _ => False
  end.

(** The part with other attributes. *)
Definition with_attrs (p : part) (a : list attr) : part :=
  match p with
  | PtExpr e => PtExpr (set_attrs e a)
  | PtArm (Arm _ p g b c) => PtArm (Arm a p g b c)
  | PtLet (Local _ p t i d) => PtLet (Local a p t i d)
  end.

(** The name of the marker of an attribute. *)
Definition marker_of (mo : option string) : string := match mo with Some m => m | None => "marker" end.

(** The marker names that attributes inside a part ask for. *)
Definition asked (l : list nitem) (m : string) : Prop := exists ps, In (ps, Some m) l.
Definition names_part (p : part) : list nitem :=
  match p with PtExpr e => names_expr e | PtArm x => names_arm x | PtLet l => names_local l end.

(** [#[auto_enum(.., marker = m)]] inside the code of an attribute with the marker [m] *)
Definition marker_twice (args : list token) (i : input) (m : string) : Prop :=
  (exists ps mo, parse_args args = inr (ps, mo) /\ marker_of mo = m
     /\ asked (names_input i) m)
  \/ exists p l x r toks ps mo, In p (input_parts i) /\ part_attrs p = l ++ x :: r /\ auto_attr p x
       /\ nested_args p x toks /\ parse_args toks = inr (ps, mo) /\ marker_of mo = m
       /\ asked (names_part (with_attrs p (l ++ r))) m.

(** ** What an error complains about *)

(** Errors other than the one about the number of branches. *)
Inductive cause (args : list token) (i : input) : err -> Prop :=
(* the arguments of the attribute *)
| ca_args e : parse_args args = inl e -> cause args i e
(* the code is neither a statement nor an expression, or it is an item other than a function *)
| ca_syntax : i = InBad -> cause args i ErrInputSyntax
| ca_input : i = InBad -> cause args i ErrPosition
| ca_item it : i = InStmt (SItem it) -> (forall a s o b, it <> IFn a s o b) -> cause args i ErrPosition
(* [#[auto_enum] let x;] *)
| ca_uninit a p t d : i = InStmt (SLocal (Local a p t None d)) -> cause args i ErrUninitLet
| ca_nested_uninit a p t d x : In (PtLet (Local a p t None d)) (input_parts i) ->
    auto_attr (PtLet (Local a p t None d)) x -> cause args i ErrUninitLet
(* [fn f() {}] *)
| ca_empty a s o : i = InStmt (SItem (IFn a s o [])) -> cause args i ErrEmptyFn
(* an [if] without [else] as value of the code or of a nested annotation *)
| ca_else : input_ends_well i = false -> cause args i ErrNoElse
| ca_nested_else p : In p (input_parts i) -> annotated "nested" p \/ (exists x, auto_attr p x) ->
    part_ends_well p = false -> cause args i ErrNoElse
(* [#[never(..)]], [#[nested = ..]], [#[rec]] *)
| ca_bare p x name : In p (input_parts i) -> In x (part_attrs p) -> named name x -> name = "never" \/ name = "nested" ->
    (forall q, x <> MPath q) -> cause args i (ErrNotPathOnly name)
| ca_rec p : In p (input_parts i) -> annotated "rec" p -> cause args i ErrRec
(* a marker macro whose argument is not an expression *)
| ca_marker a p m : In (PtExpr (EMacro a (Mac p None))) (input_parts i) -> is_ident p m = true -> marker_name args i m = true ->
    cause args i ErrMarkerExpr
(* nested attributes: no list of arguments, bad arguments, a marker name in use *)
| ca_list p x : In p (input_parts i) -> auto_attr p x ->
    (forall toks, ~ nested_args p x toks) -> cause args i ErrExpectedList
| ca_nested_args p x toks e : In p (input_parts i) -> auto_attr p x -> nested_args p x toks -> parse_args toks = inl e -> cause args i e
| ca_in_use m : marker_twice args i m -> cause args i (ErrMarkerInUse m).

(** ** The number of variants *)

(** How often the code mentions a variant of the enum [own]. *)
Definition own_uses (own : string) (i : input) : nat :=
  length (filter (fun iv => String.eqb (fst iv) own) (mentions i)).
