(** Specification: the annotations [#[nested]], [#[never]], [#[rec]] and nested [#[auto_enum]] attributes of annotated code. *)

Require Import Coq.Strings.String Coq.Lists.List Coq.Bool.Bool.
Require Import Verif.Syntax Verif.Context Verif.ExprModel Verif.Edits Verif.NoValueSpec Verif.Tails Verif.Nodes.
Import ListNotations.
Open Scope string_scope.
Open Scope list_scope.

(** The first annotation of this name, if there is one. *)
Definition first_named (name : string) (a : list attr) : option attr := find (fun x => is_ident (attr_path x) name) a.

(** ** Which code is dealt with *)

(** The arguments of an [#[auto_enum]] attribute name a trait. *)
Definition gives (toks : list token) : bool := match parse_args toks with inr (_ :: _, _) => true | _ => false end.
Definition attr_gives (x : attr) : bool := match x with MList _ toks => gives toks | _ => false end.

(** An expression or the value of a [let] with the attributes [a] inside code that is dealt with ([d]) or not: a nested
    attribute with traits deals with its code, one without does not.  (Two of them in the same place are not claimed to.) *)
Definition dealt (d : bool) (a : list attr) : bool :=
  match filter (fun x => is_ident (attr_path x) "auto_enum") a with
  | [] => d
  | [x] => attr_gives x
  | _ => false
  end.

(** ** Well-formed annotations *)

(** [#[name]], not [#[name(..)]] or [#[name = ..]]. *)
Definition first_plain (name : string) (a : list attr) : bool :=
  match first_named name a with Some (MPath _) | None => true | Some _ => false end.
Definition good (a : list attr) : bool := first_plain "nested" a && first_plain "never" a && negb (attr_named "rec" a).

(** All code that is dealt with has well-formed annotations.  (Nothing is claimed for annotations beside the [#[auto_enum]] of a
    [let] or a closure, for such a [let] with a closure as value, for its [else] block, and for an annotation [#[nested(..)]]
    on a [let] without a value.) *)
Definition closure_node (e : expr) : bool := match e with EClosure _ _ _ => true | _ => false end.
Definition well_annotated : rule bool := {|
  r_expr d e := (closure_node e && attr_named "auto_enum" (e_attrs e)) || negb (dealt d (e_attrs e)) || good (e_attrs e);
  r_in d e := dealt d (e_attrs e);
  r_arm d a := negb d || good a;
  r_let d a v := attr_named "auto_enum" a || negb d || (if v then good a else first_plain "never" a && negb (attr_named "rec" a));
  r_value d a e := if attr_named "auto_enum" a && closure_node e then false else dealt d a;
  r_else d a := negb (attr_named "auto_enum" a) && d
|}.

(** ** Annotations that are removed *)

(** No annotation of the macro anywhere, macro arguments included. *)
Fixpoint bare (e : expr) : bool :=
  negb (attr_named "auto_enum" (e_attrs e) || attr_named "nested" (e_attrs e) || attr_named "never" (e_attrs e))
  && (fold_expr andb true bare bare_stmt bare_arm e && match e with EMacro _ (Mac _ (Some x)) => bare x | _ => true end)
with bare_stmt (s : stmt) : bool := fold_stmt true bare bare_local s
with bare_arm (y : arm) : bool :=
  match y with
  | Arm a _ _ _ _ => negb (attr_named "auto_enum" a || attr_named "nested" a || attr_named "never" a) && fold_arm andb true bare y
  end
with bare_local (y : local) : bool :=
  match y with
  | Local a _ _ _ _ => negb (attr_named "auto_enum" a || attr_named "nested" a || attr_named "never" a) && fold_local andb true bare y
  end.
Definition bare_arguments (e : expr) : bool := match e with EMacro _ (Mac _ (Some x)) => bare x | _ => true end.

(** The macro's annotations are gone (macro arguments may not hide any either). *)
Definition free_of (a : list attr) : bool := negb (attr_named "auto_enum" a || attr_named "nested" a || attr_named "never" a).
Definition gone : rule unit := {|
  r_expr _ e := free_of (e_attrs e) && bare_arguments e;
  r_in _ _ := tt;
  r_arm _ a := free_of a;
  r_let _ a _ := free_of a;
  r_value _ _ _ := tt;
  r_else _ _ := tt
|}.

(** Annotations where they mean something: not twice in the same place, [#[nested]] and [#[never]] only in code that is dealt
    with, [#[auto_enum]] not on arms, none in macro arguments. *)
Definition once_of (name : string) (a : list attr) : bool :=
  match filter (fun x => is_ident (attr_path x) name) a with _ :: _ :: _ => false | _ => true end.
Definition once (a : list attr) : bool := once_of "auto_enum" a && once_of "nested" a && once_of "never" a.
Definition unannotated (a : list attr) : bool := negb (attr_named "nested" a || attr_named "never" a).
Definition tidy : rule bool := {|
  r_expr d e := once (e_attrs e) && bare_arguments e
    && (unannotated (e_attrs e) || (dealt d (e_attrs e) && negb (closure_node e && attr_named "auto_enum" (e_attrs e))));
  r_in d e := dealt d (e_attrs e);
  r_arm d a := negb (attr_named "auto_enum" a) && once a && (unannotated a || d);
  r_let d a _ := once a && (unannotated a || (d && negb (attr_named "auto_enum" a)));
  r_value d a e := if attr_named "auto_enum" a && closure_node e then false else dealt d a;
  r_else d a := negb (attr_named "auto_enum" a) && d
|}.

(** ** The code of the outermost attribute *)

(** The expression (as a statement with a semicolon: [h]) or the function body that is annotated. *)
Definition in_input (f h : expr -> bool) (g : list stmt -> bool) (i : input) : bool :=
  match i with
  | InExpr e | InStmt (SExpr e false) | InStmt (SLocal (Local _ _ _ (Some e) _)) => f e
  | InStmt (SExpr e true) => h e
  | InStmt (SItem (IFn _ _ _ b)) => g b
  | _ => true
  end.
(** An annotated closure is treated as a function; the annotations on it are not looked at. *)
Definition below_closure (f : expr -> bool) (e : expr) : bool := match e with EClosure _ _ b => f b | _ => f e end.
Definition in_code {C} (r : rule C) (c : C) (i : input) : bool := in_input (below_closure (all r c)) (all r c) (all_block r c) i.
(** All annotations of the code have a meaning (a closure that is itself annotated bears no other one). *)
Definition tidy_code (i : input) : bool :=
  in_input (fun e => all tidy true e && (negb (closure_node e) || free_of (e_attrs e))) (all tidy true) (all_block tidy true) i.
Definition gone_code (i : input) : bool := in_input (all gone tt) (all gone tt) (all_block gone tt) i.
