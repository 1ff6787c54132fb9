(** Specification: which marker macros an attribute owns, and code without certain macros (property C20). *)

Require Import Coq.Strings.String Coq.Lists.List Coq.Bool.Bool.
Require Import Verif.Syntax Verif.Context Verif.ExprModel Verif.Edits Verif.NoValueSpec Verif.Tails Verif.Nodes Verif.Annotations.
Import ListNotations.
Open Scope string_scope.
Open Scope list_scope.

(** The path is one of these names. *)
Definition named_in (M : list string) (p : path) : bool := existsb (is_ident p) M.

Section Names.
  Variable M : list string.

  (** No macro with a name in [M] and no [#[auto_enum]] anywhere, macro arguments included. *)
  Fixpoint unused (e : expr) : bool :=
    negb (attr_named "auto_enum" (e_attrs e))
    && (match e with EMacro _ (Mac p _) => negb (named_in M p) | _ => true end
        && (fold_expr andb true unused unused_stmt unused_arm e && match e with EMacro _ (Mac _ (Some x)) => unused x | _ => true end))
  with unused_stmt (s : stmt) : bool := fold_stmt true unused unused_local s
  with unused_arm (y : arm) : bool := match y with Arm a _ _ _ _ => negb (attr_named "auto_enum" a) && fold_arm andb true unused y end
  with unused_local (y : local) : bool := match y with Local a _ _ _ _ => negb (attr_named "auto_enum" a) && fold_local andb true unused y end.

  (** The arguments of a macro hold neither. *)
  Definition unused_arguments (e : expr) : bool := match e with EMacro _ (Mac _ (Some x)) => unused x | _ => true end.
  (** If it is such a macro then its name is in [c]. *)
  Definition only_of (c : list string) (e : expr) : bool :=
    match e with EMacro _ (Mac p _) => negb (named_in M p) || named_in c p | _ => true end.

  (** The marker names of the attributes that own a place: those of the innermost attribute and of all attributes around it that
      have chosen a name of their own.  [inner c a]: inside of the attribute found in [a], if there is one. *)
  Definition chosen (c : list string) : list string := filter (fun s => negb (s =? "marker")) c.
  Definition name_of (x : attr) : list string :=
    match x with
    | MList _ toks => match parse_args toks with inr (_ :: _, Some m) => [m] | inr (_ :: _, None) => ["marker"] | _ => [] end
    | _ => []
    end.
  Definition inner (c : list string) (a : list attr) : list string :=
    match filter (fun x => is_ident (attr_path x) "auto_enum") a with
    | [] => c
    | x :: _ => chosen c ++ name_of x
    end.

  (** A macro that is itself annotated belongs to that attribute. *)
  Definition owners (c : list string) (a : list attr) : list string :=
    match filter (fun x => is_ident (attr_path x) "auto_enum") a with
    | [] => c
    | x :: _ => name_of x
    end.

  (** Every macro with a name in [M] is owned where it stands ([#[auto_enum]] not twice in one place and not on arms). *)
  Definition owned_macros : rule (list string) := {|
    r_expr c e := once_of "auto_enum" (e_attrs e) && unused_arguments e && only_of (owners c (e_attrs e)) e;
    r_in c e := inner c (e_attrs e);
    r_arm _ a := negb (attr_named "auto_enum" a);
    r_let _ a _ := once_of "auto_enum" a;
    r_value c a _ := inner c a;
    r_else c a := if attr_named "auto_enum" a then chosen c else c
  |}.
  (** No macro with a name in [M] but not in [c] is left, and no [#[auto_enum]]. *)
  Definition left_over : rule (list string) := {|
    r_expr c e := negb (attr_named "auto_enum" (e_attrs e)) && unused_arguments e && only_of c e;
    r_in c _ := c;
    r_arm _ a := negb (attr_named "auto_enum" a);
    r_let _ a _ := negb (attr_named "auto_enum" a);
    r_value c _ _ := c;
    r_else c _ := c
  |}.

  (** The annotated code; a closure that is itself annotated bears no second attribute. *)
  Definition owned_code (m : string) (i : input) : bool :=
    in_input (fun e => all owned_macros [m] e && (negb (closure_node e) || negb (attr_named "auto_enum" (e_attrs e))))
             (all owned_macros [m]) (all_block owned_macros [m]) i.
  (** No macro with a name in [M]. *)
  Definition none_left (i : input) : bool := in_input (all left_over []) (all left_over []) (all_block left_over []) i.
End Names.
