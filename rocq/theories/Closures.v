(** Specification: the closures in some code, and what it means that a closure keeps its own [return]s and [?]s.

    The expansion adds and removes no closures, so those of input and output can be compared one by one. *)

Require Import Coq.Strings.String Coq.Lists.List Coq.Bool.Bool.
Require Import Verif.Syntax Verif.ExprModel Verif.Exits.
Import ListNotations.
Open Scope string_scope.
Open Scope list_scope.

(** [#[auto_enum]] with or without arguments. *)
Definition has_auto_enum (a : list attr) : bool :=
  existsb (fun x => is_ident (match x with MPath p => p | MList p _ => p | MNameValue p _ => p end) "auto_enum") a.

(** A closure: is it annotated; its body.  [f]: the code around it says so. *)
Definition own_closure (f : bool) (e : expr) : list (bool * expr) :=
  match e with EClosure a _ b => [(f || has_auto_enum a, b)] | _ => [] end.

(** All closures, in the order in which they begin, also those in macro arguments.  The closure in
    [#[auto_enum] let f = |x| ..;] is annotated.  Items are left out: they are functions of their own. *)
Fixpoint closures (f : bool) (e : expr) {struct e} : list (bool * expr) :=
  own_closure f e
  ++ match e with
     | EMacro _ (Mac _ (Some x)) => closures false x
     | _ => fold_expr (@app _) [] (closures false) closures_stmt closures_arm e
     end
with closures_stmt (s : stmt) {struct s} : list (bool * expr) :=
  match s with
  | SMacro _ (Mac _ (Some x)) _ => closures false x
  | _ => fold_stmt [] (closures false) closures_local s
  end
with closures_arm (x : arm) {struct x} : list (bool * expr) :=
  fold_arm (@app _) [] (closures false) x
with closures_local (x : local) {struct x} : list (bool * expr) :=
  match x with
  | Local a _ _ i d => fold_opt [] (closures (has_auto_enum a)) i ++ fold_opt [] (closures false) d
  end.

(** The closures of annotated code; an annotated closure and an annotated [let] with a closure are marked. *)
Definition input_closures (i : input) : list (bool * expr) :=
  match i with
  | InExpr e | InStmt (SExpr e _) => closures true e
  | InStmt (SLocal (Local _ _ _ x d)) => fold_opt [] (closures true) x ++ fold_opt [] (closures false) d
  | InStmt (SItem (IFn _ _ _ b)) => fold_list (@app _) [] closures_stmt b
  | InStmt s => closures_stmt s
  | InBad => []
  end.

(** A closure that is not annotated has the same [return]s and [?]s as before, each but for edits inside its operand. *)
Definition closure_kept (x x' : bool * expr) : Prop :=
  fst x = false ->
  Forall2 (fun y y' => kept (snd y) (snd y'))
          (exits false (Place false false) (snd x)) (exits false (Place false false) (snd x')).

(** ** Items *)

(** The items inside some code, also those in macro arguments. *)
Fixpoint items (e : expr) {struct e} : list item :=
  match e with
  | EMacro _ (Mac _ (Some x)) => items x
  | _ => fold_expr (@app _) [] items items_stmt items_arm e
  end
with items_stmt (s : stmt) {struct s} : list item :=
  match s with
  | SItem i => [i]
  | SMacro _ (Mac _ (Some x)) _ => items x
  | _ => fold_stmt [] items items_local s
  end
with items_arm (x : arm) {struct x} : list item := fold_arm (@app _) [] items x
with items_local (x : local) {struct x} : list item := fold_local (@app _) [] items x.

(** The items in annotated code, for a function those in its body. *)
Definition input_items (i : input) : list item :=
  match i with
  | InExpr e => items e
  | InStmt (SItem (IFn _ _ _ b)) => fold_list (@app _) [] items_stmt b
  | InStmt s => items_stmt s
  | InBad => []
  end.

(** The same items, and some generated enums among them. *)
Inductive enums_added : list item -> list item -> Prop :=
| ea_none : enums_added [] []
| ea_same i l l' : enums_added l l' -> enums_added (i :: l) (i :: l')
| ea_new g l l' : enums_added l l' -> enums_added l (IEnum g :: l').
