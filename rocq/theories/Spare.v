(** Specification: code in which an attribute with traits finds nothing to wrap. *)

Require Import Coq.Strings.String Coq.Lists.List Coq.Bool.Bool.
Require Import Verif.Syntax Verif.Context Verif.ExprModel Verif.AutoEnum Verif.Tails Verif.ExitsTop.
Import ListNotations.
Open Scope string_scope.
Open Scope list_scope.

(** None of the annotations [#[nested]], [#[never]], [#[rec]]. *)
Definition no_notes (a : list attr) : bool :=
  negb (attr_named "nested" a || (attr_named "never" a || attr_named "rec" a)).

Section Spare.
  (** Whether [return] and [?] may occur. *)
  Variable exits : bool.

  (** Neither annotations nor [marker!] anywhere, items aside; other attributes may occur. *)
  Fixpoint spare (e : expr) : bool :=
    no_notes (e_attrs e)
    && match e with
       | EMacro _ (Mac p (Some x)) => negb (is_ident p "marker") && spare x
       | EMacro _ (Mac p None) => negb (is_ident p "marker")
       | EReturn _ _ | ETry _ _ => exits && fold_expr andb true spare spare_stmt spare_arm e
       | _ => fold_expr andb true spare spare_stmt spare_arm e
       end
  with spare_stmt (s : stmt) : bool := fold_stmt true spare spare_let s
  with spare_arm (x : arm) : bool :=
    match x with Arm a _ _ _ _ => no_notes a && fold_arm andb true spare x end
  with spare_let (l : local) : bool :=
    match l with Local a _ _ _ _ => no_notes a && fold_local andb true spare l end.

  Definition spare_block (b : list stmt) : bool := fold_list andb true spare_stmt b.
End Spare.

(** The value is no [match], [if] or [loop], also not at the end of blocks, unless it has its own attribute. *)
Fixpoint bare (e : expr) : bool :=
  attr_named "auto_enum" (e_attrs e)
  || match e with
     | EBlock _ _ b | EBlk KUnsafe _ b => on_last (fun s => match s with SExpr x false => bare x | _ => true end) true b
     | EMatch _ _ _ | EIf _ _ _ _ | ELoop _ _ _ => false
     | EMethodCall _ r _ _ => bare r
     | EParen _ x => bare x
     | _ => true
     end.
Definition bare_last (s : stmt) : bool := match s with SExpr x false => bare x | _ => true end.

Definition no_closure (e : expr) : bool := match e with EClosure _ _ _ => false | _ => true end.

(** Another [#[auto_enum]] in the code, items aside. *)
Fixpoint other (e : expr) : bool :=
  attr_named "auto_enum" (e_attrs e) || fold_expr orb false other other_stmt other_arm e
with other_stmt (s : stmt) : bool :=
  match s with SMacro a _ _ => attr_named "auto_enum" a | _ => fold_stmt false other other_let s end
with other_arm (x : arm) : bool := fold_arm orb false other x
with other_let (l : local) : bool :=
  match l with Local a _ _ _ _ => attr_named "auto_enum" a || fold_local orb false other l end.
Definition other_input (i : input) : bool :=
  match i with
  | InExpr e | InStmt (SExpr e _) => other e
  | InStmt (SLocal l) => fold_local orb false other l
  | InStmt (SItem (IFn _ _ _ b)) => fold_list orb false other_stmt b
  | _ => false
  end.

(** The returns of the function are wrapped, or perhaps the errors of [?]. *)
Definition wraps_exits (out : option ty) : Prop :=
  exists t, out = Some t /\ ((exists bs, t = TImpl bs) \/ result_impl t).

(** The code has no branches, no exits and no markers for the attribute. *)
Definition spare_input (i : input) : Prop :=
  match i with
  | InExpr e => spare true e = true /\ bare e = true /\ no_closure e = true
  | InStmt (SExpr e semi) => spare true e = true /\ (semi = true \/ bare e = true /\ no_closure e = true)
  | InStmt (SLocal (Local _ _ _ (Some e) None)) => spare true e = true /\ bare e = true /\ no_closure e = true
  | InStmt (SItem (IFn _ _ out b)) =>
      b <> [] /\ on_last bare_last true b = true
      /\ (spare_block false b = true \/ spare_block true b = true /\ ~ wraps_exits out)
  | _ => False
  end.

(** The same code, or the same errors. *)
Definition same_outcome (o o' : outcome) : Prop :=
  match o, o' with
  | Code i _, Code i' _ => i' = i
  | Errors l, Errors l' => l' = l
  | _, _ => False
  end.
