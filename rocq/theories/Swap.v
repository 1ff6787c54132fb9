(** Specification: answers of the macro that differ in nothing but the traits of the enum. *)

Require Import Coq.Strings.String Coq.Lists.List Coq.Bool.Bool Coq.Arith.Arith.
Require Import Verif.Syntax Verif.Context Verif.AutoEnum Verif.Edits Verif.Found.
Import ListNotations.
Open Scope string_scope.
Open Scope list_scope.

(** The enum [g] declared in front of the value. *)
Definition in_front (g : genum) (e : expr) : expr := EBlock [] None [SItem (IEnum g); SExpr e false].
(** The enum [g] declared where an attribute on this code declares it. *)
Definition with_enum (g : genum) (i : input) : input :=
  match i with
  | InExpr e => InExpr (in_front g e)
  | InStmt (SExpr e semi) => InStmt (SExpr (in_front g e) semi)
  | InStmt (SLocal (Local a p t (Some e) d)) => InStmt (SLocal (Local a p t (Some (in_front g e)) d))
  | InStmt (SItem (IFn a sg out b)) => InStmt (SItem (IFn a sg out (SItem (IEnum g) :: b)))
  | _ => i
  end.

(** [i0] and [i1] are the same code with the same variants [vs] in the enum [own], which derives [ps0] in [i0] and [ps1] in
    [i1]. *)
Definition code_but_traits (own : string) (vs : list string) (ps0 ps1 : list path) (i0 i1 : input) : Prop :=
  match vs with
  | [] => i0 = i1
  | _ => exists i, i0 = with_enum (enum_of own vs ps0) i /\ i1 = with_enum (enum_of own vs ps1) i
  end.

(** The answers [r0] and [r1] of the macro: the same errors, or the same code but for the traits, where [same] leaves out
    what else may differ. *)
Definition but_traits (same : input -> input) (own : string) (ps0 ps1 : list path) (r0 r1 : res outcome) : Prop :=
  match r0, r1 with
  | ROk (Code i0 c0), ROk (Code i1 c1) =>
      cx_variants c0 = cx_variants c1 /\ code_but_traits own (cx_variants c0) ps0 ps1 (same i0) (same i1)
  | ROk (Errors l0), ROk (Errors l1) => l0 = l1
  | RFuel, RFuel => True
  | RPanic s0, RPanic s1 => s0 = s1
  | _, _ => False
  end.
