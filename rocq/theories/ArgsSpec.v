(** Specification: the grammar of the argument list, the names recognised, and the traits in a type. *)

Require Import Coq.Strings.String Coq.Lists.List Coq.Bool.Bool.
Require Import Verif.Syntax Verif.TypeAnalysis.
Import ListNotations.
Open Scope string_scope.
Open Scope list_scope.

(** ** Argument lists *)

(** One argument: a trait or [marker = name]. *)
Inductive argument :=
| Trait (p : path)
| Marker (name : string).

(** [a::b::c] is written as these tokens. *)
Inductive segs_written : list string -> list token -> Prop :=
| sw_one s : segs_written [s] [TkIdent s]
| sw_more s l toks : segs_written l toks -> segs_written (s :: l) (TkIdent s :: TkColon2 :: toks).

(** An argument is written as these tokens. *)
Inductive written : argument -> list token -> Prop :=
| w_path ids toks : segs_written ids toks -> written (Trait (plain_path ids)) toks
| w_global ids toks :
    segs_written ids toks ->
    written (Trait (Path true (map (fun i => Seg i ANone) ids))) (TkColon2 :: toks)
| w_marker m : written (Marker m) [TkIdent "marker"; TkEq; TkIdent m].

(** A list of arguments separated by commas, perhaps with a comma at the end. *)
Inductive arg_list : list argument -> list token -> Prop :=
| al_nil : arg_list [] []
| al_one a toks : written a toks -> arg_list [a] toks
| al_cons a l toks rest :
    written a toks -> arg_list l rest -> arg_list (a :: l) (toks ++ TkComma :: rest).

(** The traits of an argument list, in order. *)
Definition traits_of (l : list argument) : list path :=
  flat_map (fun a => match a with Trait p => [p] | Marker _ => [] end) l.
(** The marker names of an argument list. *)
Definition markers_of (l : list argument) : list string :=
  flat_map (fun a => match a with Trait _ => [] | Marker m => [m] end) l.

(** ** Names *)

(** The path is the name alone, or written in full from [std] or [core] through the given modules;
    a leading [::] and generic arguments make no difference. *)
Definition names (p : path) (modules : list string) (name : string) : Prop :=
  path_ids p = [name]
  \/ path_ids p = "std" :: modules ++ [name]
  \/ path_ids p = "core" :: modules ++ [name].

(** ** Traits in a type *)

Section Lists.
  Context {A B : Type} (f : A -> list B).
  Definition opt_list (o : option A) : list B := match o with Some x => f x | None => [] end.
End Lists.

(** The bounds of all [impl ..] types inside a type, from left to right, inner ones first. *)
Fixpoint impls (t : ty) : list (list bound) :=
  match t with
  | TImpl bs => flat_map impls_bound bs ++ [bs]
  | TPath q p => opt_list impls q ++ impls_path p
  | TOther _ ts => flat_map impls ts
  end
with impls_bound (b : bound) : list (list bound) :=
  match b with BTrait p => impls_path p | BOther _ => [] end
with impls_path (p : path) : list (list bound) :=
  match p with Path _ segs => flat_map impls_seg segs end
with impls_seg (s : seg) : list (list bound) :=
  match s with Seg _ a => impls_args a end
with impls_args (a : segargs) : list (list bound) :=
  match a with
  | ANone => []
  | AAngle _ l => flat_map impls_garg l
  | AParen ins out => flat_map impls ins ++ opt_list impls out
  end
with impls_garg (g : garg) : list (list bound) :=
  match g with
  | GType t => impls t
  | GAssoc _ t => impls t
  | GConstraint _ bs => flat_map impls_bound bs
  | GOther _ => []
  end.

(** The traits among bounds, without their generic arguments. *)
Definition bounds_traits (bs : list bound) : list path :=
  flat_map (fun b => match b with BTrait p => [plain_path (path_ids p)] | BOther _ => [] end) bs.

(** The trait is supported and not one of the arguments (both compared as text). *)
Definition new_trait (args : list path) (q : path) : Prop :=
  In (path_text q) TRAITS /\ ~ In (path_text q) (map path_text args).
