(** Model of /repo/src/auto_enum/type_analysis.rs. *)

Require Import Coq.Strings.String Coq.Lists.List Coq.Bool.Bool.
Require Import Verif.Syntax.
Import ListNotations.
Open Scope string_scope.
Open Scope list_scope.

(** Text of a path without spaces ([to_token_stream().to_string()] and [replace(' ', "")],
    type_analysis.rs:25-26,28, /repo/src/enum_derive.rs:182-184).  type_analysis.rs:28 compares the
    texts with their spaces, which gives the same answer because identifiers hold no
    spaces.  Simplified: generic arguments are not printed (the paths compared here have
    none: type_analysis.rs:24 drops them and the argument parser of the model reads none). *)
Definition path_text (p : path) : string :=
  match p with
  | Path leading _ => String.append (if leading then "::" else "") (String.concat "::" (path_ids p))
  end.

(** [TRAITS], type_analysis.rs:43-93. *)
Definition TRAITS : list string :=
  ["Clone"; "Copy"; "PartialEq"; "Eq"; "PartialOrd"; "Ord"; "Hash";
   "AsRef"; "AsMut"; "Debug"; "fmt::Debug"; "Display"; "fmt::Display"; "fmt::Binary";
   "fmt::LowerExp"; "fmt::LowerHex"; "fmt::Octal"; "fmt::Pointer"; "fmt::UpperExp";
   "fmt::UpperHex"; "fmt::Write"; "Iterator"; "DoubleEndedIterator"; "ExactSizeIterator";
   "FusedIterator"; "TrustedLen"; "Extend"; "Deref"; "DerefMut"; "Index"; "IndexMut";
   "RangeBounds"; "Fn"; "FnMut"; "FnOnce"; "Coroutine"; "Future";
   "Read"; "io::Read"; "BufRead"; "io::BufRead"; "Write"; "io::Write"; "Seek"; "io::Seek";
   "Error"; "error::Error"].

(** The test of type_analysis.rs:27-28. *)
Definition wanted (args : list path) (p : path) : bool :=
  existsb (String.eqb (path_text p)) TRAITS
  && negb (existsb (fun x => path_text x =? path_text p) args).

(** The loop of [visit_type_impl_trait_mut] over the bounds, type_analysis.rs:22-34. *)
Definition bound_traits (args : list path) (bs : list bound) : list path :=
  flat_map (fun b => match b with
                     | BTrait p =>
                         let q := plain_path (path_ids p) in
                         if wanted args q then [q] else []
                     | BOther _ => []
                     end) bs.

(** [CollectImplTrait] run over a type, type_analysis.rs:18-36: the traits pushed, in order.
    Children are visited in syn's order; for [impl Trait] the inner types come first
    (type_analysis.rs:20). *)
Fixpoint collect_ty (args : list path) (t : ty) {struct t} : list path :=
  match t with
  | TImpl bs => flat_map (collect_bound args) bs ++ bound_traits args bs
  | TPath q p =>
      match q with Some t' => collect_ty args t' | None => [] end ++ collect_path args p
  | TOther _ ts => flat_map (collect_ty args) ts
  end
(** syn's default for bounds. *)
with collect_bound (args : list path) (b : bound) {struct b} : list path :=
  match b with
  | BTrait p => collect_path args p
  | BOther _ => []
  end
(** syn's default for paths. *)
with collect_path (args : list path) (p : path) {struct p} : list path :=
  match p with Path _ segs => flat_map (collect_seg args) segs end
(** syn's default for path segments. *)
with collect_seg (args : list path) (s : seg) {struct s} : list path :=
  match s with Seg _ a => collect_segargs args a end
(** syn's default for path arguments. *)
with collect_segargs (args : list path) (a : segargs) {struct a} : list path :=
  match a with
  | ANone => []
  | AAngle _ l => flat_map (collect_garg args) l
  | AParen ins out =>
      flat_map (collect_ty args) ins
      ++ match out with Some t => collect_ty args t | None => [] end
  end
(** syn's default for generic arguments. *)
with collect_garg (args : list path) (g : garg) {struct g} : list path :=
  match g with
  | GType t => collect_ty args t
  | GAssoc _ t => collect_ty args t
  | GConstraint _ bs => flat_map (collect_bound args) bs
  | GOther _ => []
  end.

(** [collect_impl_trait], type_analysis.rs:11-41: the new [traits] list and the returned flag
    (set exactly when something is pushed, lines 30-31). *)
Definition collect_impl_trait (args traits : list path) (t : ty) : list path * bool :=
  let new := collect_ty args t in
  (traits ++ new, match new with [] => false | _ => true end).
