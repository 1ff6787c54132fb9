(** Specification: the associated types of the fields of an enum and of its implementations (property C43). *)

Require Import Coq.Strings.String Coq.Lists.List Coq.Bool.Bool.
Require Import Verif.Derive Verif.DeriveSpec.
Import ListNotations.
Open Scope string_scope.
Open Scope list_scope.

(** The types that an implementation is used with: which traits they implement, what their associated types are,
    which outlive ['static], which of the user's predicates hold, and what the type parameters stand for. *)
Record setting (T : Type) := Setting {
  has : toks -> trait_ref -> Prop;
  type_of : toks -> trait_ref -> string -> T;
  static : toks -> Prop;
  user : toks -> Prop;
  param_is : string -> T
}.
Arguments has {T}.
Arguments type_of {T}.
Arguments static {T}.
Arguments user {T}.
Arguments param_is {T}.
Definition denotes {T} (W : setting T) (x : assoc) : T :=
  match x with AProj t tr n => type_of W t tr n | AParam s => param_is W s end.

(** The traits whose associated type is declared by a supertrait with the same parameters, from their documentation. *)
Definition inherited : list (string * (string * string)) :=
  [("::core::iter::DoubleEndedIterator", ("::core::iter::Iterator", "Item"));
   ("::core::iter::ExactSizeIterator", ("::core::iter::Iterator", "Item"));
   ("::core::iter::FusedIterator", ("::core::iter::Iterator", "Item"));
   ("::core::iter::TrustedLen", ("::core::iter::Iterator", "Item"));
   ("::core::ops::DerefMut", ("::core::ops::Deref", "Target"));
   ("::core::ops::IndexMut", ("::core::ops::Index", "Output"));
   ("::core::ops::Fn", ("::core::ops::FnOnce", "Output"));
   ("::core::ops::FnMut", ("::core::ops::FnOnce", "Output"));
   ("::rayon::iter::IndexedParallelIterator", ("::rayon::iter::ParallelIterator", "Item"))].
(** The trait that declares the type [n] of the trait [tr]. *)
Definition declaring (tr : trait_ref) (n : string) : trait_ref :=
  match find (fun x => (fst x =? tr_path tr) && (snd (snd x) =? n)) inherited with
  | Some x => TRef (fst (snd x)) (tr_args tr)
  | None => tr
  end.

(** The meaning of a where predicate. *)
Definition holds_in {T} (W : setting T) (p : wpred) : Prop :=
  match p with
  | WBound t tr b => has W t tr /\ forall n x, In (n, x) b -> type_of W t (declaring tr n) n = denotes W x
  | WStatic t => static W t
  | WUser w => user W w
  end.

(** The closure traits, whose implementations take the result type as a parameter. *)
Definition closure_traits : list string := ["::core::ops::Fn"; "::core::ops::FnMut"; "::core::ops::FnOnce"].

(** What the types of the fields have to satisfy: the user's where clause holds, all implement the trait, all have
    the same associated types, those of the supertrait included; for [Error] they live as long as the program; for
    closures the parameter [__U] is their result. *)
Record fits {T} (W : setting T) (field : toks -> Prop) (wh : list toks) (names : list string) (tr : trait_ref) : Prop := Fits {
  fits_user : forall w, In w wh -> user W w;
  fits_trait : forall t, field t -> has W t tr;
  fits_types : forall n t u, In n names -> field t -> field u -> type_of W t tr n = type_of W u tr n;
  fits_inherited : forall own n t u, In (tr_path tr, (own, n)) inherited -> field t -> field u ->
    type_of W t (TRef own (tr_args tr)) n = type_of W u (TRef own (tr_args tr)) n;
  fits_static : tr_path tr = "::std::error::Error" -> forall t, field t -> static W t;
  fits_result : In (tr_path tr) closure_traits -> forall t, field t ->
    type_of W t (TRef "::core::ops::FnOnce" (tr_args tr)) "Output" = param_is W "__U"
}.
