(** Specification: traits that the type analysis finds, and code that is left alone although it finds some. *)

Require Import Coq.Strings.String Coq.Lists.List Coq.Bool.Bool Coq.Arith.Arith.
Require Import Verif.Syntax Verif.Context Verif.AutoEnum Verif.TypeAnalysis Verif.ArgsSpec Verif.TraitRun Verif.Tails Verif.Exits Verif.ExitsTop.
Require Import Verif.Changes.
Import ListNotations.
Open Scope string_scope.
Open Scope list_scope.

(** The traits in the type of the annotated code that are supported and not among the arguments [ps] (C27_exact). *)
Definition found (ps : list path) (i : input) : list path :=
  match annotated_type i with
  | Some t => flat_map (fun bs => filter (wanted ps) (bounds_traits bs)) (impls t)
  | None => []
  end.

(** The same code, a [let] without its type. *)
Definition without_type (i : input) : input :=
  match i with
  | InStmt (SLocal (Local a p _ e d)) => InStmt (SLocal (Local a p None e d))
  | _ => i
  end.

(** A [return] that counts: not in a macro call, not [#[never]], not on a marker. *)
Definition return_counted (m : string) (x : place * exit) : bool :=
  match snd x with XRet a o => negb (excluded m (fst x) a o) | _ => false end.
(** The number of [return]s of the function itself. *)
Definition returns (m : string) (l : list (place * exit)) : nat := List.length (filter (return_counted m) l).

(** The outermost attribute, without traits as arguments, on a function or closure whose [return]s it takes. *)
Definition unlisted (own m : string) : who := Who own m [m] true false true TakesReturns false.

(** A function that returns [impl ..] or a closure that is the value of a [let]: at most one [return], and no branches at
    the end. *)
Inductive one_way (own m : string) : input -> Prop :=
| ow_fn a sg bs b b' : b <> [] -> returns m (body_exits false b) < 2 -> branches_body (unlisted own m) [] b b' ->
    one_way own m (InStmt (SItem (IFn a sg (Some (TImpl bs)) b)))
| ow_let a p t ca ps b b' d : questions m (exits false (Place false false) b) < 2 ->
    returns m (exits false (Place false false) b) < 2 -> branches (unlisted own m) [] b b' ->
    one_way own m (InStmt (SLocal (Local a p t (Some (EClosure ca ps b)) d))).

(** [r0] is the answer of the macro where the traits are found, [r1] where they are listed: the same errors, or the same
    code but for the type of a [let], with as many variants. *)
Definition same_answer (dropped : bool) (r0 r1 : res outcome) : Prop :=
  match r0, r1 with
  | ROk (Code i0 c0), ROk (Code i1 c1) => (i0 = if dropped then without_type i1 else i1) /\ cx_variants c0 = cx_variants c1
  | ROk (Errors l0), ROk (Errors l1) => l0 = l1
  | RFuel, RFuel => True
  | RPanic s0, RPanic s1 => s0 = s1
  | _, _ => False
  end.
