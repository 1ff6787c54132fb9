(** Specification: reasons for which a branch that counts as producing no value may produce one. *)

Require Import Coq.Strings.String Coq.Lists.List Coq.Bool.Bool.
Require Import Verif.Syntax Verif.NoValueSpec.
Import ListNotations.
Open Scope string_scope.
Open Scope list_scope.

(** [break 'l] occurs in the code; items and macro arguments other than markers are not code that runs here. *)
Fixpoint breaks_to (l : string) (e : expr) {struct e} : bool :=
  match e with
  | EBlock _ _ b | EBlk _ _ b | ELoop _ _ b => existsb (breaks_to_stmt l) b
  | EMatch _ s arms => breaks_to l s || existsb (breaks_to_arm l) arms
  | EIf _ c b o =>
      breaks_to l c || existsb (breaks_to_stmt l) b || match o with Some x => breaks_to l x | None => false end
  | ELet _ _ x | ETry _ x | EParen _ x | EClosure _ _ x => breaks_to l x
  | EWhile _ _ c b | EFor _ _ _ c b => breaks_to l c || existsb (breaks_to_stmt l) b
  | EBreak _ l' o =>
      match l' with Some x => x =? l | None => false end
      || match o with Some x => breaks_to l x | None => false end
  | EReturn _ o => match o with Some x => breaks_to l x | None => false end
  | EMacro _ (Mac _ o) => match o with Some x => breaks_to l x | None => false end
  | EMethodCall _ f _ args | ECall _ f args => breaks_to l f || existsb (breaks_to l) args
  | EOther _ _ es => existsb (breaks_to l) es
  | EContinue _ _ | EPath _ _ _ | EVerbatim _ => false
  end
with breaks_to_stmt (l : string) (s : stmt) {struct s} : bool :=
  match s with
  | SLocal x => breaks_to_local l x
  | SItem _ => false
  | SExpr e _ => breaks_to l e
  | SMacro _ (Mac _ o) _ => match o with Some x => breaks_to l x | None => false end
  end
with breaks_to_local (l : string) (x : local) {struct x} : bool :=
  match x with
  | Local _ _ _ i d =>
      match i with Some x => breaks_to l x | None => false end
      || match d with Some x => breaks_to l x | None => false end
  end
with breaks_to_arm (l : string) (x : arm) {struct x} : bool :=
  match x with
  | Arm _ _ g b _ => match g with Some x => breaks_to l x | None => false end || breaks_to l b
  end.

Section Excused.
  (** The names of marker macros. *)
  Variable marker : string -> Prop.

  Definition marker_mac (m : mac) : Prop := match m with Mac p _ => exists s, marker s /\ is_ident p s = true end.

  Inductive excused : expr -> Prop :=
  (* annotated by the user, or by a nested attribute that wraps the value itself *)
  | ex_never e : has_plain "never" (e_attrs e) -> excused e
  | ex_auto_enum e : has_any "auto_enum" (e_attrs e) -> excused e
  (* the value is the one of a marker *)
  | ex_macro a m : marker_mac m -> excused (EMacro a m)
  (* a block left by [break] with its label *)
  | ex_label a l b : existsb (breaks_to_stmt l) b = true -> excused (EBlock a (Some l) b)
  (* one of these in the place that gives the value *)
  | ex_block a l b s : excused_stmt s -> excused (EBlock a l (b ++ [s]))
  | ex_unsafe a b s : excused_stmt s -> excused (EBlk KUnsafe a (b ++ [s]))
  | ex_match a s arms m : In m arms -> excused_arm m -> excused (EMatch a s arms)
  | ex_method a e m args : excused e -> excused (EMethodCall a e m args)
  | ex_paren a e : excused e -> excused (EParen a e)
  with excused_arm : arm -> Prop :=
  | exa_never a p g b c : has_plain "never" a -> excused_arm (Arm a p g b c)
  | exa_body a p g b c : excused b -> excused_arm (Arm a p g b c)
  with excused_stmt : stmt -> Prop :=
  | exs_expr e semi : excused e -> excused_stmt (SExpr e semi)
  | exs_let a p t e d : excused e -> excused_stmt (SLocal (Local a p t (Some e) d))
  (* a block that ends in an item *)
  | exs_item i : excused_stmt (SItem i)
  | exs_macro a m semi : marker_mac m -> excused_stmt (SMacro a m semi).
End Excused.
