(** Specification: the code that counts as producing no value. *)

Require Import Coq.Strings.String Coq.Lists.List Coq.Bool.Bool.
Require Import Verif.Syntax Verif.ArgsSpec.
Import ListNotations.

(** The annotation [#[name]], without arguments. *)
Definition has_plain (name : string) (a : list attr) : Prop :=
  exists p, In (MPath p) a /\ is_ident p name = true.

(** The annotation [#[name]], [#[name(..)]] or [#[name = ..]]. *)
Definition has_any (name : string) (a : list attr) : Prop :=
  exists x, In x a /\ is_ident (attr_path x) name = true.

(** [panic] or [unreachable], perhaps written out from [std] or [core]. *)
Definition panics (p : path) : Prop := names p [] "panic" \/ names p [] "unreachable".

(** [None] or [Err(..)], perhaps written out. *)
Inductive stops_try : expr -> Prop :=
| st_none a p : names p ["option"; "Option"] "None" -> stops_try (EPath a false p)
| st_err a b p e : names p ["result"; "Result"] "Err" -> stops_try (ECall a (EPath b false p) [e]).

Section NoValue.
  (** The names of marker macros. *)
  Variable marker : string -> Prop.

  (** Macro calls that produce no value. *)
  Definition no_value_macro (m : mac) : Prop :=
    match m with Mac p _ => panics p \/ exists s, marker s /\ is_ident p s = true end.

  (** Expressions that produce no value. *)
  Inductive no_value : expr -> Prop :=
  (* annotated with [#[never]] or [#[auto_enum]] *)
  | nv_never e : has_plain "never" (e_attrs e) -> no_value e
  | nv_auto_enum e : has_any "auto_enum" (e_attrs e) -> no_value e
  (* blocks that end in such code *)
  | nv_block a l b s : no_value_stmt s -> no_value (EBlock a l (b ++ [s]))
  | nv_unsafe a b s : no_value_stmt s -> no_value (EBlk KUnsafe a (b ++ [s]))
  (* exits *)
  | nv_break a l o : no_value (EBreak a l o)
  | nv_continue a l : no_value (EContinue a l)
  | nv_return a o : no_value (EReturn a o)
  | nv_macro a m : no_value_macro m -> no_value (EMacro a m)
  | nv_try a e : stops_try e -> no_value (ETry a e)
  (* a [match] with all arms such *)
  | nv_match a s arms : no_value_arms arms -> no_value (EMatch a s arms)
  (* receivers and parentheses *)
  | nv_method a e m args : no_value e -> no_value (EMethodCall a e m args)
  | nv_paren a e : no_value e -> no_value (EParen a e)
  (** Arms. *)
  with no_value_arms : list arm -> Prop :=
  | nva_nil : no_value_arms []
  | nva_never a p g b c l : has_plain "never" a -> no_value_arms l -> no_value_arms (Arm a p g b c :: l)
  | nva_body a p g b c l : no_value b -> no_value_arms l -> no_value_arms (Arm a p g b c :: l)
  (** Statements. *)
  with no_value_stmt : stmt -> Prop :=
  | nvs_expr e semi : no_value e -> no_value_stmt (SExpr e semi)
  | nvs_let a p t e d : no_value e -> no_value_stmt (SLocal (Local a p t (Some e) d))
  | nvs_item i : no_value_stmt (SItem i)
  | nvs_macro a m semi : no_value_macro m -> no_value_stmt (SMacro a m semi).
End NoValue.

Scheme no_value_mut := Induction for no_value Sort Prop
  with no_value_arms_mut := Induction for no_value_arms Sort Prop
  with no_value_stmt_mut := Induction for no_value_stmt Sort Prop.
Combined Scheme no_value_ind3 from no_value_mut, no_value_arms_mut, no_value_stmt_mut.
