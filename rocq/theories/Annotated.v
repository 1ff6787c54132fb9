(** Specification: code with markers, [#[nested]] and [#[never]] whose value is wrapped on every path. *)

Require Import Coq.Strings.String Coq.Lists.List Coq.Bool.Bool.
Require Import Verif.Syntax Verif.ExprModel Verif.Edits Verif.NoValueSpec Verif.Excused Verif.Tails Verif.Loops Verif.Changes Verif.Branches Verif.Values.
Import ListNotations.
Open Scope string_scope.
Open Scope list_scope.

(** The annotation [#[name]] and none of the others. *)
Definition only (name : string) (a : list attr) : Prop :=
  exists l r p, a = l ++ MPath p :: r /\ is_ident p name = true /\ no_help (l ++ r) = true.

(** [e0] with the annotation [#[name]] is [e]. *)
Definition annotated (name : string) (e0 e : expr) : Prop :=
  exists l r p, e_attrs e = l ++ MPath p :: r /\ is_ident p name = true /\ no_help (l ++ r) = true /\ e0 = set_attrs e (l ++ r).

Section Annotated.
  (** The marker macro, the exits that are taken, and code of which the user knows that it ends in no value. *)
  Variables (m : string) (x : takes) (halts : expr -> Prop).
  Let marker (s : string) : Prop := s = m.

  (** [return] and [?] are wrapped where they stand, [#[never]] on them would prevent it. *)
  Definition exit (e : expr) : bool := match e with EReturn _ _ | ETry _ _ => true | _ => false end.
  (** Forms [#[nested]] is of use on. *)
  Definition has_branches (e : expr) : bool :=
    match e with EMatch _ _ _ | EIf _ _ _ _ | ELoop _ _ _ | EBlock _ _ _ | EBlk KUnsafe _ _ | EParen _ _ => true | _ => false end.

  (** An expression whose branches are wrapped. *)
  Inductive spread : expr -> Prop :=
  | sp_no_value e : tidy m x e = true -> no_value marker e -> ~ excused marker e -> spread e
  | sp_match a s arms : no_help a = true -> tidy m x s = true -> spread_arms arms -> spread (EMatch a s arms)
  | sp_if a c b e : no_help a = true -> tidy m x c = true -> spread_branch b -> spread_else e -> spread (EIf a c b (Some e))
  | sp_loop a l b : tidy m x (ELoop a l b) = true -> scoped_body l b = true -> spread (ELoop a l b)
  | sp_block a b e : no_help a = true -> forallb (tidy_stmt m x) b = true -> spread e -> spread (EBlock a None (b ++ [SExpr e false]))
  | sp_unsafe a b e : no_help a = true -> forallb (tidy_stmt m x) b = true -> spread e -> spread (EBlk KUnsafe a (b ++ [SExpr e false]))
  | sp_paren a e : no_help a = true -> spread e -> spread (EParen a e)
  (* the marker itself *)
  | sp_mark a p y : no_help a = true -> is_ident p m = true -> clean m x y = true -> tidy m x y = true -> spread (EMacro a (Mac p (Some y)))
  (** The arms of a [match]. *)
  with spread_arms : list arm -> Prop :=
  | sa_nil : spread_arms []
  | sa_cons a p g b c l : fold_opt true (tidy m x) g = true -> spread_arm a b -> spread_arms l -> spread_arms (Arm a p g b c :: l)
  with spread_arm : list attr -> expr -> Prop :=
  (* wrapped as a whole, if it gives a value *)
  | sm_whole a b : no_help a = true -> tidy m x b = true -> sound m b -> spread_arm a b
  (* wrapped inside *)
  | sm_held a b : no_help a = true -> held b -> spread_arm a b
  (* [#[nested] p => ..] and [#[never] p => ..] *)
  | sm_nested a b : only "nested" a -> spread b -> spread_arm a b
  | sm_never a b : only "never" a -> tidy m x b = true -> halts b -> spread_arm a b
  (** The branches of an [if]. *)
  with spread_branch : list stmt -> Prop :=
  | sb_whole b : forallb (tidy_stmt m x) b = true -> sound m (EBlock [] None b) -> spread_branch b
  | sb_held b e : forallb (tidy_stmt m x) b = true -> held e -> spread_branch (b ++ [SExpr e false])
  with spread_else : expr -> Prop :=
  | se_block a b : no_help a = true -> spread_branch b -> spread_else (EBlock a None b)
  | se_if a c b e : spread (EIf a c b (Some e)) -> spread_else (EIf a c b (Some e))
  (** A branch that is not wrapped as a whole but inside. *)
  with held : expr -> Prop :=
  | hd_mark a p y : no_help a = true -> is_ident p m = true -> clean m x y = true -> tidy m x y = true -> held (EMacro a (Mac p (Some y)))
  | hd_nested e0 e : annotated "nested" e0 e -> has_branches e = true -> spread e0 -> held e
  | hd_never e0 e : annotated "never" e0 e -> exit e = false -> tidy m x e0 = true -> halts e -> held e
  | hd_block a b e : no_help a = true -> forallb (tidy_stmt m x) b = true -> held e -> held (EBlock a None (b ++ [SExpr e false]))
  | hd_unsafe a b e : no_help a = true -> forallb (tidy_stmt m x) b = true -> held e -> held (EBlk KUnsafe a (b ++ [SExpr e false]))
  | hd_paren a e : no_help a = true -> held e -> held (EParen a e).

  (** The body of a function. *)
  Inductive spread_body : list stmt -> Prop :=
  | sy_value b e : forallb (tidy_stmt m x) b = true -> spread e -> spread_body (b ++ [SExpr e false])
  | sy_exit b s : forallb (tidy_stmt m x) (b ++ [s]) = true -> no_value_stmt marker s -> ~ excused_stmt marker s -> spread_body (b ++ [s]).
End Annotated.

Scheme spread_mut := Minimality for spread Sort Prop
  with spread_arms_mut := Minimality for spread_arms Sort Prop
  with spread_arm_mut := Minimality for spread_arm Sort Prop
  with spread_branch_mut := Minimality for spread_branch Sort Prop
  with spread_else_mut := Minimality for spread_else Sort Prop
  with held_mut := Minimality for held Sort Prop.
Combined Scheme spread_ind6 from spread_mut, spread_arms_mut, spread_arm_mut, spread_branch_mut, spread_else_mut, held_mut.
