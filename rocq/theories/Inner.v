(** Specification: code that may hold nested attributes, and whose value is wrapped on every path. *)

Require Import Coq.Strings.String Coq.Lists.List Coq.Bool.Bool.
Require Import Verif.Syntax Verif.ExprModel Verif.Edits Verif.NoValueSpec Verif.Tails Verif.Loops Verif.Changes Verif.Branches Verif.Exits Verif.Eval Verif.Values Verif.Annotated.
Import ListNotations.
Open Scope string_scope.
Open Scope list_scope.

(** ** The exits of a function *)

(** Every exit is a [return] that is taken: there is no [?], and no [return] is excluded (Exits.v). *)
Definition returns_taken (m : string) (l : list (place * Exits.exit)) : bool :=
  forallb (fun y => match snd y with XRet a o => negb (excluded m (fst y) a o) | _ => false end) l.

(** ** The [break]s of a loop *)

(** There is no [break]; closures and [async] blocks have their own. *)
Fixpoint no_break (e : expr) : bool :=
  match e with
  | EClosure _ _ _ | EBlk KAsync _ _ => true
  | EBreak _ _ _ => false
  | EMacro _ (Mac _ (Some x)) => no_break x
  | _ => fold_expr andb true no_break no_break_stmt no_break_arm e
  end
with no_break_stmt (s : stmt) : bool :=
  match s with
  | SMacro _ (Mac _ (Some x)) _ => no_break x
  | _ => fold_stmt true no_break no_break_local s
  end
with no_break_arm (y : arm) : bool := fold_arm andb true no_break y
with no_break_local (y : local) : bool := fold_local andb true no_break y.

(** There is no [break] in the argument of a macro. *)
Fixpoint macros_whole (e : expr) : bool :=
  match e with
  | EClosure _ _ _ | EBlk KAsync _ _ => true
  | EMacro _ (Mac _ (Some x)) => no_break x
  | _ => fold_expr andb true macros_whole macros_whole_stmt macros_whole_arm e
  end
with macros_whole_stmt (s : stmt) : bool :=
  match s with
  | SMacro _ (Mac _ (Some x)) _ => no_break x
  | _ => fold_stmt true macros_whole macros_whole_local s
  end
with macros_whole_arm (y : arm) : bool := fold_arm andb true macros_whole y
with macros_whole_local (y : local) : bool := fold_local andb true macros_whole y.

(** Every [break] that leaves the loop (Loops.v) is taken: none is below [#[never]], holds a marker or is in the argument of a macro.
    No other loop or block has the label of the loop. *)
Definition breaks_taken (m : string) (l : option string) (b : list stmt) : bool :=
  scoped_body l b && forallb macros_whole_stmt b
  && forallb (fun y => negb (b_leaves y)
       || negb (b_never y) && match b_value y with Some (EMacro _ (Mac p _)) => negb (is_ident p m) | _ => true end) (loop_breaks l b).

(** ** The end of the code *)

Section Inner.
  (** The names of all markers in the code, and as in Annotated.v the own one, the exits that are taken, and code of which the
      user knows that it ends in no value. *)
  Variables (mk : string -> bool) (m : string) (x : takes) (halts : expr -> Prop).
  Let marker (s : string) : Prop := s = m.

  (** [panic!(..)] and [unreachable!(..)] *)
  Definition panic_mac (y : mac) : bool := match y with Mac p _ => panic_of p && negb (is_marker mk p) && negb (is_ident p m) end.

  (** It ends in [return], [break], [continue] or a panic. *)
  Inductive leaving : expr -> Prop :=
  | lv_return a o : no_help a = true -> leaving (EReturn a o)
  | lv_break a l o : no_help a = true -> leaving (EBreak a l o)
  | lv_continue a l : no_help a = true -> leaving (EContinue a l)
  | lv_panic a y : no_help a = true -> panic_mac y = true -> leaving (EMacro a y)
  | lv_block a b s : no_help a = true -> leaving_stmt s -> leaving (EBlock a None (b ++ [s]))
  with leaving_stmt : stmt -> Prop :=
  | ls_expr e semi : leaving e -> leaving_stmt (SExpr e semi)
  | ls_macro a y semi : panic_mac y = true -> leaving_stmt (SMacro a y semi).

  (** There is no marker but the own one. *)
  Definition alone : Prop := forall s, mk s = true <-> s = m.

  (** As [spread] in Annotated.v; the parts in front of the end, and branches that are wrapped as a whole, are any code. *)
  Inductive ends : expr -> Prop :=
  | en_spread e : alone -> spread m x halts e -> ends e
  | en_leaving e : leaving e -> ends e
  | en_match a s arms : no_help a = true -> ends_arms arms -> ends (EMatch a s arms)
  | en_if a c b e : no_help a = true -> ends_branch b -> ends_else e -> ends (EIf a c b (Some e))
  | en_loop a l b : no_help a = true -> breaks_taken m l b = true -> ends (ELoop a l b)
  | en_block a b e : no_help a = true -> ends e -> ends (EBlock a None (b ++ [SExpr e false]))
  | en_unsafe a b e : no_help a = true -> ends e -> ends (EBlk KUnsafe a (b ++ [SExpr e false]))
  | en_paren a e : no_help a = true -> ends e -> ends (EParen a e)
  | en_mark a p y : no_help a = true -> is_ident p m = true -> ends (EMacro a (Mac p (Some y)))
  with ends_arms : list arm -> Prop :=
  | ea_nil : ends_arms []
  | ea_cons a p g b c l : ends_arm (Arm a p g b c) -> ends_arms l -> ends_arms (Arm a p g b c :: l)
  with ends_arm : arm -> Prop :=
  | em_whole a p g b c : no_help a = true -> ~ no_value marker b -> nested_in b = false -> fold_opt false nested_in g = false ->
      ends_arm (Arm a p g b c)
  | em_leaving a p g b c : no_help a = true -> leaving b -> ends_arm (Arm a p g b c)
  | em_inside a p g b c : no_help a = true -> inside b -> ends_arm (Arm a p g b c)
  | em_spread a p g b c : alone -> fold_opt true (tidy m x) g = true -> spread_arm m x halts a b -> ends_arm (Arm a p g b c)
  | em_nested a p g b c : only "nested" a -> ends b -> ends_arm (Arm a p g b c)
  with ends_branch : list stmt -> Prop :=
  | eb_whole b : ~ no_value marker (EBlock [] None b) -> existsb nested_in_stmt b = false -> ends_branch b
  | eb_spread b : alone -> spread_branch m x halts b -> ends_branch b
  | eb_leaving b s : leaving_stmt s -> ends_branch (b ++ [s])
  | eb_inside b e : inside e -> ends_branch (b ++ [SExpr e false])
  with ends_else : expr -> Prop :=
  | ee_block a b : no_help a = true -> ends_branch b -> ends_else (EBlock a None b)
  | ee_if a c b e : no_help a = true -> ends (EIf a c b (Some e)) -> ends_else (EIf a c b (Some e))
  (** As [held] in Annotated.v. *)
  with inside : expr -> Prop :=
  | ns_held e : alone -> held m x halts e -> inside e
  | ns_mark a p y : no_help a = true -> is_ident p m = true -> inside (EMacro a (Mac p (Some y)))
  | ns_nested e0 e : annotated "nested" e0 e -> has_branches e = true -> ends e0 -> inside e
  | ns_block a b e : no_help a = true -> inside e -> inside (EBlock a None (b ++ [SExpr e false]))
  | ns_unsafe a b e : no_help a = true -> inside e -> inside (EBlk KUnsafe a (b ++ [SExpr e false]))
  | ns_paren a e : no_help a = true -> inside e -> inside (EParen a e).

  (** The body of a function. *)
  Inductive ends_body : list stmt -> Prop :=
  | ey_value b e : ends e -> ends_body (b ++ [SExpr e false])
  | ey_leaving b s : leaving_stmt s -> ends_body (b ++ [s]).
End Inner.

Scheme leaving_mut := Minimality for leaving Sort Prop
  with leaving_stmt_mut := Minimality for leaving_stmt Sort Prop.
Combined Scheme leaving_ind2 from leaving_mut, leaving_stmt_mut.
Scheme ends_mut := Minimality for ends Sort Prop
  with ends_arms_mut := Minimality for ends_arms Sort Prop
  with ends_arm_mut := Minimality for ends_arm Sort Prop
  with ends_branch_mut := Minimality for ends_branch Sort Prop
  with ends_else_mut := Minimality for ends_else Sort Prop
  with inside_mut := Minimality for inside Sort Prop.
Combined Scheme ends_ind6 from ends_mut, ends_arms_mut, ends_arm_mut, ends_branch_mut, ends_else_mut, inside_mut.

(** ** Executions *)

(** A value is in a variant of the enum [own]. *)
Definition one_variant {W} (own : string) (r : sres W) : Prop :=
  match r with SGo _ _ y _ => exists v z, y = VWrap own v z | SOut _ _ _ => True end.
