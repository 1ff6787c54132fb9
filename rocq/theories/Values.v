(** Specification: code whose value is wrapped on every path, and what that means for its executions. *)

Require Import Coq.Strings.String Coq.Lists.List Coq.Bool.Bool.
Require Import Verif.Syntax Verif.ExprModel Verif.Edits Verif.NoValueSpec Verif.Excused Verif.Tails Verif.Loops Verif.Changes Verif.Branches Verif.Eval.
Import ListNotations.
Open Scope string_scope.
Open Scope list_scope.

(** ** Code without annotations *)

(** The code has no annotations of the attribute and no macro [m!].  If the attribute takes [return]s, it has no [?] of its
    own either (rustc refuses it in a function that returns [impl Trait]), and no [return] in an [async] block. *)
Fixpoint tidy (m : string) (x : takes) (e : expr) : bool :=
  match e with
  | EClosure _ _ _ | EBlk KAsync _ _ => clean m x e
  | _ =>
      no_help (e_attrs e)
      && match e with
         | ETry _ _ => match x with TakesReturns => false | _ => true end
         | EMacro _ (Mac p _) => negb (is_ident p m)
         | _ => true
         end
      && fold_expr andb true (tidy m x) (tidy_stmt m x) (tidy_arm m x) e
  end
with tidy_stmt (m : string) (x : takes) (s : stmt) : bool :=
  match s with
  | SMacro _ (Mac p _) _ => negb (is_ident p m)
  | _ => fold_stmt true (tidy m x) (tidy_local m x) s
  end
with tidy_arm (m : string) (x : takes) (y : arm) : bool :=
  match y with Arm a _ _ _ _ => no_help a && fold_arm andb true (tidy m x) y end
with tidy_local (m : string) (x : takes) (y : local) : bool :=
  match y with Local a _ _ _ _ => no_help a && fold_local andb true (tidy m x) y end.

(** ** Code with branches *)

Section Covered.
  Variable m : string.
  Let marker (s : string) : Prop := s = m.

  (** If it counts as producing no value, then not for one of the reasons in Excused.v. *)
  Definition sound (e : expr) : Prop := no_value marker e -> ~ excused marker e.

  (** [if .. else ..] and [if .. else if ..] *)
  Inductive covered_chain : expr -> Prop :=
  | cc_else a c b1 ea b2 : sound (EBlock [] None b1) -> sound (EBlock [] None b2) ->
      covered_chain (EIf a c b1 (Some (EBlock ea None b2)))
  | cc_else_if a c b e : sound (EBlock [] None b) -> covered_chain e -> covered_chain (EIf a c b (Some e)).

  (** [match], [if] with [else] and [loop], perhaps at the end of blocks or in parentheses; code that gives no value. *)
  Inductive covered : expr -> Prop :=
  | cv_no_value e : no_value marker e -> ~ excused marker e -> covered e
  | cv_match a s arms : Forall (fun x => match x with Arm _ _ _ b _ => sound b end) arms -> covered (EMatch a s arms)
  | cv_if e : covered_chain e -> covered e
  | cv_loop a l b : scoped_body l b = true -> covered (ELoop a l b)
  | cv_block a b e : covered e -> covered (EBlock a None (b ++ [SExpr e false]))
  | cv_unsafe a b e : covered e -> covered (EBlk KUnsafe a (b ++ [SExpr e false]))
  | cv_paren a e : covered e -> covered (EParen a e).

  (** The body of a function: it ends in such an expression or in a statement that leaves the function. *)
  Inductive covered_body : list stmt -> Prop :=
  | cb_value b e : covered e -> covered_body (b ++ [SExpr e false])
  | cb_exit b s : no_value_stmt marker s -> ~ excused_stmt marker s -> covered_body (b ++ [s]).
End Covered.

(** ** Executions *)

(** The same end with the same variables and the same state; a value is the one of the original code in one variant of the
    enum [own]. *)
Definition in_variant {W} (own : string) (r r' : sres W) : Prop :=
  match r with
  | SGo _ bs x w => exists v, r' = SGo _ bs (VWrap own v x) w
  | SOut _ o w => r' = SOut _ o w
  end.
