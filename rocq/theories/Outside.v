(** Specification: code that is the same except inside expressions and let statements that carry
    their own [#[auto_enum]]. *)

Require Import Coq.Strings.String Coq.Lists.List Coq.Bool.Bool.
Require Import Verif.Syntax Verif.ExprModel.
Import ListNotations.

(** The attributes contain [auto_enum]. *)
Definition annotated (a : list attr) : Prop :=
  exists x, In x a /\ is_ident (attr_path x) "auto_enum" = true.

(** [same_expr e e']: [e'] differs from [e] only inside annotated parts. *)
Inductive same_expr : expr -> expr -> Prop :=
| so_block a l b b' : same_stmts b b' -> same_expr (EBlock a l b) (EBlock a l b')
| so_blk k a b b' : same_stmts b b' -> same_expr (EBlk k a b) (EBlk k a b')
| so_match a s s' l l' : same_expr s s' -> same_arms l l' -> same_expr (EMatch a s l) (EMatch a s' l')
| so_if a c c' b b' e e' :
    same_expr c c' -> same_stmts b b' -> same_opt e e' -> same_expr (EIf a c b e) (EIf a c' b' e')
| so_let a p e e' : same_expr e e' -> same_expr (ELet a p e) (ELet a p e')
| so_loop a l b b' : same_stmts b b' -> same_expr (ELoop a l b) (ELoop a l b')
| so_while a l c c' b b' :
    same_expr c c' -> same_stmts b b' -> same_expr (EWhile a l c b) (EWhile a l c' b')
| so_for a l p c c' b b' :
    same_expr c c' -> same_stmts b b' -> same_expr (EFor a l p c b) (EFor a l p c' b')
| so_break a l e e' : same_opt e e' -> same_expr (EBreak a l e) (EBreak a l e')
| so_continue a l : same_expr (EContinue a l) (EContinue a l)
| so_return a e e' : same_opt e e' -> same_expr (EReturn a e) (EReturn a e')
| so_try a e e' : same_expr e e' -> same_expr (ETry a e) (ETry a e')
| so_closure a p e e' : same_expr e e' -> same_expr (EClosure a p e) (EClosure a p e')
| so_macro a m : same_expr (EMacro a m) (EMacro a m)
| so_method a e e' m l l' :
    same_expr e e' -> same_exprs l l' -> same_expr (EMethodCall a e m l) (EMethodCall a e' m l')
| so_paren a e e' : same_expr e e' -> same_expr (EParen a e) (EParen a e')
| so_call a e e' l l' :
    same_expr e e' -> same_exprs l l' -> same_expr (ECall a e l) (ECall a e' l')
| so_path a q p : same_expr (EPath a q p) (EPath a q p)
| so_other a k l l' : same_exprs l l' -> same_expr (EOther a k l) (EOther a k l')
| so_verbatim s : same_expr (EVerbatim s) (EVerbatim s)
| so_annotated e e' : annotated (e_attrs e) -> same_expr e e'
with same_exprs : list expr -> list expr -> Prop :=
| sos_nil : same_exprs [] []
| sos_cons e e' l l' : same_expr e e' -> same_exprs l l' -> same_exprs (e :: l) (e' :: l')
with same_opt : option expr -> option expr -> Prop :=
| soo_none : same_opt None None
| soo_some e e' : same_expr e e' -> same_opt (Some e) (Some e')
with same_stmt : stmt -> stmt -> Prop :=
| sst_local a p t i i' d d' :
    same_opt i i' -> same_opt d d' ->
    same_stmt (SLocal (Local a p t i d)) (SLocal (Local a p t i' d'))
| sst_item i : same_stmt (SItem i) (SItem i)
| sst_expr e e' s : same_expr e e' -> same_stmt (SExpr e s) (SExpr e' s)
| sst_macro a m s : same_stmt (SMacro a m s) (SMacro a m s)
| sst_annotated a p t i d x : annotated a -> same_stmt (SLocal (Local a p t i d)) (SLocal x)
with same_stmts : list stmt -> list stmt -> Prop :=
| ssts_nil : same_stmts [] []
| ssts_cons s s' l l' : same_stmt s s' -> same_stmts l l' -> same_stmts (s :: l) (s' :: l')
with same_arms : list arm -> list arm -> Prop :=
| sas_nil : same_arms [] []
| sas_cons a p g g' b b' c l l' :
    same_opt g g' -> same_expr b b' -> same_arms l l' ->
    same_arms (Arm a p g b c :: l) (Arm a p g' b' c :: l').

Scheme same_expr_mut := Induction for same_expr Sort Prop
  with same_exprs_mut := Induction for same_exprs Sort Prop
  with same_opt_mut := Induction for same_opt Sort Prop
  with same_stmt_mut := Induction for same_stmt Sort Prop
  with same_stmts_mut := Induction for same_stmts Sort Prop
  with same_arms_mut := Induction for same_arms Sort Prop.
Combined Scheme same_ind from same_expr_mut, same_exprs_mut, same_opt_mut, same_stmt_mut,
  same_stmts_mut, same_arms_mut.

(** The annotated code: the root attribute itself is not part of it. *)
Inductive same_input : input -> input -> Prop :=
| si_expr e e' : same_expr e e' -> same_input (InExpr e) (InExpr e')
| si_stmt_expr e e' s : same_expr e e' -> same_input (InStmt (SExpr e s)) (InStmt (SExpr e' s))
| si_local a p t i i' d d' :
    same_opt i i' -> same_opt d d' ->
    same_input (InStmt (SLocal (Local a p t i d))) (InStmt (SLocal (Local a p t i' d')))
| si_macro a m s : same_input (InStmt (SMacro a m s)) (InStmt (SMacro a m s))
| si_fn a g o b b' :
    same_stmts b b' -> same_input (InStmt (SItem (IFn a g o b))) (InStmt (SItem (IFn a g o b'))).

(** Nothing below carries [#[auto_enum]] (items and macro arguments aside). *)
Definition free_of (a : list attr) : bool :=
  negb (existsb (fun x => is_ident (attr_path x) "auto_enum") a).
Fixpoint plain_expr (e : expr) : bool :=
  free_of (e_attrs e) && fold_expr andb true plain_expr plain_stmt plain_arm e
with plain_stmt (s : stmt) : bool := fold_stmt true plain_expr plain_local s
with plain_arm (x : arm) : bool := fold_arm andb true plain_expr x
with plain_local (x : local) : bool :=
  match x with Local a _ _ _ _ => free_of a && fold_local andb true plain_expr x end.

(** The code on which the attribute may stand, with nothing else annotated in it. *)
Definition plain_input (i : input) : bool :=
  match i with
  | InExpr e | InStmt (SExpr e _) => plain_expr e
  | InStmt (SLocal l) => fold_local andb true plain_expr l
  | InStmt (SMacro _ _ _) => true
  | InStmt (SItem (IFn _ _ _ b)) => forallb plain_stmt b
  | InStmt (SItem _) | InBad => false
  end.
