(** Specification: functions that return [Result<_, impl ..>] and pass errors on with [?]. *)

Require Import Coq.Strings.String Coq.Lists.List Coq.Bool.Bool.
Require Import Verif.Syntax Verif.ExprModel Verif.Edits Verif.NoValueSpec Verif.Excused Verif.Changes Verif.Branches Verif.Eval.
Import ListNotations.
Open Scope string_scope.
Open Scope list_scope.

(** ** The code *)

(** [Ok(x)] *)
Definition ok_call (e : expr) : bool :=
  match e with
  | ECall _ (EPath _ _ p) [_] => match con_of p with Some c => c =? "Ok" | None => false end
  | _ => false
  end.

(** The code has no annotations of the attribute and no macro [m!]; every [return] outside of closures is [return Ok(..)].
    No [?] in an [async] block. *)
Fixpoint passing (m : string) (e : expr) : bool :=
  match e with
  | EClosure _ _ _ | EBlk KAsync _ _ | EBlk KTry _ _ => clean m TakesQuestions e
  | _ =>
      no_help (e_attrs e)
      && match e with
         | EReturn _ (Some x) => ok_call x
         | EReturn _ None => false
         | EMacro _ (Mac p _) => negb (is_ident p m)
         | _ => true
         end
      && fold_expr andb true (passing m) (passing_stmt m) (passing_arm m) e
  end
with passing_stmt (m : string) (s : stmt) : bool :=
  match s with
  | SMacro _ (Mac p _) _ => negb (is_ident p m)
  | _ => fold_stmt true (passing m) (passing_local m) s
  end
with passing_arm (m : string) (y : arm) : bool :=
  match y with Arm a _ _ _ _ => no_help a && fold_arm andb true (passing m) y end
with passing_local (m : string) (y : local) : bool :=
  match y with Local a _ _ _ _ => no_help a && fold_local andb true (passing m) y end.

(** Its value is [Ok(..)] on every path, as far as there is one. *)
Section Ends.
  Variable m : string.
  Let marker (s : string) : Prop := s = m.

  Inductive ok_value : expr -> Prop :=
  | ov_ok e : ok_call e = true -> ok_value e
  | ov_none e : no_value marker e -> ~ excused marker e -> ok_value e
  | ov_match a s l : ok_arms l -> ok_value (EMatch a s l)
  | ov_if a c b e : ok_block b -> ok_value e -> ok_value (EIf a c b (Some e))
  | ov_block a b : ok_block b -> ok_value (EBlock a None b)
  | ov_unsafe a b : ok_block b -> ok_value (EBlk KUnsafe a b)
  | ov_paren a e : ok_value e -> ok_value (EParen a e)
  with ok_arms : list arm -> Prop :=
  | oa_nil : ok_arms []
  | oa_cons a p g b c l : ok_value b -> ok_arms l -> ok_arms (Arm a p g b c :: l)
  with ok_block : list stmt -> Prop :=
  | ob_value b e : ok_value e -> ok_block (b ++ [SExpr e false])
  | ob_exit b s : no_value_stmt marker s -> ~ excused_stmt marker s -> ok_block (b ++ [s]).
End Ends.

(** ** Its [?]s with checked operands *)

(** rustc allows [x?] in a function that returns [Result] only if [x] is a [Result].  The evaluator knows no types; so
    the operand is checked in the code: [match x { Ok(v) => Ok(v), Err(v) => Err(v) }] is [x], or the program is stuck. *)
Definition checked (x : expr) : expr :=
  let con c := EPath [] false (plain_path [c]) in
  let back c := Arm [] (PCtor (plain_path [c]) [PBind "v"]) None (ECall [] (con c) [con "v"]) true in
  EMatch [] x [back "Ok"; back "Err"].

Fixpoint strict (e : expr) : expr :=
  match e with
  | EBlock a l b => EBlock a l (map strict_stmt b)
  | EBlk KUnsafe a b => EBlk KUnsafe a (map strict_stmt b)
  | EBlk KConst a b => EBlk KConst a (map strict_stmt b)
  | EBlk _ _ _ => e
  | EMatch a s arms => EMatch a (strict s) (map strict_arm arms)
  | EIf a c t els => EIf a (strict c) (map strict_stmt t) (option_map strict els)
  | ELet a p x => ELet a p (strict x)
  | ELoop a l b => ELoop a l (map strict_stmt b)
  | EWhile a l c b => EWhile a l (strict c) (map strict_stmt b)
  | EFor a l p it b => EFor a l p (strict it) (map strict_stmt b)
  | EBreak a l x => EBreak a l (option_map strict x)
  | EContinue _ _ => e
  | EReturn a x => EReturn a (option_map strict x)
  | ETry a x => ETry a (checked (strict x))
  | EClosure _ _ _ => e
  | EMacro _ _ => e
  | EMethodCall a r m args => EMethodCall a (strict r) m (map strict args)
  | EParen a x => EParen a (strict x)
  | ECall a f args => ECall a (strict f) (map strict args)
  | EPath _ _ _ => e
  | EOther a k es => EOther a k (map strict es)
  | EVerbatim _ => e
  end
with strict_stmt (s : stmt) : stmt :=
  match s with
  | SLocal l => SLocal (strict_local l)
  | SExpr e semi => SExpr (strict e) semi
  | SItem _ | SMacro _ _ _ => s
  end
with strict_arm (y : arm) : arm :=
  match y with Arm a p g b c => Arm a p (option_map strict g) (strict b) c end
with strict_local (y : local) : local :=
  match y with Local a p t i d => Local a p t (option_map strict i) (option_map strict d) end.

(** ** Executions *)

(** The same end in the same state; [Ok(x)] is the same value, and the [x] of [Err(x)] is in one variant of the enum [own]. *)
Definition error_in_variant {W} (own : string) (r r' : sres W) : Prop :=
  match r with
  | SGo _ bs x w =>
      (exists y, x = VCon "Ok" y /\ r' = r)
      \/ (exists y v, x = VCon "Err" y /\ r' = SGo _ bs (VCon "Err" (VWrap own v y)) w)
  | SOut _ o w => r' = SOut _ o w
  end.
