(** Specification: how the branches of one expression are wrapped.

    The list of strings records the variants used, in the order of the source. *)

Require Import Coq.Strings.String Coq.Lists.List Coq.Bool.Bool.
Require Import Verif.Syntax Verif.ExprModel Verif.Edits Verif.NoValueSpec.
Import ListNotations.
Open Scope string_scope.
Open Scope list_scope.

(** ** Code that holds a [#[nested]] *)

Definition attr_named (name : string) (a : list attr) : bool :=
  existsb (fun x => is_ident (attr_path x) name) a.
Definition attr_plain (name : string) (a : list attr) : bool :=
  existsb (fun x => match x with MPath p => is_ident p name | _ => false end) a.

(** [#[nested]] stands on the code or inside it, not counting code below another [#[auto_enum]], items and macro
    arguments. *)
Fixpoint nested_in (e : expr) : bool :=
  negb (attr_named "auto_enum" (e_attrs e))
  && (attr_plain "nested" (e_attrs e) || fold_expr orb false nested_in nested_in_stmt nested_in_arm e)
with nested_in_stmt (s : stmt) : bool :=
  fold_stmt false nested_in nested_in_local s
with nested_in_arm (x : arm) : bool :=
  match x with Arm a _ _ _ _ => attr_plain "nested" a || fold_arm orb false nested_in x end
with nested_in_local (x : local) : bool :=
  match x with
  | Local a _ _ _ _ =>
      negb (attr_named "auto_enum" a) && (attr_plain "nested" a || fold_local orb false nested_in x)
  end.

(** ** The parts of two expressions, one by one *)

Section Parts.
  Variables (Re : list string -> expr -> expr -> Prop) (Rs : list string -> stmt -> stmt -> Prop)
            (Ra : list string -> arm -> arm -> Prop).

  (** Lists and options of parts. *)
  Inductive seq2 {A} (R : list string -> A -> A -> Prop) : list string -> list A -> list A -> Prop :=
  | sq_nil : seq2 R [] [] []
  | sq_cons t1 t2 x x' l l' : R t1 x x' -> seq2 R t2 l l' -> seq2 R (t1 ++ t2) (x :: l) (x' :: l').
  Inductive maybe2 {A} (R : list string -> A -> A -> Prop) : list string -> option A -> option A -> Prop :=
  | mb_none : maybe2 R [] None None
  | mb_some t x x' : R t x x' -> maybe2 R t (Some x) (Some x').

  Inductive parts : list string -> expr -> expr -> Prop :=
  | p_block t a l b b' : seq2 Rs t b b' -> parts t (EBlock a l b) (EBlock a l b')
  | p_blk t k a b b' : seq2 Rs t b b' -> parts t (EBlk k a b) (EBlk k a b')
  | p_match t1 t2 a s s' x x' : Re t1 s s' -> seq2 Ra t2 x x' -> parts (t1 ++ t2) (EMatch a s x) (EMatch a s' x')
  | p_if t1 t2 t3 a c c' b b' o o' :
      Re t1 c c' -> seq2 Rs t2 b b' -> maybe2 Re t3 o o' -> parts (t1 ++ t2 ++ t3) (EIf a c b o) (EIf a c' b' o')
  | p_let t a p e e' : Re t e e' -> parts t (ELet a p e) (ELet a p e')
  | p_loop t a l b b' : seq2 Rs t b b' -> parts t (ELoop a l b) (ELoop a l b')
  | p_while t1 t2 a l c c' b b' : Re t1 c c' -> seq2 Rs t2 b b' -> parts (t1 ++ t2) (EWhile a l c b) (EWhile a l c' b')
  | p_for t1 t2 a l p c c' b b' :
      Re t1 c c' -> seq2 Rs t2 b b' -> parts (t1 ++ t2) (EFor a l p c b) (EFor a l p c' b')
  | p_break t a l o o' : maybe2 Re t o o' -> parts t (EBreak a l o) (EBreak a l o')
  | p_continue a l : parts [] (EContinue a l) (EContinue a l)
  | p_return t a o o' : maybe2 Re t o o' -> parts t (EReturn a o) (EReturn a o')
  | p_try t a e e' : Re t e e' -> parts t (ETry a e) (ETry a e')
  | p_closure t a ps e e' : Re t e e' -> parts t (EClosure a ps e) (EClosure a ps e')
  | p_macro a m : parts [] (EMacro a m) (EMacro a m)
  | p_method t1 t2 a e e' m l l' :
      Re t1 e e' -> seq2 Re t2 l l' -> parts (t1 ++ t2) (EMethodCall a e m l) (EMethodCall a e' m l')
  | p_paren t a e e' : Re t e e' -> parts t (EParen a e) (EParen a e')
  | p_call t1 t2 a e e' l l' : Re t1 e e' -> seq2 Re t2 l l' -> parts (t1 ++ t2) (ECall a e l) (ECall a e' l')
  | p_path a q p : parts [] (EPath a q p) (EPath a q p)
  | p_other t a k l l' : seq2 Re t l l' -> parts t (EOther a k l) (EOther a k l')
  | p_verbatim s : parts [] (EVerbatim s) (EVerbatim s).

  Inductive arm_parts : list string -> arm -> arm -> Prop :=
  | p_arm t1 t2 a p g g' b b' c : maybe2 Re t1 g g' -> Re t2 b b' -> arm_parts (t1 ++ t2) (Arm a p g b c) (Arm a p g' b' c).
  Inductive local_parts : list string -> local -> local -> Prop :=
  | p_local t1 t2 a p t i i' d d' :
      maybe2 Re t1 i i' -> maybe2 Re t2 d d' -> local_parts (t1 ++ t2) (Local a p t i d) (Local a p t i' d').
  Inductive stmt_parts (Rl : list string -> local -> local -> Prop) : list string -> stmt -> stmt -> Prop :=
  | ps_local t l l' : Rl t l l' -> stmt_parts Rl t (SLocal l) (SLocal l')
  | ps_item i : stmt_parts Rl [] (SItem i) (SItem i)
  | ps_expr t e e' semi : Re t e e' -> stmt_parts Rl t (SExpr e semi) (SExpr e' semi)
  | ps_macro a m semi : stmt_parts Rl [] (SMacro a m semi) (SMacro a m semi).
End Parts.

Section Tails.
  (** The enum, and the names of marker macros. *)
  Variables (own : string) (marker : string -> Prop).

  Definition is_mark (e : expr) : Prop := exists a p s x, e = EMacro a (Mac p x) /\ marker s /\ is_ident p s = true.

  (** ** [match] *)

  (** Arms that are not wrapped. *)
  Definition arm_skipped (x : arm) : Prop :=
    match x with
    | Arm a _ g b _ =>
        has_plain "never" a \/ has_plain "nested" a \/ no_value marker b
        \/ (exists e, g = Some e /\ nested_in e = true) \/ nested_in b = true
    end.

  Inductive arm_wrapped : list string -> arm -> arm -> Prop :=
  | aw_skip x : arm_skipped x -> arm_wrapped [] x x
  | aw_wrap v a p g b c : ~ arm_skipped (Arm a p g b c) ->
      arm_wrapped [v] (Arm a p g b c) (Arm a p g (wrap own v b) true).

  (** ** [if] *)

  (** Branches that are not wrapped: by what their last statement is. *)
  Definition branch_skipped (b : list stmt) : Prop :=
    exists r s, b = r ++ [s] /\
      match s with
      | SExpr e false => has_plain "nested" (e_attrs e) \/ no_value marker e \/ exists x, In x b /\ nested_in_stmt x = true
      | _ => no_value_stmt marker s
      end.

  Inductive branch_wrapped : list string -> list stmt -> list stmt -> Prop :=
  | bw_skip b : branch_skipped b -> branch_wrapped [] b b
  | bw_wrap v b : ~ branch_skipped b -> branch_wrapped [v] b (wrap_branch own v b).

  (** [if c { t } else { b }] and [if c { t } else if ..]. *)
  Inductive if_wrapped : list string -> expr -> expr -> Prop :=
  | iw_else t1 t2 a c b1 b1' ea l b2 b2' :
      branch_wrapped t1 b1 b1' -> branch_wrapped t2 b2 b2' ->
      if_wrapped (t1 ++ t2) (EIf a c b1 (Some (EBlock ea l b2))) (EIf a c b1' (Some (EBlock ea l b2')))
  | iw_else_if t1 t2 a c b1 b1' e2 e2' :
      branch_wrapped t1 b1 b1' -> if_wrapped t2 e2 e2' ->
      if_wrapped (t1 ++ t2) (EIf a c b1 (Some e2)) (EIf a c b1' (Some e2')).

  (** ** [loop] *)

  (** A [break] with label [l] leaves the loop with label [label]: it stands directly in it and has no label, or it has
      the same label. *)
  Definition leaves (label : option string) (inner : bool) (l : option string) : Prop :=
    (inner = false /\ l = None) \/ (exists s, label = Some s /\ l = Some s).

  Definition is_loop (e : expr) : bool :=
    match e with ELoop _ _ _ | EWhile _ _ _ _ | EFor _ _ _ _ _ => true | _ => false end.
  (** None of the forms with a rule of their own below. *)
  Definition is_plain (e : expr) : bool :=
    match e with EClosure _ _ _ | EBlk KAsync _ _ | EBreak _ _ _ => false | _ => negb (is_loop e) end.

  (** [breaks label inner t e e']: the [break]s that leave the loop are wrapped in [e']; [inner]: we are in a loop inside
      the loop.  A labelled loop is searched through the loops inside it, an unlabelled one is not. *)
  Inductive breaks (label : option string) : bool -> list string -> expr -> expr -> Prop :=
  | br_never inner e : has_plain "never" (e_attrs e) -> breaks label inner [] e e
  | br_closure inner a ps e : breaks label inner [] (EClosure a ps e) (EClosure a ps e)
  | br_async inner a b : breaks label inner [] (EBlk KAsync a b) (EBlk KAsync a b)
  | br_loop inner e : label = None -> is_loop e = true -> breaks label inner [] e e
  | br_loop_label inner t e e' : ~ has_plain "never" (e_attrs e) -> label <> None -> is_loop e = true ->
      parts (breaks label true) (breaks_stmt label true) (breaks_arm label true) t e e' -> breaks label inner t e e'
  | br_unit inner v a l : ~ has_plain "never" a -> leaves label inner l ->
      breaks label inner [v] (EBreak a l None) (EBreak a l (Some (wrap own v (operand None))))
  | br_value inner v t a l e e' : ~ has_plain "never" a -> leaves label inner l -> ~ is_mark e -> breaks label inner t e e' ->
      breaks label inner (v :: t) (EBreak a l (Some e)) (EBreak a l (Some (wrap own v e')))
  | br_mark inner t a l e e' : ~ has_plain "never" a -> leaves label inner l -> is_mark e -> breaks label inner t e e' ->
      breaks label inner t (EBreak a l (Some e)) (EBreak a l (Some e'))
  | br_other_break inner t a l o o' : ~ has_plain "never" a -> ~ leaves label inner l -> maybe2 (breaks label inner) t o o' ->
      breaks label inner t (EBreak a l o) (EBreak a l o')
  | br_parts inner t e e' : ~ has_plain "never" (e_attrs e) -> is_plain e = true ->
      parts (breaks label inner) (breaks_stmt label inner) (breaks_arm label inner) t e e' -> breaks label inner t e e'
  with breaks_stmt (label : option string) : bool -> list string -> stmt -> stmt -> Prop :=
  | brs inner t s s' : stmt_parts (breaks label inner) (breaks_local label inner) t s s' -> breaks_stmt label inner t s s'
  with breaks_arm (label : option string) : bool -> list string -> arm -> arm -> Prop :=
  | bra inner t x x' : arm_parts (breaks label inner) t x x' -> breaks_arm label inner t x x'
  with breaks_local (label : option string) : bool -> list string -> local -> local -> Prop :=
  | brl inner t x x' : local_parts (breaks label inner) t x x' -> breaks_local label inner t x x'.

  (** ** The expression whose branches are wrapped *)

  (** The last statement is an expression without [;]. *)
  Definition ends_in_value (b : list stmt) : bool :=
    on_last (fun s => match s with SExpr _ false => true | _ => false end) false b.
  (** Forms that have no branches to wrap. *)
  Definition branchless (e : expr) : bool :=
    match e with
    | EBlock _ _ b | EBlk KUnsafe _ b => negb (ends_in_value b)
    | EMatch _ _ _ | EIf _ _ _ _ | ELoop _ _ _ | EMethodCall _ _ _ _ | EParen _ _ => false
    | _ => true
    end.

  (** [match], [if] and [loop], perhaps at the end of blocks, in parentheses or as receiver of a method call. *)
  Inductive tail : list string -> expr -> expr -> Prop :=
  | tl_no_value e : no_value marker e -> tail [] e e
  | tl_other e : branchless e = true -> tail [] e e
  | tl_match t a s x x' : ~ no_value marker (EMatch a s x) -> seq2 arm_wrapped t x x' -> tail t (EMatch a s x) (EMatch a s x')
  | tl_if t a c b o e' : ~ no_value marker (EIf a c b o) -> if_wrapped t (EIf a c b o) e' -> tail t (EIf a c b o) e'
  | tl_loop t a l b b' : ~ no_value marker (ELoop a l b) -> seq2 (breaks_stmt l false) t b b' ->
      tail t (ELoop a l b) (ELoop a l b')
  | tl_block t a l r e e' : ~ no_value marker (EBlock a l (r ++ [SExpr e false])) -> tail t e e' ->
      tail t (EBlock a l (r ++ [SExpr e false])) (EBlock a l (r ++ [SExpr e' false]))
  | tl_unsafe t a r e e' : ~ no_value marker (EBlk KUnsafe a (r ++ [SExpr e false])) -> tail t e e' ->
      tail t (EBlk KUnsafe a (r ++ [SExpr e false])) (EBlk KUnsafe a (r ++ [SExpr e' false]))
  | tl_method t a e e' m l : ~ no_value marker (EMethodCall a e m l) -> tail t e e' ->
      tail t (EMethodCall a e m l) (EMethodCall a e' m l)
  | tl_paren t a e e' : ~ no_value marker (EParen a e) -> tail t e e' -> tail t (EParen a e) (EParen a e').

  (** The last expression of a function body. *)
  Inductive tail_body : list string -> list stmt -> list stmt -> Prop :=
  | tb_value t r e e' : tail t e e' -> tail_body t (r ++ [SExpr e false]) (r ++ [SExpr e' false])
  | tb_other b : ends_in_value b = false -> tail_body [] b b.
End Tails.

(** [k] variants from number [n] on. *)
Definition from (n k : nat) : list string := map variant_name (seq n k).
