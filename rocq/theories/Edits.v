(** Specification: the edits that the expansion may make to the user's code.

    [ed_expr t e e'] says that [e'] comes from [e] by a finite number of the edits listed
    here, made at any depth but never inside items or macro arguments.  [t] records the
    variants that were used, in a list of labels. *)

Require Import Coq.Strings.String Coq.Lists.List Coq.Bool.Bool.
Require Import Verif.Syntax.
Import ListNotations.
Open Scope string_scope.
Open Scope list_scope.

(** The constructor path [Enum::Variant]. *)
Definition ctor (i v : string) : path := plain_path [i; v].

(** [Enum::Variant(e)]. *)
Definition wrap (i v : string) (e : expr) : expr :=
  ECall [] (EPath [] false (ctor i v)) [e].

(** A branch [{ b }] turned into [{ Enum::Variant({ b }) }]. *)
Definition wrap_branch (i v : string) (b : list stmt) : list stmt :=
  [SExpr (wrap i v (EBlock [] None b)) false].

(** The operand of [break] or [return]; a missing operand stands for [()]. *)
Definition operand (o : option expr) : expr :=
  match o with Some e => e | None => EOther [] "Tuple" [] end.

(** [::core::result::Result::<c>]. *)
Definition result_ctor (c : string) : path :=
  Path true [Seg "core" ANone; Seg "result" ANone; Seg "Result" ANone; Seg c ANone].

(** The arms [Ok(val) => val, Err(err) => { return Err(Enum::Variant(err)); }]. *)
Definition question_arms (i v : string) : list arm :=
  [Arm [] (PCtor (result_ctor "Ok") [PBind "val"]) None (EPath [] false (plain_path ["val"])) true;
   Arm [] (PCtor (result_ctor "Err") [PBind "err"]) None
     (EBlock [] None
        [SExpr (EReturn [] (Some (ECall [] (EPath [] false (result_ctor "Err"))
                                    [wrap i v (EPath [] false (plain_path ["err"]))]))) true])
     false].

(** The enum [enum i<vs..> { v(v), .. }] with the given traits to derive. *)
Definition enum_of (i : string) (vs : list string) (derive : list path) : genum :=
  GEnum i vs (combine vs vs) derive.

(** [n] variant names [__Variant0 .. __Variant{n-1}]. *)
Definition variants (n : nat) : list string := map variant_name (seq 0 n).

(** The constructors that an enum declares. *)
Definition ctors (g : genum) : list (string * string) :=
  map (fun x => (g_ident g, fst x)) (g_variants g).

(** The attributes that belong to the macro. *)
Definition is_helper (a : attr) : bool :=
  existsb (is_ident (attr_path a)) ["auto_enum"; "nested"; "never"; "rec"].

(** One attribute of the macro is removed. *)
Definition drops_attr (a a' : list attr) : Prop :=
  exists l x r, a = l ++ x :: r /\ a' = l ++ r /\ is_helper x = true.

(** An [impl Trait] occurs in a type. *)
Fixpoint has_impl (t : ty) : bool :=
  match t with
  | TImpl _ => true
  | TPath q p => match q with Some t' => has_impl t' | None => false end || has_impl_path p
  | TOther _ ts => existsb has_impl ts
  end
with has_impl_path (p : path) : bool :=
  match p with Path _ segs => existsb has_impl_seg segs end
with has_impl_seg (s : seg) : bool :=
  match s with Seg _ a => has_impl_args a end
with has_impl_args (a : segargs) : bool :=
  match a with
  | ANone => false
  | AAngle _ l => existsb has_impl_garg l
  | AParen ins out =>
      existsb has_impl ins || match out with Some t => has_impl t | None => false end
  end
with has_impl_garg (g : garg) : bool :=
  match g with
  | GType t => has_impl t
  | GAssoc _ t => has_impl t
  | GConstraint _ bs => existsb has_impl_bound bs
  | GOther _ => false
  end
with has_impl_bound (b : bound) : bool :=
  match b with
  | BTrait p => has_impl_path p
  | BOther _ => false
  end.

(** What an edit used: a variant of an enum; an enum declaration with the labels of the code below
    it; or an edit that happens only when an error is reported. *)
Inductive label :=
| LWrap (i v : string)
| LEnum (g : genum) (t : list label)
| LErr.

(** All variants used, including those below enum declarations. *)
Fixpoint used (l : label) : list (string * string) :=
  match l with
  | LWrap i v => [(i, v)]
  | LEnum _ t => flat_map used t
  | LErr => []
  end.

(** The variant is declared by the enum. *)
Definition declares (g : genum) (iv : string * string) : bool :=
  (g_ident g =? fst iv) && existsb (fun x => fst x =? snd iv) (g_variants g).

(** The variants used that no enum declaration within the edit declares. *)
Fixpoint free (l : label) : list (string * string) :=
  match l with
  | LWrap i v => [(i, v)]
  | LEnum g t => filter (fun iv => negb (declares g iv)) (flat_map free t)
  | LErr => []
  end.

(** The enums declared. *)
Fixpoint enums (l : label) : list genum :=
  match l with
  | LEnum g t => g :: flat_map enums t
  | _ => []
  end.

(** The names reserved for generated enums. *)
Definition gen_name (i : string) : bool := prefix "__Enum" i.

(** No label of an error, and all enums have generated names. *)
Fixpoint clean (l : label) : bool :=
  match l with
  | LWrap i _ => gen_name i
  | LEnum g t => gen_name (g_ident g) && forallb clean t
  | LErr => false
  end.

Section Edits.
  (** The names of marker macros. *)
  Variable mk : string -> bool.

  (** Edits of expressions. *)
  Inductive ed_expr : list label -> expr -> expr -> Prop :=
  | ee_refl e : ed_expr [] e e
  | ee_trans t1 t2 e1 e2 e3 : ed_expr t1 e1 e2 -> ed_expr t2 e2 e3 -> ed_expr (t1 ++ t2) e1 e3
  (* an annotation of the macro is removed *)
  | ee_attr e a' : drops_attr (e_attrs e) a' -> ed_expr [] e (set_attrs e a')
  (* [if c { b }] into [if c { E::V({ b }) }] *)
  | ee_then i v a c b els :
      ed_expr [LWrap i v] (EIf a c b els) (EIf a c (wrap_branch i v b) els)
  (* [else { b }] into [else { E::V({ b }) }] *)
  | ee_else i v a c t ea l b :
      ed_expr [LWrap i v] (EIf a c t (Some (EBlock ea l b)))
                          (EIf a c t (Some (EBlock ea l (wrap_branch i v b))))
  (* [break e] into [break E::V(e)] *)
  | ee_wrap_break i v a l o :
      ed_expr [LWrap i v] (EBreak a l o) (EBreak a l (Some (wrap i v (operand o))))
  (* [return e] into [return E::V(e)] *)
  | ee_wrap_return i v a o :
      ed_expr [LWrap i v] (EReturn a o) (EReturn a (Some (wrap i v (operand o))))
  (* [e?] into [match e { Ok(val) => val, Err(err) => { return Err(E::V(err)); } }] *)
  | ee_question i v a e :
      ed_expr [LWrap i v] (ETry a e) (EMatch a e (question_arms i v))
  (* [marker!(e)] into [E::V(e)] *)
  | ee_marker i v a p m e :
      mk m = true -> is_ident p m = true ->
      ed_expr [LWrap i v] (EMacro a (Mac p (Some e))) (ECall a (EPath [] false (ctor i v)) [e])
  (* when an error is reported, [marker!(e)] into [e], and a bad marker into [compile_error!] *)
  | ee_marker_err a p m e :
      mk m = true -> is_ident p m = true ->
      ed_expr [LErr] (EMacro a (Mac p (Some e))) e
  | ee_marker_bad a p m :
      mk m = true -> is_ident p m = true ->
      ed_expr [LErr] (EMacro a (Mac p None)) (EMacro [] (Mac (plain_path ["compile_error"]) None))
  (* [e] into [{ enum E { .. } e }], after edits of [e] *)
  | ee_enum i n d t e e' :
      ed_expr t e e' -> 2 <= n ->
      ed_expr [LEnum (enum_of i (variants n) d) t] e
              (EBlock [] None [SItem (IEnum (enum_of i (variants n) d)); SExpr e' false])
  (* edits of the parts *)
  | ee_block t a l b b' : ed_stmts t b b' -> ed_expr t (EBlock a l b) (EBlock a l b')
  | ee_blk t k a b b' : ed_stmts t b b' -> ed_expr t (EBlk k a b) (EBlk k a b')
  | ee_match t1 t2 a s s' arms arms' :
      ed_expr t1 s s' -> ed_arms t2 arms arms' ->
      ed_expr (t1 ++ t2) (EMatch a s arms) (EMatch a s' arms')
  | ee_if t1 t2 t3 a c c' b b' els els' :
      ed_expr t1 c c' -> ed_stmts t2 b b' -> ed_opt t3 els els' ->
      ed_expr (t1 ++ t2 ++ t3) (EIf a c b els) (EIf a c' b' els')
  | ee_let t a p e e' : ed_expr t e e' -> ed_expr t (ELet a p e) (ELet a p e')
  | ee_loop t a l b b' : ed_stmts t b b' -> ed_expr t (ELoop a l b) (ELoop a l b')
  | ee_while t1 t2 a l c c' b b' :
      ed_expr t1 c c' -> ed_stmts t2 b b' ->
      ed_expr (t1 ++ t2) (EWhile a l c b) (EWhile a l c' b')
  | ee_for t1 t2 a l p it it' b b' :
      ed_expr t1 it it' -> ed_stmts t2 b b' ->
      ed_expr (t1 ++ t2) (EFor a l p it b) (EFor a l p it' b')
  | ee_break t a l o o' : ed_opt t o o' -> ed_expr t (EBreak a l o) (EBreak a l o')
  | ee_return t a o o' : ed_opt t o o' -> ed_expr t (EReturn a o) (EReturn a o')
  | ee_try t a e e' : ed_expr t e e' -> ed_expr t (ETry a e) (ETry a e')
  | ee_closure t a ps b b' : ed_expr t b b' -> ed_expr t (EClosure a ps b) (EClosure a ps b')
  | ee_method t1 t2 a r r' m args args' :
      ed_expr t1 r r' -> ed_exprs t2 args args' ->
      ed_expr (t1 ++ t2) (EMethodCall a r m args) (EMethodCall a r' m args')
  | ee_paren t a e e' : ed_expr t e e' -> ed_expr t (EParen a e) (EParen a e')
  | ee_call t1 t2 a f f' args args' :
      ed_expr t1 f f' -> ed_exprs t2 args args' ->
      ed_expr (t1 ++ t2) (ECall a f args) (ECall a f' args')
  | ee_other t a k es es' : ed_exprs t es es' -> ed_expr t (EOther a k es) (EOther a k es')
  with ed_exprs : list label -> list expr -> list expr -> Prop :=
  | ees_nil : ed_exprs [] [] []
  | ees_cons t1 t2 e e' l l' :
      ed_expr t1 e e' -> ed_exprs t2 l l' -> ed_exprs (t1 ++ t2) (e :: l) (e' :: l')
  with ed_opt : list label -> option expr -> option expr -> Prop :=
  | eo_none : ed_opt [] None None
  | eo_some t e e' : ed_expr t e e' -> ed_opt t (Some e) (Some e')
  (** Edits of statements. *)
  with ed_stmt : list label -> stmt -> stmt -> Prop :=
  | es_item i : ed_stmt [] (SItem i) (SItem i)
  | es_macro a m semi : ed_stmt [] (SMacro a m semi) (SMacro a m semi)
  | es_local t l l' : ed_local t l l' -> ed_stmt t (SLocal l) (SLocal l')
  | es_expr t e e' semi : ed_expr t e e' -> ed_stmt t (SExpr e semi) (SExpr e' semi)
  with ed_stmts : list label -> list stmt -> list stmt -> Prop :=
  | ess_nil : ed_stmts [] [] []
  | ess_cons t1 t2 s s' l l' :
      ed_stmt t1 s s' -> ed_stmts t2 l l' -> ed_stmts (t1 ++ t2) (s :: l) (s' :: l')
  | ess_trans t1 t2 l1 l2 l3 :
      ed_stmts t1 l1 l2 -> ed_stmts t2 l2 l3 -> ed_stmts (t1 ++ t2) l1 l3
  (** Edits of match arms. *)
  with ed_arm : list label -> arm -> arm -> Prop :=
  | ea_trans t1 t2 x1 x2 x3 : ed_arm t1 x1 x2 -> ed_arm t2 x2 x3 -> ed_arm (t1 ++ t2) x1 x3
  | ea_attr a a' p g b c : drops_attr a a' -> ed_arm [] (Arm a p g b c) (Arm a' p g b c)
  (* [p => e] into [p => E::V(e),] *)
  | ea_wrap i v a p g b c :
      ed_arm [LWrap i v] (Arm a p g b c) (Arm a p g (wrap i v b) true)
  | ea_parts t1 t2 a p g g' b b' c :
      ed_opt t1 g g' -> ed_expr t2 b b' -> ed_arm (t1 ++ t2) (Arm a p g b c) (Arm a p g' b' c)
  with ed_arms : list label -> list arm -> list arm -> Prop :=
  | eas_nil : ed_arms [] [] []
  | eas_cons t1 t2 x x' l l' :
      ed_arm t1 x x' -> ed_arms t2 l l' -> ed_arms (t1 ++ t2) (x :: l) (x' :: l')
  (** Edits of let statements. *)
  with ed_local : list label -> local -> local -> Prop :=
  | el_trans t1 t2 x1 x2 x3 :
      ed_local t1 x1 x2 -> ed_local t2 x2 x3 -> ed_local (t1 ++ t2) x1 x3
  | el_attr a a' p t i d : drops_attr a a' -> ed_local [] (Local a p t i d) (Local a' p t i d)
  (* the annotation [: .. impl Trait ..] is removed *)
  | el_type a p t i d :
      has_impl t = true -> ed_local [] (Local a p (Some t) i d) (Local a p None i d)
  | el_parts t1 t2 a p t i i' d d' :
      ed_opt t1 i i' -> ed_opt t2 d d' ->
      ed_local (t1 ++ t2) (Local a p t i d) (Local a p t i' d').

  (** Edits of a function body: edits of its statements, then perhaps an enum put in front. *)
  Inductive ed_body : list label -> list stmt -> list stmt -> Prop :=
  | eb_stmts t b b' : ed_stmts t b b' -> ed_body t b b'
  | eb_enum i n d t b b' :
      ed_stmts t b b' -> 2 <= n ->
      ed_body [LEnum (enum_of i (variants n) d) t] b (SItem (IEnum (enum_of i (variants n) d)) :: b').

  (** Edits of the annotated code. *)
  Inductive ed_input : list label -> input -> input -> Prop :=
  | ei_expr t e e' : ed_expr t e e' -> ed_input t (InExpr e) (InExpr e')
  | ei_stmt t s s' : ed_stmt t s s' -> ed_input t (InStmt s) (InStmt s')
  | ei_fn t a sig out b b' :
      ed_body t b b' ->
      ed_input t (InStmt (SItem (IFn a sig out b))) (InStmt (SItem (IFn a sig out b'))).
End Edits.

Scheme ed_expr_mut := Induction for ed_expr Sort Prop
  with ed_exprs_mut := Induction for ed_exprs Sort Prop
  with ed_opt_mut := Induction for ed_opt Sort Prop
  with ed_stmt_mut := Induction for ed_stmt Sort Prop
  with ed_stmts_mut := Induction for ed_stmts Sort Prop
  with ed_arm_mut := Induction for ed_arm Sort Prop
  with ed_arms_mut := Induction for ed_arms Sort Prop
  with ed_local_mut := Induction for ed_local Sort Prop.
Combined Scheme ed_ind from ed_expr_mut, ed_exprs_mut, ed_opt_mut, ed_stmt_mut, ed_stmts_mut,
  ed_arm_mut, ed_arms_mut, ed_local_mut.
