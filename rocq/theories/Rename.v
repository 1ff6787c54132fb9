(** Specification: code with macros and enums renamed. *)

Require Import Coq.Strings.String Coq.Lists.List Coq.Bool.Bool.
Require Import Verif.Syntax Verif.Context Verif.ExprModel Verif.AutoEnum.
Import ListNotations.
Open Scope string_scope.
Open Scope list_scope.

(** [x] becomes [y], and [y] becomes [x]. *)
Definition other_name (x y s : string) : string := if s =? x then y else if s =? y then x else s.
(** [x] becomes [y]. *)
Definition one_name (x y s : string) : string := if s =? x then y else s.
(** Names stay. *)
Definition same_name (s : string) : string := s.

Section Rename.
  (** The new names of macros and of enums. *)
  Variables fm fe : string -> string.

  (** The path of a macro [name!(..)]. *)
  Definition re_path (p : path) : path :=
    match p with Path false [Seg s ANone] => Path false [Seg (fm s) ANone] | _ => p end.
  (** The path of a variant [Name::Variant]. *)
  Definition re_variant (p : path) : path :=
    match p with Path false [Seg s ANone; Seg t ANone] => Path false [Seg (fe s) ANone; Seg t ANone] | _ => p end.
  (** The enum that an expansion declares. *)
  Definition re_item (i : item) : item :=
    match i with IEnum g => IEnum (GEnum (fe (g_ident g)) (g_params g) (g_variants g) (g_derive g)) | _ => i end.

  (** The code with the new names. Other items are left as they are. *)
  Fixpoint re_expr (e : expr) : expr :=
    match e with
    | EBlock a l b => EBlock a l (map re_stmt b)
    | EBlk k a b => EBlk k a (map re_stmt b)
    | EMatch a s arms => EMatch a (re_expr s) (map re_arm arms)
    | EIf a c t els => EIf a (re_expr c) (map re_stmt t) (option_map re_expr els)
    | ELet a p e => ELet a p (re_expr e)
    | ELoop a l b => ELoop a l (map re_stmt b)
    | EWhile a l c b => EWhile a l (re_expr c) (map re_stmt b)
    | EFor a l p it b => EFor a l p (re_expr it) (map re_stmt b)
    | EBreak a l e => EBreak a l (option_map re_expr e)
    | EContinue a l => EContinue a l
    | EReturn a e => EReturn a (option_map re_expr e)
    | ETry a e => ETry a (re_expr e)
    | EClosure a ps b => EClosure a ps (re_expr b)
    | EMacro a m => EMacro a (re_mac m)
    | EMethodCall a r m args => EMethodCall a (re_expr r) m (map re_expr args)
    | EParen a e => EParen a (re_expr e)
    | ECall a f args => ECall a (re_expr f) (map re_expr args)
    | EPath a q p => EPath a q (re_variant p)
    | EOther a k es => EOther a k (map re_expr es)
    | EVerbatim s => EVerbatim s
    end
  with re_stmt (s : stmt) : stmt :=
    match s with
    | SLocal l => SLocal (re_local l)
    | SItem i => SItem (re_item i)
    | SExpr e semi => SExpr (re_expr e) semi
    | SMacro a m semi => SMacro a (re_mac m) semi
    end
  with re_local (l : local) : local :=
    match l with Local a p t i d => Local a p t (option_map re_expr i) (option_map re_expr d) end
  with re_arm (z : arm) : arm :=
    match z with Arm a p g b c => Arm a p (option_map re_expr g) (re_expr b) c end
  with re_mac (m : mac) : mac :=
    match m with Mac p e => Mac (re_path p) (option_map re_expr e) end.

  (** The code under an attribute. *)
  Definition re_input (i : input) : input :=
    match i with
    | InExpr e => InExpr (re_expr e)
    | InStmt (SItem (IFn a sg out b)) => InStmt (SItem (IFn a sg out (map re_stmt b)))
    | InStmt s => InStmt (re_stmt s)
    | InBad => InBad
    end.
End Rename.

Section Kept.
  Variable fm : string -> string.

  (** An [#[auto_enum]] among the attributes that chooses its marker chooses one that keeps its name. *)
  Definition kept_marker (x : attr) : bool :=
    match x with
    | MList p toks =>
        if is_ident p "auto_enum" then match parse_args toks with inr (_, Some m) => fm m =? m | _ => true end else true
    | _ => true
    end.
  (** Everywhere in the code, macro arguments included. *)
  Fixpoint kept_expr (e : expr) : bool :=
    forallb kept_marker (e_attrs e)
    && match e with
       | EMacro _ (Mac _ (Some x)) => kept_expr x
       | _ => fold_expr andb true kept_expr kept_stmt kept_arm e
       end
  with kept_stmt (s : stmt) : bool := fold_stmt true kept_expr kept_local s
  with kept_arm (x : arm) : bool := fold_arm andb true kept_expr x
  with kept_local (x : local) : bool :=
    match x with Local a _ _ _ _ => forallb kept_marker a && fold_local andb true kept_expr x end.

  (** In the code under an attribute. *)
  Definition kept_input (i : input) : bool :=
    match i with
    | InExpr e | InStmt (SExpr e _) => kept_expr e
    | InStmt (SLocal l) => fold_local andb true kept_expr l
    | InStmt (SItem (IFn _ _ _ b)) => forallb kept_stmt b
    | _ => true
    end.
End Kept.

(** The macros that the expansion knows or writes itself. *)
Definition reserved (s : string) : bool := existsb (String.eqb s) ["panic"; "unreachable"; "compile_error"].

(** The answers [r0] and [r1] of the macro: the same errors, or the same code but for the new names, with the same variants. *)
Definition but_names (fm fe : string -> string) (r0 r1 : res outcome) : Prop :=
  match r0, r1 with
  | ROk (Code i0 c0), ROk (Code i1 c1) => i1 = re_input fm fe i0 /\ cx_variants c1 = cx_variants c0
  | ROk (Errors l0), ROk (Errors l1) => l0 = l1
  | RFuel, RFuel => True
  | RPanic s0, RPanic s1 => s0 = s1
  | _, _ => False
  end.
