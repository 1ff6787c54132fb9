(** Syntax trees on which the macros work.

    This file models the part of the external [syn] syntax tree (syn 2) that the
    code in /repo/src/auto_enum and /repo/src/utils.rs inspects or builds.
    Spans, punctuation that carries no choice and everything inside patterns,
    types of closures, items and literals is left out (see DESIGN.md). *)

Require Import Coq.Strings.String Coq.Lists.List Coq.Bool.Bool Coq.Arith.Arith.
Require Import Coq.Numbers.DecimalString Coq.NArith.NArith.
Import ListNotations.
Open Scope string_scope.
Open Scope list_scope.

(** ** Tokens of an attribute's argument list.
    Models the [proc_macro2::TokenStream] that /repo/src/auto_enum/context.rs:304-328
    ([Args::parse]) and /repo/src/enum_derive.rs:180-199 read.  Simplified: only the
    token kinds those parsers distinguish; every other token (and a whole delimited
    group) is [TkOther]. *)
Inductive token :=
| TkIdent (s : string)
| TkComma
| TkEq
| TkColon2
| TkOther (s : string).

(** ** Types and paths.
    Models [syn::Path], [syn::Type], [syn::TypeParamBound], [syn::GenericArgument] as
    used by /repo/src/utils.rs:52-68, /repo/src/auto_enum/mod.rs:157-199 and
    /repo/src/auto_enum/type_analysis.rs:11-41.  Simplified: lifetimes and const
    arguments are opaque strings; a type other than a path or [impl Trait] is a kind
    and the list of the types inside it, in visiting order. *)
Inductive ty :=
| TImpl (bounds : list bound)
| TPath (qself : option ty) (p : path)
| TOther (kind : string) (tys : list ty)
with bound :=
| BTrait (p : path)
| BOther (s : string)
with path :=
| Path (leading : bool) (segs : list seg)
with seg :=
| Seg (id : string) (args : segargs)
with segargs :=
| ANone
| AAngle (colon2 : bool) (l : list garg)
| AParen (inputs : list ty) (out : option ty)
with garg :=
| GType (t : ty)
| GAssoc (id : string) (t : ty)
| GConstraint (id : string) (bounds : list bound)
| GOther (s : string).

(** Field access of [syn::PathSegment]. Used as in /repo/src/utils.rs:53-61. *)
Definition seg_id (s : seg) : string := match s with Seg i _ => i end.
(** Field access of [syn::PathSegment]. Used as in /repo/src/auto_enum/mod.rs:169-170. *)
Definition seg_args (s : seg) : segargs := match s with Seg _ a => a end.
(** Field access of [syn::Path]. Used as in /repo/src/utils.rs:53. *)
Definition path_segs (p : path) : list seg := match p with Path _ l => l end.
(** The identifiers of a path, without generic arguments
    (/repo/src/auto_enum/type_analysis.rs:24 keeps just these). *)
Definition path_ids (p : path) : list string := map seg_id (path_segs p).

(** A path of plain segments: /repo/src/utils.rs:11-13 [path]. *)
Definition plain_path (ids : list string) : path :=
  Path false (map (fun i => Seg i ANone) ids).

(** [syn::Path::is_ident]: no leading [::], one segment without arguments, equal
    identifier.  Used by /repo/src/utils.rs:133,137,143 and
    /repo/src/auto_enum/context.rs:203,208. *)
Definition is_ident (p : path) (s : string) : bool :=
  match p with
  | Path false [Seg i ANone] => String.eqb i s
  | _ => false
  end.

(** ** Attributes.  Models [syn::Attribute] through its [meta]
    (/repo/src/utils.rs:129-145, /repo/src/auto_enum/visitor.rs:52,135,328,358-362). *)
Inductive meta :=
| MPath (p : path)
| MList (p : path) (toks : list token)
| MNameValue (p : path) (v : string).

(** [syn::Attribute]; the style and the pound sign are not modelled
    (/repo/src/utils.rs:133). *)
Definition attr := meta.

(** [Attribute::path], used at /repo/src/utils.rs:133,143. *)
Definition attr_path (a : attr) : path :=
  match a with MPath p => p | MList p _ => p | MNameValue p _ => p end.

(** ** Patterns.  /repo never looks into a pattern; constructor patterns and bindings are
    modelled because /repo/src/auto_enum/visitor.rs:107-114 generates such patterns and
    because the evaluator needs them.  Every other pattern is opaque. *)
Inductive pat :=
| PWild
| PBind (x : string)
| PCtor (p : path) (ps : list pat)
| POther (s : string).

(** Kinds of block expressions that have no label: [syn::Expr::{Unsafe, Async, TryBlock, Const}]
    (/repo/src/auto_enum/expr.rs:22,46,174, /repo/src/auto_enum/visitor.rs:30). *)
Inductive blk_kind := KUnsafe | KAsync | KTry | KConst.

(** The generated enum, /repo/src/auto_enum/context.rs:354-368: identifier, type parameters,
    variants with their single field type, and the arguments of [#[enum_derive]].  The constant
    attribute [#[allow(non_camel_case_types)]] is not represented. *)
Record genum := GEnum {
  g_ident : string;
  g_params : list string;
  g_variants : list (string * string);
  g_derive : list path
}.

(** ** Expressions, statements, arms, locals, macros, items.

    [expr] models [syn::Expr]: a constructor for each variant that /repo/src/auto_enum
    treats specially or generates; [EOther] stands for all other variants that carry attributes
    according to /repo/src/utils.rs:221-260 (Array, Assign, Await, Binary, Cast, Field,
    Group, Index, Infer, Lit, Range, Reference, Repeat, Struct, Tuple, Unary, Yield), with
    a kind and the sub-expressions in [syn::visit_mut] order; [EVerbatim] stands for
    the variants without attributes ([_ => &[]] at /repo/src/utils.rs:206,214).

    A macro invocation [Mac p e] has a path and, instead of raw tokens, the result of parsing its
    tokens as one expression ([None] if that fails): /repo/src/auto_enum/visitor.rs:152. *)
Inductive expr :=
| EBlock (a : list attr) (lbl : option string) (b : list stmt)
| EBlk (k : blk_kind) (a : list attr) (b : list stmt)
| EMatch (a : list attr) (scrut : expr) (arms : list arm)
| EIf (a : list attr) (c : expr) (t : list stmt) (els : option expr)
| ELet (a : list attr) (p : pat) (e : expr)
| ELoop (a : list attr) (lbl : option string) (b : list stmt)
| EWhile (a : list attr) (lbl : option string) (c : expr) (b : list stmt)
| EFor (a : list attr) (lbl : option string) (p : pat) (it : expr) (b : list stmt)
| EBreak (a : list attr) (lbl : option string) (e : option expr)
| EContinue (a : list attr) (lbl : option string)
| EReturn (a : list attr) (e : option expr)
| ETry (a : list attr) (e : expr)
| EClosure (a : list attr) (params : list pat) (body : expr)
| EMacro (a : list attr) (m : mac)
| EMethodCall (a : list attr) (recv : expr) (meth : string) (args : list expr)
| EParen (a : list attr) (e : expr)
| ECall (a : list attr) (f : expr) (args : list expr)
| EPath (a : list attr) (qself : bool) (p : path)
| EOther (a : list attr) (kind : string) (es : list expr)
| EVerbatim (s : string)
with stmt :=
| SLocal (l : local)
| SItem (i : item)
| SExpr (e : expr) (semi : bool)
| SMacro (a : list attr) (m : mac) (semi : bool)
with local :=
| Local (a : list attr) (p : pat) (t : option ty) (init : option expr) (div : option expr)
with arm :=
| Arm (a : list attr) (p : pat) (guard : option expr) (body : expr) (comma : bool)
with mac :=
| Mac (p : path) (e : option expr)
with item :=
| IFn (a : list attr) (sig : string) (out : option ty) (b : list stmt)
| IEnum (g : genum)
| IOther (s : string).

(** What [#[auto_enum]] was put on, after parsing: a statement, else an expression, else neither
    (/repo/src/auto_enum/mod.rs:37-56). *)
Inductive input :=
| InStmt (s : stmt)
| InExpr (e : expr)
| InBad.

(** Anything whose token text is hashed into an enum name: /repo/src/auto_enum/mod.rs:32,
    /repo/src/auto_enum/visitor.rs:329,363. *)
Inductive node :=
| NInput (i : input)
| NExpr (e : expr)
| NStmt (s : stmt).

(** ** Attribute access: trait [Attrs], /repo/src/utils.rs:129-260. *)

(** [Attrs::attrs] for [Expr], /repo/src/utils.rs:202-208. *)
Definition e_attrs (e : expr) : list attr :=
  match e with
  | EBlock a _ _ | EBlk _ a _ | EMatch a _ _ | EIf a _ _ _ | ELet a _ _ | ELoop a _ _
  | EWhile a _ _ _ | EFor a _ _ _ _ | EBreak a _ _ | EContinue a _ | EReturn a _
  | ETry a _ | EClosure a _ _ | EMacro a _ | EMethodCall a _ _ _ | EParen a _
  | ECall a _ _ | EPath a _ _ | EOther a _ _ => a
  | EVerbatim _ => []
  end.

(** Write access through [Attrs::attrs_mut] for [Expr], /repo/src/utils.rs:210-216. *)
Definition set_attrs (e : expr) (a : list attr) : expr :=
  match e with
  | EBlock _ l b => EBlock a l b
  | EBlk k _ b => EBlk k a b
  | EMatch _ s arms => EMatch a s arms
  | EIf _ c t els => EIf a c t els
  | ELet _ p x => ELet a p x
  | ELoop _ l b => ELoop a l b
  | EWhile _ l c b => EWhile a l c b
  | EFor _ l p i b => EFor a l p i b
  | EBreak _ l x => EBreak a l x
  | EContinue _ l => EContinue a l
  | EReturn _ x => EReturn a x
  | ETry _ x => ETry a x
  | EClosure _ ps b => EClosure a ps b
  | EMacro _ m => EMacro a m
  | EMethodCall _ r m args => EMethodCall a r m args
  | EParen _ x => EParen a x
  | ECall _ f args => ECall a f args
  | EPath _ q p => EPath a q p
  | EOther _ k es => EOther a k es
  | EVerbatim s => EVerbatim s
  end.

(** [Attrs::attrs] for [Stmt], /repo/src/utils.rs:177-186 (items are ignored). *)
Definition s_attrs (s : stmt) : list attr :=
  match s with
  | SExpr e _ => e_attrs e
  | SLocal (Local a _ _ _ _) => a
  | SMacro a _ _ => a
  | SItem _ => []
  end.

(** [Attrs::any_attr], /repo/src/utils.rs:132-134. *)
Definition any_attr (l : list attr) (name : string) : bool :=
  existsb (fun a => is_ident (attr_path a) name) l.

(** [Attrs::any_empty_attr], /repo/src/utils.rs:136-138. *)
Definition any_empty_attr (l : list attr) (name : string) : bool :=
  existsb (fun a => match a with MPath p => is_ident p name | _ => false end) l.

(** [VecExt::find_remove], /repo/src/utils.rs:77-81: removes and returns the first match. *)
Fixpoint find_remove {A} (f : A -> bool) (l : list A) : option (A * list A) :=
  match l with
  | [] => None
  | x :: r =>
      if f x then Some (x, r)
      else match find_remove f r with
           | Some (y, r') => Some (y, x :: r')
           | None => None
           end
  end.

(** [Attrs::find_remove_attr] on an attribute list, /repo/src/utils.rs:142-144. *)
Definition find_remove_attr (l : list attr) (name : string) : option (attr * list attr) :=
  find_remove (fun a => is_ident (attr_path a) name) l.

(** [Meta::require_path_only] succeeds, /repo/src/auto_enum/visitor.rs:52,135. *)
Definition is_path_only (a : attr) : bool :=
  match a with MPath _ => true | _ => false end.

(** ** Builders, /repo/src/utils.rs:15-50 *)

(** [expr_block(block(stmts))], /repo/src/utils.rs:15-21. *)
Definition expr_block (b : list stmt) : expr := EBlock [] None b.

(** [expr_call], /repo/src/utils.rs:23-30. *)
Definition expr_call (a : list attr) (p : path) (arg : expr) : expr :=
  ECall a (EPath [] false p) [arg].

(** [unit], /repo/src/utils.rs:32-38. *)
Definition unit_expr : expr := EOther [] "Tuple" [].

(** ** [path_eq], /repo/src/utils.rs:52-68. *)
Definition path_eq (p : path) (crates : list string) (expected : list string) : bool :=
  let ids := path_ids p in
  if (length ids =? 1)%nat && (hd "" ids =? last expected "") then true
  else if (length ids =? S (length expected))%nat then
    existsb (fun c => hd "" ids =? c) crates
    && forallb (fun ab => fst ab =? snd ab) (combine (tl ids) expected)
  else false.

(** Names, /repo/src/auto_enum/mod.rs:25-29. *)
Definition NAME : string := "auto_enum".
(** /repo/src/auto_enum/mod.rs:27 *)
Definition NESTED : string := "nested".
(** /repo/src/auto_enum/mod.rs:29 *)
Definition NEVER : string := "never".
(** /repo/src/auto_enum/visitor.rs:58 *)
Definition REC : string := "rec".
(** /repo/src/auto_enum/context.rs:47 *)
Definition DEFAULT_MARKER : string := "marker".

(** Decimal text of a number, as written by [format_ident!("..{}", n)]
    (/repo/src/auto_enum/context.rs:340,344). *)
Definition dec_nat (n : nat) : string := NilZero.string_of_uint (Nat.to_uint n).
(** Decimal text of a hash value, /repo/src/auto_enum/context.rs:340. *)
Definition dec_N (n : N) : string := NilZero.string_of_uint (N.to_uint n).

(** [format_ident!("__Variant{}", n)], /repo/src/auto_enum/context.rs:344. *)
Definition variant_name (n : nat) : string := String.append "__Variant" (dec_nat n).
(** [format_ident!("__Enum{}", h)], /repo/src/auto_enum/context.rs:340. *)
Definition enum_name (h : N) : string := String.append "__Enum" (dec_N h).
