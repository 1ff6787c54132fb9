(** Specification: constructor paths and enum declarations of a piece of code. *)

Require Import Coq.Strings.String Coq.Lists.List Coq.Bool.Bool.
Require Import Verif.Syntax Verif.ExprModel Verif.Edits.
Import ListNotations.
Open Scope string_scope.
Open Scope list_scope.

(** [i::v] read off a path. *)
Definition ctor_of (p : path) : list (string * string) :=
  match p with
  | Path false [Seg i ANone; Seg v ANone] => [(i, v)]
  | _ => []
  end.

(** All places where a path [i::v] is used as an expression, in order.  Items inside the code are
    not entered; the argument of a macro is (it is what a marker macro stands for). *)
Fixpoint mentions_expr (e : expr) : list (string * string) :=
  match e with
  | EPath _ false p => ctor_of p
  | EMacro _ (Mac _ (Some x)) => mentions_expr x
  | _ => fold_expr (@app _) [] mentions_expr mentions_stmt mentions_arm e
  end
with mentions_stmt (s : stmt) : list (string * string) :=
  fold_stmt [] mentions_expr mentions_local s
with mentions_arm (x : arm) : list (string * string) := fold_arm (@app _) [] mentions_expr x
with mentions_local (x : local) : list (string * string) :=
  fold_local (@app _) [] mentions_expr x.

(** All generated enums declared in a piece of code. *)
Fixpoint decls_expr (e : expr) : list genum :=
  match e with
  | EMacro _ (Mac _ (Some x)) => decls_expr x
  | _ => fold_expr (@app _) [] decls_expr decls_stmt decls_arm e
  end
with decls_stmt (s : stmt) : list genum :=
  match s with
  | SItem (IEnum g) => [g]
  | _ => fold_stmt [] decls_expr decls_local s
  end
with decls_arm (x : arm) : list genum := fold_arm (@app _) [] decls_expr x
with decls_local (x : local) : list genum := fold_local (@app _) [] decls_expr x.

(** The generated enums declared as statements of this block. *)
Definition block_enums (b : list stmt) : list genum :=
  flat_map (fun s => match s with SItem (IEnum g) => [g] | _ => [] end) b.

(** No enum of the list declares the constructor. *)
Definition undeclared (G : list genum) (iv : string * string) : bool :=
  negb (existsb (fun g => declares g iv) G).

(** The uses of paths [i::v] where no enclosing block (nor the list [G]) declares an enum [i] with a
    variant [v]. *)
Fixpoint unscoped_expr (G : list genum) (e : expr) : list (string * string) :=
  let block b := flat_map (unscoped_stmt (block_enums b ++ G)) b in
  let opt (o : option expr) := match o with Some x => unscoped_expr G x | None => [] end in
  match e with
  | EPath _ false p => filter (undeclared G) (ctor_of p)
  | EBlock _ _ b | EBlk _ _ b | ELoop _ _ b => block b
  | EMatch _ s arms => unscoped_expr G s ++ flat_map (unscoped_arm G) arms
  | EIf _ c t els => unscoped_expr G c ++ block t ++ opt els
  | EWhile _ _ c b => unscoped_expr G c ++ block b
  | EFor _ _ _ it b => unscoped_expr G it ++ block b
  | EBreak _ _ x | EReturn _ x => opt x
  | ELet _ _ x | ETry _ x | EParen _ x | EClosure _ _ x => unscoped_expr G x
  | EMacro _ (Mac _ x) => opt x
  | EMethodCall _ r _ args => unscoped_expr G r ++ flat_map (unscoped_expr G) args
  | ECall _ f args => unscoped_expr G f ++ flat_map (unscoped_expr G) args
  | EOther _ _ es => flat_map (unscoped_expr G) es
  | EContinue _ _ | EPath _ true _ | EVerbatim _ => []
  end
with unscoped_stmt (G : list genum) (s : stmt) : list (string * string) :=
  match s with
  | SLocal l => unscoped_local G l
  | SExpr e _ => unscoped_expr G e
  | SItem _ | SMacro _ _ _ => []
  end
with unscoped_arm (G : list genum) (x : arm) : list (string * string) :=
  match x with
  | Arm _ _ g b _ =>
      match g with Some y => unscoped_expr G y | None => [] end ++ unscoped_expr G b
  end
with unscoped_local (G : list genum) (x : local) : list (string * string) :=
  match x with
  | Local _ _ _ i d =>
      match i with Some y => unscoped_expr G y | None => [] end
      ++ match d with Some y => unscoped_expr G y | None => [] end
  end.

(** Blocks. *)
Definition mentions_block (b : list stmt) : list (string * string) := flat_map mentions_stmt b.
Definition decls_block (b : list stmt) : list genum := flat_map decls_stmt b.
Definition unscoped_block (G : list genum) (b : list stmt) : list (string * string) :=
  flat_map (unscoped_stmt (block_enums b ++ G)) b.

(** The annotated code: a function body, a statement or an expression. *)
Definition mentions (i : input) : list (string * string) :=
  match i with
  | InStmt (SItem (IFn _ _ _ b)) => mentions_block b
  | InStmt s => mentions_stmt s
  | InExpr e => mentions_expr e
  | InBad => []
  end.
Definition decls (i : input) : list genum :=
  match i with
  | InStmt (SItem (IFn _ _ _ b)) => decls_block b
  | InStmt s => decls_stmt s
  | InExpr e => decls_expr e
  | InBad => []
  end.
Definition unscoped (i : input) : list (string * string) :=
  match i with
  | InStmt (SItem (IFn _ _ _ b)) => unscoped_block [] b
  | InStmt s => unscoped_stmt [] s
  | InExpr e => unscoped_expr [] e
  | InBad => []
  end.

(** Pairs of names can be compared. *)
Definition ctor_dec (x y : string * string) : {x = y} + {x <> y}.
Proof. decide equality; apply string_dec. Defined.

(** How often [i::v] is used as an expression. *)
Definition uses (iv : string * string) (i : input) : nat := count_occ ctor_dec (mentions i) iv.
