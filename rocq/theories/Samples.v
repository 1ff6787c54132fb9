(** Concrete inputs used by the examples beside the theorems. *)

Require Import Coq.Strings.String Coq.Lists.List Coq.NArith.NArith.
Require Import Verif.Syntax Verif.Context Verif.ExprModel Verif.AutoEnum.
Import ListNotations.
Open Scope string_scope.
Open Scope list_scope.

(** A stand-in for the hash of the code: a weighted size, different for the samples below. *)
Definition sample_hash (n : node) : N :=
  match n with
  | NInput (InStmt _) => 1
  | NInput (InExpr _) => 2
  | NInput InBad => 3
  | NExpr _ => 4
  | NStmt _ => 5
  end%N.

(** A variable. *)
Definition var (x : string) : expr := EPath [] false (plain_path [x]).
(** [f()] *)
Definition call0 (f : string) : expr := ECall [] (var f) [].
(** [#[auto_enum(t)]] *)
Definition auto_enum_attr (toks : list token) : attr := MList (plain_path ["auto_enum"]) toks.
(** [#[nested]], [#[never]] *)
Definition plain_attr (s : string) : attr := MPath (plain_path [s]).
(** [p => e,] *)
Definition arm1 (x : string) (e : expr) : arm := Arm [] (POther x) None e true.
(** A type [impl T]. *)
Definition impl_ty (t : string) : ty := TImpl [BTrait (plain_path [t])].

(** [match x { 0 => a(), 1 => b(), _ => panic!() }] *)
Definition sample_match : expr :=
  EMatch [] (var "x")
    [arm1 "0" (call0 "a"); arm1 "1" (call0 "b"); arm1 "_" (EMacro [] (Mac (plain_path ["panic"]) None))].

(** [if c { return m1; }  match x { 0 => #[auto_enum(T)] (if d { u() } else { v() }), _ => w() }] as
    the body of [fn f() -> impl Iterator]. *)
Definition sample_nested_if : expr :=
  EIf [auto_enum_attr [TkIdent "Clone"]] (var "d")
    [SExpr (call0 "u") false] (Some (EBlock [] None [SExpr (call0 "v") false])).
Definition sample_fn_body : list stmt :=
  [SExpr (EIf [] (var "c") [SExpr (EReturn [] (Some (call0 "m1"))) true] None) false;
   SLocal (Local [] (PBind "y") None (Some sample_nested_if) None);
   SExpr (EMatch [] (var "x")
            [arm1 "0" (call0 "a"); arm1 "1" (EMacro [] (Mac (plain_path ["marker"]) (Some (call0 "b"))));
             arm1 "_" (EBlock [] None [SExpr (EReturn [] (Some (call0 "m2"))) true])]) false].
Definition sample_fn : input :=
  InStmt (SItem (IFn [] "f" (Some (impl_ty "Iterator")) sample_fn_body)).

(** The arguments [(Iterator)]. *)
Definition sample_args : list token := [TkIdent "Iterator"].

(** What [attribute] makes of a sample. *)
Definition run (args : list token) (i : input) : res outcome := attribute sample_hash false 50 args i.
(** The code returned. *)
Definition code_of (r : res outcome) : option input :=
  match r with ROk (Code i _) => Some i | _ => None end.
(** The context of the outermost attribute [#[auto_enum(Iterator)]] on an expression. *)
Definition sample_ctx : ctx :=
  match ctx_root "__Enum2" sample_args with inr cx => cx | inl _ => Ctx "" [] "" [] true false VDefault LDefault [] [] [] end.
