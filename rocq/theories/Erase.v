(** Specification: the code with everything that the macro adds taken out again.

    [erase] removes generated enums and the blocks around them, unwraps [__EnumH::V(e)], reads
    [marker!(e)] as [e], turns the generated [match] back into [?], and removes the annotations
    of the macro.  It also forgets differences that mean nothing: [{ e }] is [e], [return ()] is
    [return], the comma after an arm, and [impl Trait] in the type of a [let]. *)

Require Import Coq.Strings.String Coq.Lists.List Coq.Bool.Bool.
Require Import Verif.Syntax Verif.Edits.
Import ListNotations.
Open Scope string_scope.
Open Scope list_scope.

(** The attributes that are not annotations of the macro. *)
Definition strip (a : list attr) : list attr := filter (fun x => negb (is_helper x)) a.

(** An expression together with the attributes of a removed wrapper. *)
Definition attributed (a : list attr) (e : expr) : expr :=
  match a with [] => e | _ => EOther a "attributed" [e] end.

(** The statements [e] stands for as the body of a block. *)
Definition open_block (e : expr) : list stmt :=
  match e with
  | EBlock [] None b => b
  | _ => [SExpr e false]
  end.

(** The body of a block: without a generated enum, and [{ { b } }] is [{ b }]. *)
Definition body (b : list stmt) : list stmt :=
  match b with
  | [SItem (IEnum g); SExpr e false] => if gen_name (g_ident g) then open_block e else b
  | [SExpr e false] => open_block e
  | _ => b
  end.

(** A block expression; [{ e }] is [e]. *)
Definition block_expr (a : list attr) (l : option string) (b : list stmt) : expr :=
  match a, l, b with
  | [], None, [SExpr e false] => e
  | _, _, _ => EBlock a l b
  end.

(** [__EnumH::V] *)
Definition is_ctor (p : path) : bool :=
  match p with Path false [Seg i ANone; Seg _ ANone] => gen_name i | _ => false end.

(** A call; [__EnumH::V(e)] is [e]. *)
Definition call_expr (a : list attr) (f : expr) (args : list expr) : expr :=
  match f, args with
  | EPath [] false p, [e] => if is_ctor p then attributed a e else ECall a f args
  | _, _ => ECall a f args
  end.

(** The path [::core::result::Result::<c>]. *)
Definition is_result_ctor (p : path) (c : string) : bool :=
  match p with
  | Path true [Seg s1 ANone; Seg s2 ANone; Seg s3 ANone; Seg s4 ANone] =>
      (s1 =? "core") && (s2 =? "result") && (s3 =? "Result") && (s4 =? c)
  | _ => false
  end.

(** The arms [Ok(val) => val, Err(err) => { return Err(err); }]. *)
Definition is_question (arms : list arm) : bool :=
  match arms with
  | [Arm [] (PCtor p1 [PBind x1]) None (EPath [] false q1) _;
     Arm [] (PCtor p2 [PBind x2]) None
       (EBlock [] None [SExpr (EReturn [] (Some (ECall [] (EPath [] false p3) [EPath [] false q2]))) true])
       _] =>
      is_result_ctor p1 "Ok" && (x1 =? "val") && is_ident q1 "val"
      && is_result_ctor p2 "Err" && (x2 =? "err") && is_result_ctor p3 "Err" && is_ident q2 "err"
  | _ => false
  end.

(** A match; the generated one is [e?]. *)
Definition match_expr (a : list attr) (s : expr) (arms : list arm) : expr :=
  if is_question arms then ETry a s else EMatch a s arms.

(** The operand of [break] or [return]; [()] may be left out. *)
Definition no_unit (o : option expr) : option expr :=
  match o with
  | Some (EOther [] k []) => if k =? "Tuple" then None else o
  | _ => o
  end.

(** The type of a [let]; one with [impl Trait] is forgotten. *)
Definition let_type (t : option ty) : option ty :=
  match t with
  | Some x => if has_impl x then None else Some x
  | None => None
  end.

Section Erase.
  (** The names of marker macros. *)
  Variable mk : string -> bool.

  (** A marker macro. *)
  Definition is_marker (p : path) : bool :=
    match p with Path false [Seg m ANone] => mk m | _ => false end.

  (** The code without the additions of the macro. *)
  Fixpoint erase_expr (e : expr) : expr :=
    match e with
    | EBlock a l b => block_expr (strip a) l (body (map erase_stmt b))
    | EBlk k a b => EBlk k (strip a) (map erase_stmt b)
    | EMatch a s arms => match_expr (strip a) (erase_expr s) (map erase_arm arms)
    | EIf a c t els =>
        EIf (strip a) (erase_expr c) (body (map erase_stmt t)) (option_map erase_expr els)
    | ELet a p x => ELet (strip a) p (erase_expr x)
    | ELoop a l b => ELoop (strip a) l (map erase_stmt b)
    | EWhile a l c b => EWhile (strip a) l (erase_expr c) (map erase_stmt b)
    | EFor a l p it b => EFor (strip a) l p (erase_expr it) (map erase_stmt b)
    | EBreak a l x => EBreak (strip a) l (no_unit (option_map erase_expr x))
    | EContinue a l => EContinue (strip a) l
    | EReturn a x => EReturn (strip a) (no_unit (option_map erase_expr x))
    | ETry a x => ETry (strip a) (erase_expr x)
    | EClosure a ps b => EClosure (strip a) ps (erase_expr b)
    | EMacro a (Mac p (Some x)) =>
        if is_marker p then attributed (strip a) (erase_expr x) else EMacro (strip a) (Mac p (Some x))
    | EMacro a (Mac p None) => EMacro (strip a) (Mac p None)
    | EMethodCall a r m args => EMethodCall (strip a) (erase_expr r) m (map erase_expr args)
    | EParen a x => EParen (strip a) (erase_expr x)
    | ECall a f args => call_expr (strip a) (erase_expr f) (map erase_expr args)
    | EPath a q p => EPath (strip a) q p
    | EOther a k es => EOther (strip a) k (map erase_expr es)
    | EVerbatim s => EVerbatim s
    end
  with erase_stmt (s : stmt) : stmt :=
    match s with
    | SLocal l => SLocal (erase_local l)
    | SItem i => SItem i
    | SExpr e semi => SExpr (erase_expr e) semi
    | SMacro a m semi => SMacro a m semi
    end
  with erase_arm (x : arm) : arm :=
    match x with
    | Arm a p g b c => Arm (strip a) p (option_map erase_expr g) (erase_expr b) true
    end
  with erase_local (x : local) : local :=
    match x with
    | Local a p t i d =>
        Local (strip a) p (let_type t) (option_map erase_expr i) (option_map erase_expr d)
    end.

  (** A function body: also without generated enums in front. *)
  Fixpoint no_enums (b : list stmt) : list stmt :=
    match b with
    | SItem (IEnum g) :: r => if gen_name (g_ident g) then no_enums r else b
    | _ => b
    end.

  (** The annotated code without the additions of the macro. *)
  Definition erase (i : input) : input :=
    match i with
    | InStmt (SItem (IFn a sig out b)) =>
        InStmt (SItem (IFn a sig out (no_enums (map erase_stmt b))))
    | InStmt s => InStmt (erase_stmt s)
    | InExpr e => InExpr (erase_expr e)
    | InBad => InBad
    end.
End Erase.
