(** Specification: code whose attributes all find the branches they need, however the code around them and below them is
    expanded first. *)

Require Import Coq.Strings.String Coq.Lists.List Coq.Bool.Bool Coq.Arith.Arith.
Require Import Verif.Syntax Verif.Context Verif.ExprModel Verif.Edits Verif.AttrFold Verif.Tails.
Import ListNotations.
Open Scope string_scope.
Open Scope list_scope.

(** [#[nested]] on the code or anywhere inside it; the argument of a macro call counts. *)
Definition nested_below : expr -> bool := af_expr orb false (attr_named "nested").
Definition nested_below_stmts (b : list stmt) : bool := fold_list orb false (af_stmt orb false (attr_named "nested")) b.
Definition nested_below_arm : arm -> bool := af_arm orb false (attr_named "nested").

(** Neither [#[never]] nor [#[auto_enum]]. *)
Definition open (a : list attr) : bool := negb (attr_plain "never" a || attr_named "auto_enum" a).

(** An expression that has a value whatever happens to the code inside it: not a [return], [break] or [continue], not a macro
    call (it may be [panic!] or a marker), not [e?] (it may be [None?]). *)
Fixpoint sure (e : expr) : bool :=
  open (e_attrs e)
  && match e with
     | EBlock _ _ b | EBlk KUnsafe _ b => on_last (fun s => match s with SExpr x _ => sure x | _ => false end) false b
     | EMatch _ _ arms =>
         existsb (fun x => match x with Arm a _ _ b _ => negb (attr_plain "never" a || attr_named "nested" a) && sure b && negb (nested_below_arm x) end) arms
     | EMethodCall _ r _ _ => sure r
     | EParen _ x => sure x
     | EBreak _ _ _ | EContinue _ _ | EReturn _ _ | EMacro _ _ | ETry _ _ | EVerbatim _ => false
     | _ => true
     end.

(** An arm and a block with such a value; they are branches. *)
Definition sure_arm (x : arm) : bool :=
  match x with Arm a _ _ b _ => negb (attr_plain "never" a || attr_named "nested" a) && sure b && negb (nested_below_arm x) end.
Definition sure_last (s : stmt) : bool := match s with SExpr x _ => sure x | _ => false end.
Definition sure_block (b : list stmt) : bool := on_last sure_last false b && negb (nested_below_stmts b).

(** The [else] of an [if] starts with a branch. *)
Definition sure_else (x : expr) : bool :=
  sure x && negb (nested_below x) && match x with EBlock _ _ _ => true | EIf _ _ t _ => sure_block t | _ => false end.

(** The value is a [match] or an [if] with two branches, perhaps at the end of blocks. *)
Fixpoint two (e : expr) : bool :=
  open (e_attrs e)
  && match e with
     | EBlock _ _ b | EBlk KUnsafe _ b => on_last (fun s => match s with SExpr x false => two x | _ => false end) false b
     | EMatch _ _ arms => Nat.leb 2 (length (filter sure_arm arms))
     | EIf _ _ t els => sure_block t && match els with Some x => sure_else x | None => false end
     | EMethodCall _ r _ _ => two r
     | EParen _ x => two x
     | _ => false
     end.

(** ** Attributes inside the code *)

Definition is_auto (x : attr) : bool := is_ident (attr_path x) "auto_enum".

(** An attribute on an expression: there is at most one, and if it asks for traits the value of the expression, which
    is not the statement [e;], has two branches. *)
Definition own_ready (semi : bool) (e : expr) : bool :=
  match filter is_auto (e_attrs e) with
  | [] => true
  | [MList _ toks] =>
      match parse_args toks with
      | inr ([], _) | inl _ => true
      | inr _ => negb semi && two (set_attrs e (filter (fun x => negb (is_auto x)) (e_attrs e)))
      end
  | [_] => true
  | _ => false
  end.

(** After [else] comes a block without an attribute, or another [if] (nothing else can be written). *)
Definition plain_else (x : expr) : bool :=
  match x with EBlock a _ _ => negb (attr_named "auto_enum" a) | EIf _ _ _ _ => true | _ => false end.

Section Ready.
  (** Whether types are analysed too. *)
  Variable ta : bool.

  (** An attribute on a [let]. *)
  Definition let_ready (l : local) : bool :=
    match l with
    | Local a _ t o _ =>
        match filter is_auto a with
        | [] => true
        | [MNameValue _ _] => true
        | [x] =>
            match parse_args (match x with MList _ toks => toks | _ => [] end) with
            | inl _ => true
            | inr (ps, _) =>
                match ps with [] => negb ta || match t with None => true | _ => false end | _ => false end
                || match o with Some e => two e | None => true end
            end
        | _ => false
        end
    end.

  (** All attributes inside the code. *)
  Fixpoint ready (semi : bool) (e : expr) : bool :=
    own_ready semi e
    && match e with EIf _ _ _ (Some x) => plain_else x | _ => true end
    && match e with
       | EMacro _ (Mac _ (Some x)) => ready semi x
       | _ => fold_expr andb true (ready false) ready_stmt ready_arm e
       end
  with ready_stmt (s : stmt) : bool :=
    match s with
    | SExpr e semi => ready semi e
    | SLocal l => ready_let l
    | _ => true
    end
  with ready_arm (x : arm) : bool := fold_arm andb true (ready false) x
  with ready_let (l : local) : bool := let_ready l && fold_local andb true (ready false) l.

  Definition ready_stmts (b : list stmt) : bool := fold_list andb true ready_stmt b.

  (** All attributes, the outermost one with the traits [ps] included. *)
  Definition ready_input (ps : list path) (i : input) : bool :=
    let quiet := match ps with [] => negb ta | _ => false end in
    match i with
    | InExpr e => (quiet || two e) && ready false e
    | InStmt (SExpr e semi) => (quiet || negb semi && two e) && ready semi e
    | InStmt (SLocal (Local a p t o d)) =>
        (quiet || match o with Some e => two e | None => true end) && ready_let (Local a p t o d)
    | InStmt (SItem (IFn _ _ _ b)) =>
        (quiet || on_last (fun s => match s with SExpr e false => two e | _ => false end) false b) && ready_stmts b
    | _ => true
    end.
End Ready.
