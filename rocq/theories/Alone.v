(** Specification: every part with its own [#[auto_enum]] is replaced by what that attribute alone
    makes of it. *)

Require Import Coq.Strings.String Coq.Lists.List Coq.Bool.Bool Coq.NArith.NArith.
Require Import Verif.Syntax Verif.Context Verif.ExprModel Verif.AutoEnum Verif.Outside.
Require Import Verif.Tails Verif.Changes.
Import ListNotations.
Open Scope string_scope.
Open Scope list_scope.

(** Both absent, or both present and related. *)
Inductive part_opt (Re : expr -> expr -> Prop) : option expr -> option expr -> Prop :=
| po_none : part_opt Re None None
| po_some e e' : Re e e' -> part_opt Re (Some e) (Some e').

(** [e'] is [e] with the direct parts related: expressions by [Re], statements by [Rs], match arms
    by [Ra].  Attributes, labels, patterns, names and macro calls stay. *)
Inductive kids (Re : expr -> expr -> Prop) (Rs : stmt -> stmt -> Prop) (Ra : arm -> arm -> Prop)
    : expr -> expr -> Prop :=
| kd_block a l b b' : Forall2 Rs b b' -> kids Re Rs Ra (EBlock a l b) (EBlock a l b')
| kd_blk k a b b' : Forall2 Rs b b' -> kids Re Rs Ra (EBlk k a b) (EBlk k a b')
| kd_match a s s' l l' : Re s s' -> Forall2 Ra l l' -> kids Re Rs Ra (EMatch a s l) (EMatch a s' l')
| kd_if a c c' b b' e e' :
    Re c c' -> Forall2 Rs b b' -> part_opt Re e e' -> kids Re Rs Ra (EIf a c b e) (EIf a c' b' e')
| kd_let a p e e' : Re e e' -> kids Re Rs Ra (ELet a p e) (ELet a p e')
| kd_loop a l b b' : Forall2 Rs b b' -> kids Re Rs Ra (ELoop a l b) (ELoop a l b')
| kd_while a l c c' b b' : Re c c' -> Forall2 Rs b b' -> kids Re Rs Ra (EWhile a l c b) (EWhile a l c' b')
| kd_for a l p c c' b b' : Re c c' -> Forall2 Rs b b' -> kids Re Rs Ra (EFor a l p c b) (EFor a l p c' b')
| kd_break a l e e' : part_opt Re e e' -> kids Re Rs Ra (EBreak a l e) (EBreak a l e')
| kd_continue a l : kids Re Rs Ra (EContinue a l) (EContinue a l)
| kd_return a e e' : part_opt Re e e' -> kids Re Rs Ra (EReturn a e) (EReturn a e')
| kd_try a e e' : Re e e' -> kids Re Rs Ra (ETry a e) (ETry a e')
| kd_closure a p e e' : Re e e' -> kids Re Rs Ra (EClosure a p e) (EClosure a p e')
| kd_macro a m : kids Re Rs Ra (EMacro a m) (EMacro a m)
| kd_method a e e' m l l' : Re e e' -> Forall2 Re l l' -> kids Re Rs Ra (EMethodCall a e m l) (EMethodCall a e' m l')
| kd_paren a e e' : Re e e' -> kids Re Rs Ra (EParen a e) (EParen a e')
| kd_call a e e' l l' : Re e e' -> Forall2 Re l l' -> kids Re Rs Ra (ECall a e l) (ECall a e' l')
| kd_path a q p : kids Re Rs Ra (EPath a q p) (EPath a q p)
| kd_other a k l l' : Forall2 Re l l' -> kids Re Rs Ra (EOther a k l) (EOther a k l')
| kd_verbatim s : kids Re Rs Ra (EVerbatim s) (EVerbatim s).

(** The hash function that gives the annotated code the hash [x]: the name of the enum made for it. *)
Definition with_name (hash : node -> N) (x : N) (nd : node) : N :=
  match nd with NInput _ => x | _ => hash nd end.

Section Alone.
  Variables (hash : node -> N) (ta : bool).

  (** The attribute [#[auto_enum(toks)]] alone on the code [i] returns [i']; the hash in the name of
      its enum is [x]. *)
  Definition makes (x : N) (toks : list token) (i i' : input) : Prop :=
    exists n cx, attribute (with_name hash x) ta n toks i = ROk (Code i' cx).

  (** The arguments of an attribute on a let statement: none, or a list. *)
  Definition let_args (at_ : attr) : option (list token) :=
    match at_ with MPath _ => Some [] | MList _ toks => Some toks | MNameValue _ _ => None end.

  (** [alone semi e e']: in [e'], the parts of [e] with their own attribute are replaced, the inner
      ones first, by what the attribute alone makes of them.  [semi]: [e] is a statement with [;].
      Nothing is said of parts whose attribute chooses a marker. *)
  Inductive alone : bool -> expr -> expr -> Prop :=
  | al_plain s e e' :
      attr_named "auto_enum" (e_attrs e) = false ->
      kids (alone false) alone_stmt alone_arm e e' -> alone s e e'
  | al_expr e p toks a' ps e1 e' :
      removes "auto_enum" (e_attrs e) (MList p toks) a' -> parse_args toks = inr (ps, None) ->
      kids (alone false) alone_stmt alone_arm (set_attrs e a') e1 ->
      makes (hash (NExpr (set_attrs e a'))) toks (InExpr e1) (InExpr e') -> alone false e e'
  | al_semi e p toks a' ps e1 e' :
      removes "auto_enum" (e_attrs e) (MList p toks) a' -> parse_args toks = inr (ps, None) ->
      kids (alone false) alone_stmt alone_arm (set_attrs e a') e1 ->
      makes (hash (NExpr (set_attrs e a'))) toks (InStmt (SExpr e1 true)) (InStmt (SExpr e' true)) ->
      alone true e e'
  | al_own s e p toks a' ps m e' :
      removes "auto_enum" (e_attrs e) (MList p toks) a' -> parse_args toks = inr (ps, Some m) -> alone s e e'
  with alone_stmt : stmt -> stmt -> Prop :=
  | al_item i : alone_stmt (SItem i) (SItem i)
  | al_macro a m s : alone_stmt (SMacro a m s) (SMacro a m s)
  | al_stmt e e' s : alone s e e' -> alone_stmt (SExpr e s) (SExpr e' s)
  | al_let l l' : (match l with Local a _ _ _ _ => attr_named "auto_enum" a = false end) ->
      alone_let l l' -> alone_stmt (SLocal l) (SLocal l')
  | al_let_with a p t i d at_ toks a' ps l1 l' :
      removes "auto_enum" a at_ a' -> let_args at_ = Some toks -> parse_args toks = inr (ps, None) ->
      alone_let (Local a' p t i d) l1 ->
      makes (hash (NStmt (SLocal (Local a' p t i d)))) toks (InStmt (SLocal l1)) (InStmt (SLocal l')) ->
      alone_stmt (SLocal (Local a p t i d)) (SLocal l')
  | al_let_own a p t i d at_ toks a' ps m l' :
      removes "auto_enum" a at_ a' -> let_args at_ = Some toks -> parse_args toks = inr (ps, Some m) ->
      alone_stmt (SLocal (Local a p t i d)) (SLocal l')
  with alone_let : local -> local -> Prop :=
  | al_local a p t i i' d d' :
      part_opt (alone false) i i' -> part_opt (alone false) d d' ->
      alone_let (Local a p t i d) (Local a p t i' d')
  with alone_arm : arm -> arm -> Prop :=
  | al_arm a p g g' b b' c :
      part_opt (alone false) g g' -> alone false b b' ->
      alone_arm (Arm a p g b c) (Arm a p g' b' c).

  (** The code under the outer attribute, which itself is not part of it. *)
  Inductive alone_input : input -> input -> Prop :=
  | ai_expr e e' : alone false e e' -> alone_input (InExpr e) (InExpr e')
  | ai_stmt e e' s : alone false e e' -> alone_input (InStmt (SExpr e s)) (InStmt (SExpr e' s))
  | ai_let l l' : alone_let l l' -> alone_input (InStmt (SLocal l)) (InStmt (SLocal l'))
  | ai_macro a m s : alone_input (InStmt (SMacro a m s)) (InStmt (SMacro a m s))
  | ai_fn a g o b b' :
      Forall2 alone_stmt b b' -> alone_input (InStmt (SItem (IFn a g o b))) (InStmt (SItem (IFn a g o b'))).
End Alone.

(** ** Which attribute an error comes from *)

(** A part with its own attribute: its hash, the attribute, and the code without the attribute. *)
Definition site : Type := (node * attr * input)%type.

(** The parts with their own attribute, outermost only. *)
Fixpoint sites (semi : bool) (e : expr) : list site :=
  match find_remove_attr (e_attrs e) "auto_enum" with
  | Some (at_, a') =>
      [(NExpr (set_attrs e a'), at_,
        if semi then InStmt (SExpr (set_attrs e a') true) else InExpr (set_attrs e a'))]
  | None => fold_expr (@app site) [] (sites false) sites_stmt sites_arm e
  end
with sites_stmt (s : stmt) : list site :=
  match s with
  | SExpr e semi => sites semi e
  | SLocal l => sites_let l
  | SItem _ | SMacro _ _ _ => []
  end
with sites_arm (x : arm) : list site := fold_arm (@app site) [] (sites false) x
with sites_let (l : local) : list site :=
  match l with
  | Local a p t i d =>
      match find_remove_attr a "auto_enum" with
      | Some (at_, a') => [(NStmt (SLocal (Local a' p t i d)), at_, InStmt (SLocal (Local a' p t i d)))]
      | None => fold_local (@app site) [] (sites false) l
      end
  end.

(** No attribute in a part that has one. *)
Fixpoint flat (e : expr) : bool :=
  if attr_named "auto_enum" (e_attrs e) then fold_expr andb true plain_expr plain_stmt plain_arm e
  else fold_expr andb true flat flat_stmt flat_arm e
with flat_stmt (s : stmt) : bool := fold_stmt true flat flat_let s
with flat_arm (x : arm) : bool := fold_arm andb true flat x
with flat_let (l : local) : bool :=
  match l with
  | Local a _ _ _ _ =>
      if attr_named "auto_enum" a then fold_local andb true plain_expr l else fold_local andb true flat l
  end.

(** The same for the code under the outer attribute. *)
Definition sites_input (i : input) : list site :=
  match i with
  | InExpr e | InStmt (SExpr e _) => sites false e
  | InStmt (SLocal l) => fold_local (@app site) [] (sites false) l
  | InStmt (SItem (IFn _ _ _ b)) => fold_list (@app site) [] sites_stmt b
  | _ => []
  end.
Definition flat_input (i : input) : bool :=
  match i with
  | InExpr e | InStmt (SExpr e _) => flat e
  | InStmt (SLocal l) => fold_local andb true flat l
  | InStmt (SItem (IFn _ _ _ b)) => fold_list andb true flat_stmt b
  | InStmt (SMacro _ _ _) => true
  | _ => false
  end.

(** The arguments of the attribute of a part: an expression needs a list, also an empty one. *)
Definition site_args (s : site) : option (list token) :=
  match s with
  | (NStmt _, at_, _) => let_args at_
  | (_, MList _ toks, _) => Some toks
  | _ => None
  end.

(** The attribute of the part chooses a marker. *)
Definition chooses_marker (s : site) : Prop :=
  exists toks ps m, site_args s = Some toks /\ parse_args toks = inr (ps, Some m).

(** What the attribute alone returns for the part. *)
Definition site_alone (hash : node -> N) (ta : bool) (s : site) (o : outcome) : Prop :=
  match s with
  | (nd, _, part) =>
      exists toks n, site_args s = Some toks /\ attribute (with_name hash (hash nd)) ta n toks part = ROk o
  end.
