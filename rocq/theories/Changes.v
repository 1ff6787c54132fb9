(** Specification: all changes that one [#[auto_enum]] attribute makes to its code.

    First the branches of the annotated expression are wrapped ([tail], Tails.v).  Then every
    expression, arm and [let] is visited ([done]): exits are wrapped, [#[nested]] is followed, nested attributes are
    expanded, markers become variants and the annotations are removed. *)

Require Import Coq.Strings.String Coq.Lists.List Coq.Bool.Bool.
Require Import Verif.Syntax Verif.ExprModel Verif.Edits Verif.NoValueSpec Verif.Tails Verif.ArgsSpec.
Import ListNotations.
Open Scope string_scope.
Open Scope list_scope.

(** ** The attribute *)

(** The exits that it takes: none, [return]s or [?]s. *)
Inductive takes := TakesNone | TakesReturns | TakesQuestions.

(** The attribute in some place of its code. *)
Record who := Who {
  (* the name of its enum *)
  w_enum : string;
  (* the name of its marker macro *)
  w_marker : string;
  (* the marker names of the attributes around it and its own *)
  w_markers : list string;
  (* it stands in no other attribute's code *)
  w_root : bool;
  (* it has traits as arguments *)
  w_given : bool;
  (* it wraps branches *)
  w_branches : bool;
  w_exits : takes;
  (* the place belongs to the code of a nested attribute *)
  w_foreign : bool
}.

(** The names of marker macros that it keeps its hands off. *)
Definition w_mark (w : who) (s : string) : Prop := s = w_marker w \/ (w_root w = false /\ In s (w_markers w)).

Definition set_exits (x : takes) (w : who) : who :=
  Who (w_enum w) (w_marker w) (w_markers w) (w_root w) (w_given w) (w_branches w) x (w_foreign w).
Definition set_branches (x : bool) (w : who) : who :=
  Who (w_enum w) (w_marker w) (w_markers w) (w_root w) (w_given w) x (w_exits w) (w_foreign w).
(** Below these attributes. *)
Definition past (a : list attr) (w : who) : who :=
  Who (w_enum w) (w_marker w) (w_markers w) (w_root w) (w_given w) (w_branches w) (w_exits w)
      (w_foreign w || attr_named "auto_enum" a).
(** While the code of a nested attribute is visited. *)
Definition lent (w : who) : who :=
  Who (w_enum w) (w_marker w) [] (w_root w) (w_given w) (w_branches w) (w_exits w) (w_foreign w).

(** At an expression: closures keep their [return]s and [?]s, [try] blocks their [?]s. *)
Definition enter (e : expr) (w : who) : who :=
  let w1 := past (e_attrs e) w in
  match e with
  | EClosure _ _ _ => set_exits TakesNone w1
  | EBlk KTry _ _ => match w_exits w with TakesQuestions => set_exits TakesNone w1 | _ => w1 end
  | _ => w1
  end.

(** ** Single steps *)

(** The first attribute of this name is taken out. *)
Definition removes (name : string) (a : list attr) (x : attr) (a' : list attr) : Prop :=
  exists l r, a = l ++ x :: r /\ a' = l ++ r /\ is_ident (attr_path x) name = true /\ attr_named name l = false.

(** The exits that are wrapped. *)
Definition taken_exit (w : who) (e : expr) : Prop :=
  ~ has_plain "never" (e_attrs e) /\
  match e, w_exits w with
  | EReturn _ o, TakesReturns => ~ exists x, o = Some x /\ is_mark (w_mark w) x
  | ETry _ x, TakesQuestions => ~ is_mark (w_mark w) x
  | _, _ => False
  end.
Inductive exit_step (w : who) : expr -> expr -> Prop :=
| xs_return v a o : taken_exit w (EReturn a o) -> exit_step w (EReturn a o) (EReturn a (Some (wrap (w_enum w) v (operand o))))
| xs_question v a x : taken_exit w (ETry a x) -> exit_step w (ETry a x) (EMatch a x (question_arms (w_enum w) v))
| xs_none e : ~ taken_exit w e -> exit_step w e e.

(** The branches that are wrapped with the variants [t]. *)
Definition branches (w : who) (t : list string) (e e' : expr) : Prop :=
  if w_branches w then tail (w_enum w) (w_mark w) t e e' else t = [] /\ e' = e.

(** [#[nested]] *)
Inductive nested_step (w : who) : expr -> expr -> Prop :=
| ns_none e : w_foreign w = true \/ attr_named "nested" (e_attrs e) = false -> nested_step w e e
| ns_nested e p a' n k e' : w_foreign w = false -> removes "nested" (e_attrs e) (MPath p) a' ->
    branches w (from n k) (set_attrs e a') e' -> nested_step w e e'.
Inductive nested_arm (w : who) : arm -> arm -> Prop :=
| na_none a p g b c : w_foreign w = true \/ attr_named "nested" a = false -> nested_arm w (Arm a p g b c) (Arm a p g b c)
| na_nested q a a' p g b b' c n k : w_foreign w = false -> removes "nested" a (MPath q) a' ->
    branches w (from n k) b b' -> nested_arm w (Arm a p g b c) (Arm a' p g b' c).
Inductive nested_local (w : who) : local -> local -> Prop :=
| nl_none a p t i d : w_foreign w = true \/ attr_named "nested" a = false -> nested_local w (Local a p t i d) (Local a p t i d)
| nl_uninit x a a' p t d : w_foreign w = false -> removes "nested" a x a' ->
    nested_local w (Local a p t None d) (Local a' p t None d)
| nl_nested q a a' p t i i' d n k : w_foreign w = false -> removes "nested" a (MPath q) a' ->
    branches w (from n k) i i' -> nested_local w (Local a p t (Some i) d) (Local a' p t (Some i') d).

(** [m!(x)] becomes a variant with the attributes of the macro call. *)
Inductive marker_step (w : who) : expr -> expr -> Prop :=
| ms_mark v a p x : is_ident p (w_marker w) = true ->
    marker_step w (EMacro a (Mac p (Some x))) (ECall a (EPath [] false (ctor (w_enum w) v)) [x])
| ms_none e : (forall a p x, e = EMacro a (Mac p x) -> is_ident p (w_marker w) = false) -> marker_step w e e.

(** [#[never]] is removed, [#[rec]] must not be there. *)
Inductive attrs_step (w : who) : list attr -> list attr -> Prop :=
| at_foreign a : w_foreign w = true -> attrs_step w a a
| at_none a : w_foreign w = false -> attr_named "never" a = false -> attr_named "rec" a = false -> attrs_step w a a
| at_never p a a' : w_foreign w = false -> removes "never" a (MPath p) a' -> attr_named "rec" a' = false -> attrs_step w a a'.

(** The last step at an expression; in the code of a nested attribute only markers with a name of their own count. *)
Inductive close_step (w : who) : expr -> expr -> Prop :=
| cs_default e : w_foreign w = true -> w_marker w = "marker" -> close_step w e e
| cs_other e e1 a' : w_foreign w = false \/ w_marker w <> "marker" -> marker_step w e e1 -> attrs_step w (e_attrs e1) a' ->
    close_step w e (set_attrs e1 a').

(** A nested attribute with the arguments [toks] in the code of [w]. *)
Definition child (w : who) (toks : list token) (c : who) : Prop :=
  gen_name (w_enum c) = true /\ w_root c = false /\ w_branches c = true /\ w_exits c = TakesNone /\ w_foreign c = false
  /\ w_markers c = w_markers w ++ [w_marker c]
  /\ exists l, arg_list l toks /\ (w_given c = true <-> traits_of l <> [])
       /\ match markers_of l with
          | [] => w_marker c = "marker"
          | [m] => w_marker c = m /\ ~ In m (w_markers w)
          | _ => False
          end.

(** The enum is declared in front of the code, if there is one. *)
Definition declared (i : string) (e e' : expr) : Prop :=
  e' = e \/ exists n derive, 2 <= n /\ e' = EBlock [] None [SItem (IEnum (enum_of i (variants n) derive)); SExpr e false].

(** ** The visit *)

Inductive done : who -> bool -> expr -> expr -> Prop :=
| dn w (semi : bool) e e1 e2 e3 e' :
    exit_step (enter e w) e e1 -> nested_step (enter e w) e1 e2 -> under (enter e w) semi e2 e3 -> close_step (enter e w) e3 e' ->
    done w semi e e'
(* the parts of an expression; a nested attribute is expanded after its code was visited *)
with under : who -> bool -> expr -> expr -> Prop :=
| un_parts w (semi : bool) e e' : attr_named "auto_enum" (e_attrs e) = false ->
    parts (fun _ => done w false) (fun _ => done_stmt w) (fun _ => done_arm w) [] e e' -> under w semi e e'
| un_child w (semi : bool) e p toks a' e1 c e' : removes "auto_enum" (e_attrs e) (MList p toks) a' ->
    parts (fun _ => done (lent w) false) (fun _ => done_stmt (lent w)) (fun _ => done_arm (lent w)) [] (set_attrs e a') e1 ->
    child w toks c -> expands (if semi then set_branches false c else c) e1 e' -> under w semi e e'
with done_stmt : who -> stmt -> stmt -> Prop :=
| ds_expr w e e' semi : done w semi e e' -> done_stmt w (SExpr e semi) (SExpr e' semi)
| ds_item w i : done_stmt w (SItem i) (SItem i)
| ds_macro w a m (semi : bool) : done_stmt w (SMacro a m semi) (SMacro a m semi)
| ds_local w a p t i d l' : attr_named "auto_enum" a = false -> done_local w (Local a p t i d) l' ->
    done_stmt w (SLocal (Local a p t i d)) (SLocal l')
| ds_child w a x toks a' p t i d l1 c l' : removes "auto_enum" a x a' -> (x = MPath (attr_path x) /\ toks = [] \/ x = MList (attr_path x) toks) ->
    done_local (lent (past a w)) (Local a' p t i d) l1 -> child w toks c -> expands_local c l1 l' ->
    done_stmt w (SLocal (Local a p t i d)) (SLocal l')
with done_arm : who -> arm -> arm -> Prop :=
| da w x a p g b c g' b' a' : nested_arm w x (Arm a p g b c) ->
    maybe2 (fun _ => done w false) [] g g' -> done w false b b' -> attrs_step w a a' ->
    done_arm w x (Arm a' p g' b' c)
with done_local : who -> local -> local -> Prop :=
| dl w x a p t i d i' d' a' : nested_local w x (Local a p t i d) ->
    maybe2 (fun _ => done w false) [] i i' -> maybe2 (fun _ => done w false) [] d d' -> attrs_step w a a' ->
    done_local w x (Local a' p t i' d')
(* an attribute without traits only expands the attributes inside *)
with quiet : who -> expr -> expr -> Prop :=
| qt_parts w e e' : attr_named "auto_enum" (e_attrs e) = false ->
    parts (fun _ => quiet w) (fun _ => quiet_stmt w) (fun _ => quiet_arm w) [] e e' -> quiet w e e'
| qt_child w e p toks a' e1 c e' : removes "auto_enum" (e_attrs e) (MList p toks) a' ->
    parts (fun _ => quiet (lent w)) (fun _ => quiet_stmt (lent w)) (fun _ => quiet_arm (lent w)) [] (set_attrs e a') e1 ->
    child w toks c -> expands c e1 e' -> quiet w e e'
with quiet_stmt : who -> stmt -> stmt -> Prop :=
| qs_expr w e e' semi : attr_named "auto_enum" (e_attrs e) = false -> quiet w e e' -> quiet_stmt w (SExpr e semi) (SExpr e' semi)
| qs_child w e p toks a' e1 c e' (semi : bool) : removes "auto_enum" (e_attrs e) (MList p toks) a' ->
    parts (fun _ => quiet (lent w)) (fun _ => quiet_stmt (lent w)) (fun _ => quiet_arm (lent w)) [] (set_attrs e a') e1 ->
    child w toks c -> expands (if semi then set_branches false c else c) e1 e' -> quiet_stmt w (SExpr e semi) (SExpr e' semi)
| qs_item w i : quiet_stmt w (SItem i) (SItem i)
| qs_macro w a m (semi : bool) : quiet_stmt w (SMacro a m semi) (SMacro a m semi)
| qs_local w a p t i d l' : attr_named "auto_enum" a = false -> quiet_local w (Local a p t i d) l' ->
    quiet_stmt w (SLocal (Local a p t i d)) (SLocal l')
| qs_let w a x toks a' p t i d l1 c l' : removes "auto_enum" a x a' -> (x = MPath (attr_path x) /\ toks = [] \/ x = MList (attr_path x) toks) ->
    quiet_local (lent w) (Local a' p t i d) l1 -> child w toks c -> expands_local c l1 l' ->
    quiet_stmt w (SLocal (Local a p t i d)) (SLocal l')
with quiet_arm : who -> arm -> arm -> Prop :=
| qa w a p g b c g' b' : maybe2 (fun _ => quiet w) [] g g' -> quiet w b b' -> quiet_arm w (Arm a p g b c) (Arm a p g' b' c)
with quiet_local : who -> local -> local -> Prop :=
| ql w a p t i d i' d' : maybe2 (fun _ => quiet w) [] i i' -> maybe2 (fun _ => quiet w) [] d d' ->
    quiet_local w (Local a p t i d) (Local a p t i' d')
(* the attribute itself *)
with expands : who -> expr -> expr -> Prop :=
| ex_quiet w e e' : w_given w = false -> quiet w e e' -> expands w e e'
| ex_code w e e1 e' : w_given w = true -> inside w e e1 -> declared (w_enum w) e1 e' -> expands w e e'
with expands_local : who -> local -> local -> Prop :=
| el_quiet w a p t t' i d i' d' : w_given w = false -> t' = t \/ t' = None ->
    maybe2 (fun _ => quiet w) [] i i' -> maybe2 (fun _ => quiet w) [] d d' -> expands_local w (Local a p t i d) (Local a p t' i' d')
| el_code w a p t t' e e1 e' d : t' = t \/ t' = None -> inside w e e1 -> declared (w_enum w) e1 e' ->
    expands_local w (Local a p t (Some e) d) (Local a p t' (Some e') d)
(* an annotated closure is treated as a function *)
with inside : who -> expr -> expr -> Prop :=
| in_closure w a ps b b' x : w_branches w = true -> x = TakesReturns \/ x = TakesQuestions ->
    body (set_branches (match x with TakesQuestions => false | _ => true end) (set_exits x w)) b b' ->
    inside w (EClosure a ps b) (EClosure a ps b')
| in_other w e e' : match e with EClosure _ _ _ => w_branches w = false | _ => True end -> body w e e' -> inside w e e'
(* the branches, then the visit *)
with body : who -> expr -> expr -> Prop :=
| bd_done w e e1 k e' : branches w (from 0 k) e e1 -> done w false e1 e' -> body w e e'
| bd_early w e e1 e' : w_given w = false -> w_exits w = TakesReturns -> branches w [] e e1 -> quiet w e1 e' -> body w e e'.

(** ** The code of the outermost attribute *)

(** A function body: [b] with the enum in front. *)
Definition declared_in (i : string) (b b' : list stmt) : Prop :=
  b' = b \/ exists n derive, 2 <= n /\ b' = SItem (IEnum (enum_of i (variants n) derive)) :: b.
Definition branches_body (w : who) (t : list string) (b b' : list stmt) : Prop :=
  if w_branches w then tail_body (w_enum w) (w_mark w) t b b' else t = [] /\ b' = b.
