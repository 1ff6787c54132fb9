(** Specification: the expression whose branches an [#[auto_enum]] attribute wraps, and what becomes of it. *)

Require Import Coq.Strings.String Coq.Lists.List Coq.Bool.Bool Coq.Arith.Arith.
Require Import Verif.Syntax Verif.ExprModel Verif.Edits Verif.NoValueSpec Verif.Tails Verif.Changes Verif.ChangesTop.
Import ListNotations.
Open Scope string_scope.
Open Scope list_scope.

(** None of the annotations that mean something to [#[auto_enum]]. *)
Definition no_help (a : list attr) : bool :=
  negb (attr_named "auto_enum" a || attr_named "nested" a || attr_named "never" a || attr_named "rec" a).

(** ** Code that is left as it is *)

(** [clean m x e]: [e] has no annotations as above, no macro [m!] and no exits that are taken. *)
Definition exits_in (e : expr) (x : takes) : takes :=
  match e with
  | EClosure _ _ _ => TakesNone
  | EBlk KTry _ _ => match x with TakesQuestions => TakesNone | _ => x end
  | _ => x
  end.
Definition head_clean (m : string) (x : takes) (e : expr) : bool :=
  no_help (e_attrs e) &&
  match e with
  | EReturn _ _ => match x with TakesReturns => false | _ => true end
  | ETry _ _ => match x with TakesQuestions => false | _ => true end
  | EMacro _ (Mac p _) => negb (is_ident p m)
  | _ => true
  end.
Fixpoint clean (m : string) (x : takes) (e : expr) : bool :=
  head_clean m x e
  && fold_expr andb true (clean m (exits_in e x)) (clean_stmt m (exits_in e x)) (clean_arm m (exits_in e x)) e
with clean_stmt (m : string) (x : takes) (s : stmt) : bool := fold_stmt true (clean m x) (clean_local m x) s
with clean_arm (m : string) (x : takes) (y : arm) : bool :=
  match y with Arm a _ _ _ _ => no_help a && fold_arm andb true (clean m x) y end
with clean_local (m : string) (x : takes) (y : local) : bool :=
  match y with Local a _ _ _ _ => no_help a && fold_local andb true (clean m x) y end.

(** ** Where branches are looked for *)

(** [y] stands at the end of [e]: the last expression of blocks, in parentheses, or the receiver of method calls. *)
Inductive ends_with : expr -> expr -> Prop :=
| ew_here y : ends_with y y
| ew_block a l r e y : no_help a = true -> ends_with e y -> ends_with (EBlock a l (r ++ [SExpr e false])) y
| ew_unsafe a r e y : no_help a = true -> ends_with e y -> ends_with (EBlk KUnsafe a (r ++ [SExpr e false])) y
| ew_method a e m l y : no_help a = true -> ends_with e y -> ends_with (EMethodCall a e m l) y
| ew_paren a e y : no_help a = true -> ends_with e y -> ends_with (EParen a e) y.

(** [same_end e y e' y']: [y] at the end of [e] has become [y'] at the end of [e']. *)
Inductive same_end : expr -> expr -> expr -> expr -> Prop :=
| se_here y y' : same_end y y y' y'
| se_block a l r r' e e' y y' : length r' = length r -> same_end e y e' y' ->
    same_end (EBlock a l (r ++ [SExpr e false])) y (EBlock a l (r' ++ [SExpr e' false])) y'
| se_unsafe a r r' e e' y y' : length r' = length r -> same_end e y e' y' ->
    same_end (EBlk KUnsafe a (r ++ [SExpr e false])) y (EBlk KUnsafe a (r' ++ [SExpr e' false])) y'
| se_method a e e' m l l' y y' : length l' = length l -> same_end e y e' y' ->
    same_end (EMethodCall a e m l) y (EMethodCall a e' m l') y'
| se_paren a e e' y y' : same_end e y e' y' -> same_end (EParen a e) y (EParen a e') y'.

Definition closure (e : expr) : bool := match e with EClosure _ _ _ => true | _ => false end.

(** [value_of m i y x]: [y] is at the end of the annotated code [i], which takes the exits [x].  In a closure that is
    the end of its body, in a function that of the body. *)
Inductive value_in (m : string) : expr -> expr -> takes -> Prop :=
| vi_closure a ps b y : ends_with b y -> value_in m (EClosure a ps b) y (closure_takes m b)
| vi_other e y : closure e = false -> ends_with e y -> value_in m e y TakesNone.
Inductive value_of (m : string) : input -> expr -> takes -> Prop :=
| vo_expr e y x : value_in m e y x -> value_of m (InExpr e) y x
| vo_stmt e y x : value_in m e y x -> value_of m (InStmt (SExpr e false)) y x
| vo_let a p t e d y x : value_in m e y x -> value_of m (InStmt (SLocal (Local a p t (Some e) d))) y x
| vo_fn a sg out r e y x : fn_takes m (r ++ [SExpr e false]) out x -> ends_with e y ->
    value_of m (InStmt (SItem (IFn a sg out (r ++ [SExpr e false])))) y x.

(** [placed own i y i' y']: the expansion [i'] of [i] has [y'] in the place of [y]. *)
Inductive placed_in (own : string) : expr -> expr -> expr -> expr -> Prop :=
| pi_closure a ps b b' y y' e' : same_end b y b' y' -> declared own (EClosure a ps b') e' -> placed_in own (EClosure a ps b) y e' y'
| pi_other e e1 e' y y' : closure e = false -> same_end e y e1 y' -> declared own e1 e' -> placed_in own e y e' y'.
Inductive placed (own : string) : input -> expr -> input -> expr -> Prop :=
| pl_expr e y e' y' : placed_in own e y e' y' -> placed own (InExpr e) y (InExpr e') y'
| pl_stmt e y e' y' : placed_in own e y e' y' -> placed own (InStmt (SExpr e false)) y (InStmt (SExpr e' false)) y'
| pl_let a p t t' e y e' y' d : placed_in own e y e' y' ->
    placed own (InStmt (SLocal (Local a p t (Some e) d))) y (InStmt (SLocal (Local a p t' (Some e') d))) y'
| pl_fn a sg out r r' e y e' y' b' : length r' = length r -> same_end e y e' y' -> declared_in own (r' ++ [SExpr e' false]) b' ->
    placed own (InStmt (SItem (IFn a sg out (r ++ [SExpr e false])))) y (InStmt (SItem (IFn a sg out b'))) y'.

(** ** What becomes of it *)

(** The branches are wrapped with the variants [t], then the result is visited. *)
Definition outcome (w : who) (t : list string) (e e' : expr) : Prop :=
  exists e1, branches w t e e1 /\ done w false e1 e'.

(** An arm, a branch: wrapped or skipped, then visited. *)
Definition arm_outcome (w : who) (t : list string) (x x' : arm) : Prop :=
  exists x1, arm_wrapped (w_enum w) (w_mark w) t x x1 /\ done_arm w x1 x'.
Definition block_done (w : who) (b b' : list stmt) : Prop := seq2 (fun _ => done_stmt w) [] b b'.
Definition branch_outcome (w : who) (t : list string) (b b' : list stmt) : Prop :=
  exists b1, branch_wrapped (w_enum w) (w_mark w) t b b1 /\ block_done w b1 b'.

(** A chain of [if]s: its branches one after the other. *)
Inductive chain_outcome (w : who) : list string -> expr -> expr -> Prop :=
| co_else t1 t2 a c c' b b' ea l eb eb' :
    done w false c c' -> branch_outcome w t1 b b' -> branch_outcome w t2 eb eb' ->
    chain_outcome w (t1 ++ t2) (EIf a c b (Some (EBlock ea l eb))) (EIf a c' b' (Some (EBlock ea l eb')))
| co_else_if t1 t2 a c c' b b' e e' :
    done w false c c' -> branch_outcome w t1 b b' -> chain_outcome w t2 e e' ->
    chain_outcome w (t1 ++ t2) (EIf a c b (Some e)) (EIf a c' b' (Some e')).

(** The [if]s and the last block of a chain have no annotations as above (the grammar has no place for any but in front
    of the first [if]). *)
Fixpoint bare_chain (e : expr) : bool :=
  match e with
  | EIf a _ _ (Some e2) => no_help a && bare_chain e2
  | EIf a _ _ None | EBlock a _ _ => no_help a
  | _ => false
  end.
(** The chain does not end in [else]. *)
Fixpoint no_else (e : expr) : bool :=
  match e with
  | EIf _ _ _ None => true
  | EIf _ _ _ (Some e2) => no_else e2
  | _ => false
  end.

(** The [break]s of a loop: wrapped, then its body is visited. *)
Definition loop_outcome (w : who) (l : option string) (t : list string) (b b' : list stmt) : Prop :=
  exists b1, seq2 (breaks_stmt (w_enum w) (w_mark w) l false) t b b1 /\ block_done w b1 b'.

(** The branches of a chain of [if]s, in the order of the source. *)
Fixpoint chain_branches (e : expr) : list (list stmt) :=
  match e with
  | EIf _ _ b (Some e2) => b :: chain_branches e2
  | EIf _ _ b None => [b]
  | EBlock _ _ b => [b]
  | _ => []
  end.
Definition last_of (b : list stmt) : option expr :=
  on_last (fun s => match s with SExpr e false => Some e | _ => None end) None b.

(** ** Statements that end in [;] *)

Section Markers.
  Variables own m : string.
  (** Annotations [#[nested]] and [#[never]] are removed. *)
  Inductive helpers_off : list attr -> list attr -> Prop :=
  | ho_refl a : helpers_off a a
  | ho_drop name a b c x : name = "nested" \/ name = "never" -> removes name a x b -> helpers_off b c -> helpers_off a c.

  (** The only change: [m!(x)] becomes [own::V(x)]. *)
  Inductive only_markers : expr -> expr -> Prop :=
  | om_mark v a a' p x : is_ident p m = true -> helpers_off a a' ->
      only_markers (EMacro a (Mac p (Some x))) (ECall a' (EPath [] false (ctor own v)) [x])
  | om_parts e e1 a' : (forall a p x, e = EMacro a (Mac p x) -> is_ident p m = false) -> parts (fun _ => only_markers) (fun _ => only_markers_stmt) (fun _ => only_markers_arm) [] e e1 ->
      helpers_off (e_attrs e) a' -> only_markers e (set_attrs e1 a')
  with only_markers_stmt : stmt -> stmt -> Prop :=
  | om_expr e e' semi : only_markers e e' -> only_markers_stmt (SExpr e semi) (SExpr e' semi)
  | om_item i : only_markers_stmt (SItem i) (SItem i)
  | om_macro a mc semi : only_markers_stmt (SMacro a mc semi) (SMacro a mc semi)
  | om_local a a' p t i i' d d' : maybe2 (fun _ => only_markers) [] i i' -> maybe2 (fun _ => only_markers) [] d d' -> helpers_off a a' ->
      only_markers_stmt (SLocal (Local a p t i d)) (SLocal (Local a' p t i' d'))
  with only_markers_arm : arm -> arm -> Prop :=
  | om_arm a a' p g g' b b' c : maybe2 (fun _ => only_markers) [] g g' -> only_markers b b' -> helpers_off a a' ->
      only_markers_arm (Arm a p g b c) (Arm a' p g' b' c).
End Markers.

(** No attribute of this name, but for items and macro arguments. *)
Fixpoint lacks (name : string) (e : expr) : bool :=
  negb (attr_named name (e_attrs e)) && fold_expr andb true (lacks name) (lacks_stmt name) (lacks_arm name) e
with lacks_stmt (name : string) (s : stmt) : bool := fold_stmt true (lacks name) (lacks_local name) s
with lacks_arm (name : string) (y : arm) : bool := fold_arm andb true (lacks name) y
with lacks_local (name : string) (y : local) : bool :=
  match y with Local a _ _ _ _ => negb (attr_named name a) && fold_local andb true (lacks name) y end.
