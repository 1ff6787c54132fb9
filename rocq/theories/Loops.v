(** Specification: which [break]s leave a loop, by the rules of Rust. *)

Require Import Coq.Strings.String Coq.Lists.List Coq.Bool.Bool.
Require Import Verif.Syntax Verif.ExprModel Verif.Edits Verif.NoValueSpec Verif.Tails.
Import ListNotations.
Open Scope string_scope.
Open Scope list_scope.

(** A place in the body of a loop. *)
Record spot := Spot {
  (* [break] without a label leaves the loop *)
  sp_direct : bool;
  (* the label of the loop has not been given to another loop or block in between *)
  sp_named : bool;
  (* below [#[never]] *)
  sp_never : bool
}.

(** A [break] of the body. *)
Record a_break := Break {
  b_leaves : bool;
  b_never : bool;
  b_attrs : list attr;
  b_label : option string;
  b_value : option expr
}.

Definition same_label (l l' : option string) : bool :=
  match l, l' with Some x, Some y => (x =? y)%string | _, _ => false end.

(** Below attributes, in the body of another loop, and in a block with a label. *)
Definition sp_attrs (a : list attr) (p : spot) : spot :=
  Spot (sp_direct p) (sp_named p) (sp_never p || attr_plain "never" a).
Definition sp_loop (l l' : option string) (p : spot) : spot :=
  Spot false (sp_named p && negb (same_label l l')) (sp_never p).
Definition sp_block (l l' : option string) (p : spot) : spot :=
  Spot (sp_direct p) (sp_named p && negb (same_label l l')) (sp_never p).

(** [break 'l'] in this place leaves the loop labelled [l]. *)
Definition sp_leaves (l : option string) (p : spot) (l' : option string) : bool :=
  match l' with None => sp_direct p | Some _ => sp_named p && same_label l l' end.

(** The [break]s in [e], in the order of the source.  Closures, [async] blocks and items have their own; the iterator
    of a [for] is evaluated before its loop is entered. *)
Fixpoint break_list (l : option string) (p : spot) (e : expr) : list a_break :=
  let p := sp_attrs (e_attrs e) p in
  match e with
  | EClosure _ _ _ | EBlk KAsync _ _ => []
  | EBreak a l' o => Break (sp_leaves l p l') (sp_never p) a l' o :: fold_opt [] (break_list l p) o
  | ELoop _ l' _ | EWhile _ l' _ _ =>
      fold_expr (@app _) [] (break_list l (sp_loop l l' p)) (break_list_stmt l (sp_loop l l' p)) (break_list_arm l (sp_loop l l' p)) e
  | EFor _ l' _ c b => break_list l p c ++ fold_list (@app _) [] (break_list_stmt l (sp_loop l l' p)) b
  | EBlock _ l' b => fold_list (@app _) [] (break_list_stmt l (sp_block l l' p)) b
  | _ => fold_expr (@app _) [] (break_list l p) (break_list_stmt l p) (break_list_arm l p) e
  end
with break_list_stmt (l : option string) (p : spot) (s : stmt) : list a_break :=
  fold_stmt [] (break_list l p) (break_list_local l p) s
with break_list_arm (l : option string) (p : spot) (x : arm) : list a_break :=
  fold_arm (@app _) [] (break_list l p) x
with break_list_local (l : option string) (p : spot) (x : local) : list a_break :=
  fold_local (@app _) [] (break_list l p) x.
Definition loop_breaks (l : option string) (b : list stmt) : list a_break :=
  fold_list (@app _) [] (break_list_stmt l (Spot true true false)) b.

(** The body gives the label of the loop to no other loop or block, and has no [break] in the iterator of a [for]. *)
Fixpoint scoped (l : option string) (e : expr) : bool :=
  match e with
  | EClosure _ _ _ | EBlk KAsync _ _ => true
  | _ =>
    match e with
    | ELoop _ l' _ | EWhile _ l' _ _ | EBlock _ l' _ => negb (same_label l l')
    | EFor _ l' _ c _ => negb (same_label l l') && match break_list l (Spot true true false) c with [] => true | _ => false end
    | _ => true
    end && fold_expr andb true (scoped l) (scoped_stmt l) (scoped_arm l) e
  end
with scoped_stmt (l : option string) (s : stmt) : bool := fold_stmt true (scoped l) (scoped_local l) s
with scoped_arm (l : option string) (x : arm) : bool := fold_arm andb true (scoped l) x
with scoped_local (l : option string) (x : local) : bool := fold_local andb true (scoped l) x.
Definition scoped_body (l : option string) (b : list stmt) : bool := fold_list andb true (scoped_stmt l) b.

Section Done.
  Variables (own : string) (marker : string -> Prop) (l : option string).

  (** The [break]s whose value is wrapped: those that leave the loop, are not below [#[never]] and hold no marker. *)
  Definition break_taken (x : a_break) : Prop :=
    b_leaves x = true /\ b_never x = false /\ ~ exists e, b_value x = Some e /\ is_mark marker e.
  (** [break]s in the value are dealt with as well. *)
  Definition searched (e e' : expr) : Prop := e' = e \/ exists inner t, breaks own marker l inner t e e'.

  Inductive break_done : list string -> a_break -> a_break -> Prop :=
  | bd_unit v n a l' : break_taken (Break true n a l' None) ->
      break_done [v] (Break true n a l' None) (Break true n a l' (Some (wrap own v (operand None))))
  | bd_value v n a l' e e' : break_taken (Break true n a l' (Some e)) -> searched e e' ->
      break_done [v] (Break true n a l' (Some e)) (Break true n a l' (Some (wrap own v e')))
  | bd_kept_unit b n a l' : ~ break_taken (Break b n a l' None) -> break_done [] (Break b n a l' None) (Break b n a l' None)
  | bd_kept b n a l' e e' : ~ break_taken (Break b n a l' (Some e)) -> searched e e' ->
      break_done [] (Break b n a l' (Some e)) (Break b n a l' (Some e')).
End Done.
