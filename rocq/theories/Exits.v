(** Specification: the places where control leaves a function, and what [#[auto_enum]] makes of them.

    [exits] lists the [return]s and [?]s of some code in the order in which their operands end,
    leaving out closures (functions of their own) and items.  The expansion does not add or remove
    exits, so input and output can be compared exit by exit. *)

Require Import Coq.Strings.String Coq.Lists.List Coq.Bool.Bool.
Require Import Verif.Syntax Verif.ExprModel Verif.Edits.
Import ListNotations.
Open Scope string_scope.
Open Scope list_scope.

(** What surrounds an exit: a [try] block, a macro call. *)
Record place := Place { in_try : bool; in_macro : bool }.

(** An exit with its attributes.  [XQuest a x ok er] is
    [match x { ::core::result::Result::Ok(val) => ok, ::core::result::Result::Err(err) => er }]. *)
Inductive exit :=
| XRet (a : list attr) (o : option expr)
| XTry (a : list attr) (x : expr)
| XQuest (a : list attr) (x ok er : expr).

(** The pattern [::core::result::Result::<c>(<x>)]. *)
Definition is_result_pat (p : pat) (c x : string) : bool :=
  match p with
  | PCtor (Path true [Seg s1 ANone; Seg s2 ANone; Seg s3 ANone; Seg s4 ANone]) [PBind y] =>
      (s1 =? "core") && (s2 =? "result") && (s3 =? "Result") && (s4 =? c) && (y =? x)
  | _ => false
  end.
(** The two right hand sides of a match as in [XQuest]. *)
Definition quest (arms : list arm) : option (expr * expr) :=
  match arms with
  | [Arm _ p1 None ok _; Arm _ p2 None er _] =>
      if is_result_pat p1 "Ok" "val" && is_result_pat p2 "Err" "err" then Some (ok, er) else None
  | _ => None
  end.

(** The place of the parts of an expression. *)
Definition below (pl : place) (e : expr) : place :=
  Place (in_try pl || match e with EBlk KTry _ _ => true | _ => false end)
        (in_macro pl || match e with EMacro _ _ => true | _ => false end).

(** The expression itself as an exit. *)
Definition own_exit (q : bool) (pl : place) (e : expr) : list (place * exit) :=
  match e with
  | EReturn a o => [(pl, XRet a o)]
  | ETry a x => [(pl, XTry a x)]
  | EMatch a x arms =>
      if q then match quest arms with Some (ok, er) => [(pl, XQuest a x ok er)] | None => [] end else []
  | _ => []
  end.

(** All exits of an expression; [q]: a match of the shape above counts as one exit. *)
Fixpoint exits (q : bool) (pl : place) (e : expr) {struct e} : list (place * exit) :=
  (match e with
   | EClosure _ _ _ => []
   | EMacro _ (Mac _ (Some x)) => exits q (below pl e) x
   | EMatch _ x arms =>
       exits q (below pl e) x
       ++ if q && match quest arms with Some _ => true | None => false end then []
          else fold_list (@app _) [] (exits_arm q (below pl e)) arms
   | _ => fold_expr (@app _) [] (exits q (below pl e)) (exits_stmt q (below pl e)) (exits_arm q (below pl e)) e
   end) ++ own_exit q pl e
with exits_stmt (q : bool) (pl : place) (s : stmt) {struct s} : list (place * exit) :=
  match s with
  | SMacro _ (Mac _ (Some x)) _ => exits q (Place (in_try pl) true) x
  | _ => fold_stmt [] (exits q pl) (exits_local q pl) s
  end
with exits_arm (q : bool) (pl : place) (x : arm) {struct x} : list (place * exit) :=
  fold_arm (@app _) [] (exits q pl) x
with exits_local (q : bool) (pl : place) (x : local) {struct x} : list (place * exit) :=
  fold_local (@app _) [] (exits q pl) x.
(** The exits of a function body. *)
Definition body_exits (q : bool) (b : list stmt) : list (place * exit) :=
  fold_list (@app _) [] (exits_stmt q (Place false false)) b.

(** ** What happens to an exit *)

(** Some annotations of the macro are removed. *)
Inductive fewer : list attr -> list attr -> Prop :=
| fw_refl a : fewer a a
| fw_drop a b c : drops_attr a b -> fewer b c -> fewer a c.

(** The edits of Edits.v. *)
Definition edited (e e' : expr) : Prop := exists t, ed_expr (fun _ => true) t e e'.

(** An operand that is already a variant applied to a value stays so. *)
Definition stays (x x' : expr) : Prop :=
  edited x x' /\ forall i v y, x = wrap i v y -> exists y', x' = wrap i v y' /\ edited y y'.
Definition stays_opt (o o' : option expr) : Prop :=
  match o, o' with
  | Some x, Some x' => stays x x'
  | None, None => True
  | _, _ => False
  end.

(** [val], perhaps in variants of generated enums. *)
Inductive is_val : expr -> Prop :=
| iv_val : is_val (EPath [] false (plain_path ["val"]))
| iv_wrap i v e : gen_name i = true -> is_val e -> is_val (wrap i v e).

(** [{ return ::core::result::Result::Err(Enum::Variant(err)); }] *)
Definition err_exit (i v : string) : expr :=
  EBlock [] None
    [SExpr (EReturn [] (Some (ECall [] (EPath [] false (result_ctor "Err"))
                                [wrap i v (EPath [] false (plain_path ["err"]))]))) true].

(** The exit is left as it is, apart from edits inside its operand. *)
Definition kept (x x' : exit) : Prop :=
  match x, x' with
  | XRet a o, XRet a' o' => fewer a a' /\ stays_opt o o'
  | XTry a y, XTry a' y' => fewer a a' /\ stays y y'
  | XQuest a y ok er, XQuest a' y' ok' er' =>
      fewer a a' /\ stays y y' /\ (is_val ok -> is_val ok') /\ (forall i v, er = err_exit i v -> er' = er)
  | _, _ => False
  end.

(** [#[never]], without arguments. *)
Definition never (a : list attr) : bool :=
  existsb (fun x => match x with MPath p => is_ident p "never" | _ => false end) a.
(** The macro call [m!(..)]. *)
Definition marks (m : string) (e : expr) : bool :=
  match e with EMacro _ (Mac p _) => is_ident p m | _ => false end.
Definition marks_opt (m : string) (o : option expr) : bool :=
  match o with Some x => marks m x | None => false end.

(** Exits that the attribute with the marker [m] leaves alone: those in macro arguments, those annotated
    [#[never]], and those directly on a marker. *)
Definition excluded (m : string) (pl : place) (a : list attr) (o : option expr) : bool :=
  in_macro pl || never a || marks_opt m o.

(** [return x] becomes [return own::V(x)]; [?] stays. *)
Definition return_wrapped (own m : string) (x x' : place * exit) : Prop :=
  match snd x with
  | XRet a o =>
      if excluded m (fst x) a o then kept (snd x) (snd x')
      else exists a' v y', snd x' = XRet a' (Some (wrap own v y')) /\ fewer a a' /\ edited (operand o) y'
  | _ => kept (snd x) (snd x')
  end.

(** [x?] becomes [match x { Ok(val) => val, Err(err) => { return Err(own::V(err)); } }], outside of [try] blocks;
    [return] stays. *)
Definition question_replaced (own m : string) (x x' : place * exit) : Prop :=
  match snd x with
  | XTry a y =>
      if in_try (fst x) || excluded m (fst x) a (Some y) then kept (snd x) (snd x')
      else exists a' v y' ok, snd x' = XQuest a' y' ok (err_exit own v) /\ is_val ok /\ fewer a a' /\ edited y y'
  | _ => kept (snd x) (snd x')
  end.
