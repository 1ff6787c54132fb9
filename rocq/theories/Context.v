(** Model of /repo/src/auto_enum/context.rs: the state of one [#[auto_enum]] attribute. *)

Require Import Coq.Strings.String Coq.Lists.List Coq.Bool.Bool Coq.Arith.Arith Coq.NArith.NArith.
Require Import Verif.Syntax.
Import ListNotations.
Open Scope string_scope.
Open Scope list_scope.

(** ** Results: a run ends normally, runs out of fuel (only the model has fuel) or panics. *)

(** Result of running a function of /repo/src/auto_enum; [RPanic] models [unreachable!],
    [unwrap] on [None] and failed [debug_assert!] (e.g. /repo/src/auto_enum/expr.rs:144,
    /repo/src/auto_enum/context.rs:130,142,239, /repo/src/auto_enum/visitor.rs:133,144,173).
    [RFuel] has no counterpart in /repo. *)
Inductive res (A : Type) :=
| ROk (a : A)
| RFuel
| RPanic (msg : string).
Arguments ROk {A} _.
Arguments RFuel {A}.
Arguments RPanic {A} _.

(** ** Errors: one constructor per error message of /repo/src/auto_enum. *)
Inductive err :=
(* syn parse errors in the argument list, context.rs:88,311-323 *)
| ErrArgSyntax
(* context.rs:314 *)
| ErrDupMarkerArg
(* context.rs:96-99 *)
| ErrMarkerInUse (m : string)
(* context.rs:260-272: [true] = "only one", [false] = "no"; [semi] selects the wording *)
| ErrFewVariants (only_one : bool) (semi : bool)
(* mod.rs:44: the parse error of the annotated code *)
| ErrInputSyntax
(* mod.rs:45-48, mod.rs:104 *)
| ErrPosition
(* mod.rs:143-146 *)
| ErrUninitLet
(* mod.rs:209-212 *)
| ErrEmptyFn
(* expr.rs:142 *)
| ErrNoElse
(* visitor.rs:52-54,135-136: [require_path_only] fails on the named annotation *)
| ErrNotPathOnly (name : string)
(* visitor.rs:59-63 *)
| ErrRec
(* visitor.rs:153: the argument of a marker macro is not an expression *)
| ErrMarkerExpr
(* visitor.rs:328: [require_list] fails; visitor.rs:361 *)
| ErrExpectedList.

(** [VisitMode], context.rs:24-29. *)
Inductive visit_mode := VDefault | VReturn (count : nat) | VTry.

(** [VisitLastMode], context.rs:32-44. *)
Inductive visit_last_mode := LDefault | LNever.

(** [Context], context.rs:49-78, with the [Builder] of context.rs:333-336 inlined as
    [cx_ident]/[cx_variants].  [span] is not modelled (it only places messages).
    The [RefCell<Option<Option<Error>>>] is the list of the combined errors in order; the
    outer [None] (context already checked) does not occur because a checked context is
    not used again. *)
Record ctx := Ctx {
  cx_ident : string;
  cx_variants : list string;
  cx_marker : string;
  cx_markers : list string;
  cx_root : bool;
  cx_has_child : bool;
  cx_mode : visit_mode;
  cx_last : visit_last_mode;
  cx_errs : list err;
  cx_args : list path;
  cx_traits : list path
}.

(** Field updates ([cx.field = ..] in /repo/src/auto_enum). *)

(** [self.variants.push(..)], context.rs:349. *)
Definition set_variants (v : list string) (cx : ctx) : ctx :=
  Ctx (cx_ident cx) v (cx_marker cx) (cx_markers cx) (cx_root cx) (cx_has_child cx)
      (cx_mode cx) (cx_last cx) (cx_errs cx) (cx_args cx) (cx_traits cx).
(** assignments to [markers], context.rs:135,143-144. *)
Definition set_markers (m : list string) (cx : ctx) : ctx :=
  Ctx (cx_ident cx) (cx_variants cx) (cx_marker cx) m (cx_root cx) (cx_has_child cx)
      (cx_mode cx) (cx_last cx) (cx_errs cx) (cx_args cx) (cx_traits cx).
(** [cx.has_child = true], visitor.rs:180,254,292,301. *)
Definition set_has_child (cx : ctx) : ctx :=
  Ctx (cx_ident cx) (cx_variants cx) (cx_marker cx) (cx_markers cx) (cx_root cx) true
      (cx_mode cx) (cx_last cx) (cx_errs cx) (cx_args cx) (cx_traits cx).
(** [cx.visit_mode = ..], mod.rs:65,67,162,186. *)
Definition set_mode (m : visit_mode) (cx : ctx) : ctx :=
  Ctx (cx_ident cx) (cx_variants cx) (cx_marker cx) (cx_markers cx) (cx_root cx)
      (cx_has_child cx) m (cx_last cx) (cx_errs cx) (cx_args cx) (cx_traits cx).
(** [cx.visit_last_mode = ..], mod.rs:112. *)
Definition set_last (l : visit_last_mode) (cx : ctx) : ctx :=
  Ctx (cx_ident cx) (cx_variants cx) (cx_marker cx) (cx_markers cx) (cx_root cx)
      (cx_has_child cx) (cx_mode cx) l (cx_errs cx) (cx_args cx) (cx_traits cx).
(** changes of [error], context.rs:136,146,153-154. *)
Definition set_errs (e : list err) (cx : ctx) : ctx :=
  Ctx (cx_ident cx) (cx_variants cx) (cx_marker cx) (cx_markers cx) (cx_root cx)
      (cx_has_child cx) (cx_mode cx) (cx_last cx) e (cx_args cx) (cx_traits cx).
(** pushes onto [traits], type_analysis.rs:31. *)
Definition set_traits (t : list path) (cx : ctx) : ctx :=
  Ctx (cx_ident cx) (cx_variants cx) (cx_marker cx) (cx_markers cx) (cx_root cx)
      (cx_has_child cx) (cx_mode cx) (cx_last cx) (cx_errs cx) (cx_args cx) t.
(** ** The state monad over a context: [&mut Context] passing in /repo/src/auto_enum. *)

(** A function that has [&mut Context]. *)
Definition M (A : Type) : Type := ctx -> res (A * ctx).
(** Plain value, no effect. *)
Definition ret {A} (a : A) : M A := fun cx => ROk (a, cx).
(** Sequencing ([;] in Rust). *)
Definition bind {A B} (m : M A) (f : A -> M B) : M B :=
  fun cx => match m cx with
            | ROk (a, cx') => f a cx'
            | RFuel => RFuel
            | RPanic s => RPanic s
            end.
(** Panic. *)
Definition panic {A} (s : string) : M A := fun _ => RPanic s.
(** No fuel left; not in /repo. *)
Definition out_of_fuel {A} : M A := fun _ => RFuel.
(** Read a field of the context. *)
Definition gets {A} (f : ctx -> A) : M A := fun cx => ROk (f cx, cx).
(** Change the context. *)
Definition modify (f : ctx -> ctx) : M unit := fun cx => ROk (tt, f cx).
(** [debug_assert!]. *)
Definition massert (f : ctx -> bool) (s : string) : M unit :=
  fun cx => if f cx then ROk (tt, cx) else RPanic s.

Notation "x <- m ;; k" := (bind m (fun x => k)) (at level 61, m at next level, right associativity).
Notation "' p <- m ;; k" := (bind m (fun p => k))
  (at level 61, p pattern, m at next level, right associativity).
Notation "m ;;; k" := (bind m (fun _ => k)) (at level 61, right associativity).

Section MapM.
  Context {A B : Type} (f : A -> M B).
  (** Visiting the elements of a vector in order ([for x in &mut v] in syn's [visit_mut]). *)
  Fixpoint mapM (l : list A) : M (list B) :=
    match l with
    | [] => ret []
    | x :: r => y <- f x ;; ys <- mapM r ;; ret (y :: ys)
    end.
End MapM.
(** Visiting an optional child ([if let Some(x) = &mut node.x]). *)
Definition optM {A B} (f : A -> M B) (o : option A) : M (option B) :=
  match o with
  | None => ret None
  | Some x => y <- f x ;; ret (Some y)
  end.

(** ** Args, context.rs:299-328 *)

(** [input.parse::<Path>()] after an optional leading [::], context.rs:317.
    Simplified: no generic arguments in argument paths. *)
Fixpoint parse_segs (toks : list token) : option (list string * list token) :=
  match toks with
  | TkIdent s :: TkColon2 :: r =>
      match parse_segs r with
      | Some (ids, r') => Some (s :: ids, r')
      | None => None
      end
  | TkIdent s :: r => Some ([s], r)
  | _ => None
  end.

(** [Path::parse], context.rs:317. *)
Definition parse_path (toks : list token) : option (path * list token) :=
  match toks with
  | TkColon2 :: r =>
      match parse_segs r with
      | Some (ids, r') => Some (Path true (map (fun i => Seg i ANone) ids), r')
      | None => None
      end
  | _ =>
      match parse_segs toks with
      | Some (ids, r') => Some (plain_path ids, r')
      | None => None
      end
  end.

(** The test of [Args::parse] for [marker =], context.rs:309: the tokens after it. *)
Definition peek_marker (toks : list token) : option (list token) :=
  match toks with
  | TkIdent s :: TkEq :: rest => if s =? "marker" then Some rest else None
  | _ => None
  end.

(** The loop of [Args::parse], context.rs:308-324.  [fuel] bounds the number of iterations;
    [parse_args] gives it one more than the number of tokens, and each
    iteration consumes a token. *)
Fixpoint parse_args_loop (fuel : nat) (toks : list token) (args : list path)
    (marker : option string) : err + (list path * option string) :=
  match fuel with
  | O => inl ErrArgSyntax
  | S fuel' =>
      match toks with
      | [] => inr (args, marker)
      | _ =>
          let next (args : list path) (marker : option string) (rest : list token) :=
            match rest with
            | [] => inr (args, marker)
            | TkComma :: rest' => parse_args_loop fuel' rest' args marker
            | _ => inl ErrArgSyntax
            end in
          match peek_marker toks with
          | Some (TkIdent m :: rest') =>
              match marker with
              | Some _ => inl ErrDupMarkerArg
              | None => next args (Some m) rest'
              end
          | Some _ => inl ErrArgSyntax
          | None =>
              match parse_path toks with
              | Some (p, rest) => next (args ++ [p]) marker rest
              | None => inl ErrArgSyntax
              end
          end
      end
  end.

(** [syn::parse2::<Args>], context.rs:88,304-328. *)
Definition parse_args (toks : list token) : err + (list path * option string) :=
  parse_args_loop (S (length toks)) toks [] None.

(** ** Context operations *)

(** [Context::error], context.rs:151-156. *)
Definition error (e : err) : M unit := modify (fun cx => set_errs (cx_errs cx ++ [e]) cx).

(** [Context::has_error], context.rs:166-168. *)
Definition has_error (cx : ctx) : bool :=
  match cx_errs cx with [] => false | _ => true end.

(** [Context::new], context.rs:81-121; [ident] is the name [Builder::new] computes
    (context.rs:339-341). *)
Definition ctx_new (ident : string) (toks : list token) (root : bool)
    (markers : list string) (diag : list err) : err + ctx :=
  match parse_args toks with
  | inl e => inl e
  | inr (args, marker) =>
      match (match marker with
             | Some m => if existsb (String.eqb m) markers then inl (ErrMarkerInUse m) else inr m
             | None => inr DEFAULT_MARKER
             end) with
      | inl e => inl e
      | inr cur =>
          inr (Ctx ident [] cur (markers ++ [cur]) root false VDefault LDefault diag args [])
      end
  end.

(** [Context::root], context.rs:124-126. *)
Definition ctx_root (ident : string) (toks : list token) : err + ctx :=
  ctx_new ident toks true [] [].

(** [Context::make_child], context.rs:129-138.  The arguments [mem::take(&mut self.markers)]
    and the taken diagnostic leave the parent also if [Context::new] fails. *)
Definition make_child (ident : string) (toks : list token) : M (err + ctx) :=
  massert cx_has_child "make_child: has_child" ;;;
  markers <- gets cx_markers ;;
  diag <- gets cx_errs ;;
  modify (fun cx => set_errs [] (set_markers [] cx)) ;;;
  ret (ctx_new ident toks false markers diag).

(** [Context::join_child], context.rs:141-149; the child's errors are added with [error],
    which keeps their order. *)
Definition join_child (child : ctx) : M unit :=
  massert (fun cx => match cx_markers cx with [] => true | _ => false end)
          "join_child: markers" ;;;
  modify (set_markers (removelast (cx_markers child))) ;;;
  modify (fun cx => set_errs (cx_errs cx ++ cx_errs child) cx).

(** [Context::visit_last], context.rs:170-172. *)
Definition visit_last (cx : ctx) : bool :=
  match cx_last cx with LNever => false | LDefault => true end
  && match cx_mode cx with VTry => false | _ => true end.

(** [Context::is_dummy], context.rs:177-181. *)
Definition is_dummy (cx : ctx) : bool :=
  match cx_args cx, cx_traits cx with [], [] => true | _, _ => false end.

(** [Context::variant_is_empty], context.rs:184-186. *)
Definition variant_is_empty (cx : ctx) : bool :=
  match cx_variants cx with [] => true | _ => false end.

(** Path of a macro. Field access as in context.rs:203,208. *)
Definition mac_path (m : mac) : path := match m with Mac p _ => p end.

(** [Context::is_marker_macro_exact], context.rs:207-209. *)
Definition is_marker_macro_exact (cx : ctx) (m : mac) : bool :=
  is_ident (mac_path m) (cx_marker cx).

(** [Context::is_marker_macro], context.rs:197-204. *)
Definition is_marker_macro (cx : ctx) (m : mac) : bool :=
  let exact := is_marker_macro_exact cx m in
  if exact || cx_root cx then exact
  else existsb (fun mk => is_ident (mac_path m) mk) (cx_markers cx).

(** [Context::is_marker_expr], context.rs:189-194. *)
Definition is_marker_expr (cx : ctx) (e : expr) : bool :=
  match e with
  | EMacro _ m => is_marker_macro cx m
  | _ => false
  end.

(** [Context::next_expr_with_attrs] and [Builder::next_expr], context.rs:217-219,343-352. *)
Definition next_expr_with_attrs (a : list attr) (e : expr) : M expr :=
  fun cx =>
    let variant := variant_name (length (cx_variants cx)) in
    ROk (expr_call a (plain_path [cx_ident cx; variant]) e,
         set_variants (cx_variants cx ++ [variant]) cx).

(** [Context::next_expr], context.rs:212-214. *)
Definition next_expr (e : expr) : M expr := next_expr_with_attrs [] e.

(** [Context::replace_boxed_expr], context.rs:221-230. *)
Definition replace_boxed_expr (o : option expr) : M (option expr) :=
  let e := match o with Some e => e | None => unit_expr end in
  fun cx =>
    if is_marker_expr cx e then ROk (Some e, cx)
    else (e' <- next_expr e ;; ret (Some e')) cx.

(** [Builder::build], context.rs:354-368. *)
Definition builder_build (cx : ctx) : genum :=
  GEnum (cx_ident cx) (cx_variants cx) (combine (cx_variants cx) (cx_variants cx))
        (cx_args cx ++ cx_traits cx).

(** [Context::build], context.rs:246-274; [f] inserts the enum into the syntax tree. *)
Definition build {A} (f : genum -> A -> A) (x : A) : M A :=
  fun cx =>
    if has_error cx then ROk (x, cx)
    else
      let fail :=
        error (ErrFewVariants (negb (variant_is_empty cx))
                              (match cx_last cx with LNever => true | LDefault => false end)) in
      match length (cx_variants cx) with
      | 1 => (fail ;;; ret x) cx
      | 0 => if cx_has_child cx then ROk (x, cx) else (fail ;;; ret x) cx
      | _ => ROk (f (builder_build cx) x, cx)
      end.
