(** Model of /repo/src/auto_enum/expr.rs and of the read-only visitors of
    /repo/src/auto_enum/visitor.rs ([find_nested], [visit_fn]). *)

Require Import Coq.Strings.String Coq.Lists.List Coq.Bool.Bool Coq.Arith.Arith.
Require Import Verif.Syntax Verif.Context.
Import ListNotations.
Open Scope string_scope.
Open Scope list_scope.

(** ** Traversal of the syntax tree: [syn::visit_mut] (external). *)

(** An implementation of [syn::visit_mut::VisitMut]: the overridable methods that
    /repo/src/auto_enum overrides. *)
Record vis := Vis {
  on_expr : expr -> M expr;
  on_stmt : stmt -> M stmt;
  on_arm : arm -> M arm;
  on_local : local -> M local
}.

(** [syn::visit_mut::visit_arm_mut] (guard, then body). *)
Definition walk_arm (f : expr -> M expr) (x : arm) : M arm :=
  match x with
  | Arm a p g b c => g' <- optM f g ;; b' <- f b ;; ret (Arm a p g' b' c)
  end.

(** [syn::visit_mut::visit_local_mut] (initializer, then [else] block). *)
Definition walk_local (f : expr -> M expr) (x : local) : M local :=
  match x with
  | Local a p t i d => i' <- optM f i ;; d' <- optM f d ;; ret (Local a p t i' d')
  end.

(** [syn::visit_mut::visit_stmt_mut]; [visit_item_mut] does nothing in every visitor of
    /repo (visitor.rs:264-266,307-309, expr.rs:195-197); macros have no expressions. *)
Definition walk_stmt (fe : expr -> M expr) (fl : local -> M local) (s : stmt) : M stmt :=
  match s with
  | SLocal l => l' <- fl l ;; ret (SLocal l')
  | SItem i => ret (SItem i)
  | SExpr e semi => e' <- fe e ;; ret (SExpr e' semi)
  | SMacro a m semi => ret (SMacro a m semi)
  end.

(** [syn::visit_mut::visit_expr_mut]: the children in syn's order; the tokens of a macro are
    not visited. *)
Definition walk_expr (V : vis) (e : expr) : M expr :=
  match e with
  | EBlock a l b => b' <- mapM (on_stmt V) b ;; ret (EBlock a l b')
  | EBlk k a b => b' <- mapM (on_stmt V) b ;; ret (EBlk k a b')
  | EMatch a s arms =>
      s' <- on_expr V s ;; arms' <- mapM (on_arm V) arms ;; ret (EMatch a s' arms')
  | EIf a c t els =>
      c' <- on_expr V c ;; t' <- mapM (on_stmt V) t ;; els' <- optM (on_expr V) els ;;
      ret (EIf a c' t' els')
  | ELet a p x => x' <- on_expr V x ;; ret (ELet a p x')
  | ELoop a l b => b' <- mapM (on_stmt V) b ;; ret (ELoop a l b')
  | EWhile a l c b =>
      c' <- on_expr V c ;; b' <- mapM (on_stmt V) b ;; ret (EWhile a l c' b')
  | EFor a l p it b =>
      it' <- on_expr V it ;; b' <- mapM (on_stmt V) b ;; ret (EFor a l p it' b')
  | EBreak a l x => x' <- optM (on_expr V) x ;; ret (EBreak a l x')
  | EContinue a l => ret (EContinue a l)
  | EReturn a x => x' <- optM (on_expr V) x ;; ret (EReturn a x')
  | ETry a x => x' <- on_expr V x ;; ret (ETry a x')
  | EClosure a ps b => b' <- on_expr V b ;; ret (EClosure a ps b')
  | EMacro a m => ret (EMacro a m)
  | EMethodCall a r m args =>
      r' <- on_expr V r ;; args' <- mapM (on_expr V) args ;; ret (EMethodCall a r' m args')
  | EParen a x => x' <- on_expr V x ;; ret (EParen a x')
  | ECall a f args =>
      f' <- on_expr V f ;; args' <- mapM (on_expr V) args ;; ret (ECall a f' args')
  | EPath a q p => ret (EPath a q p)
  | EOther a k es => es' <- mapM (on_expr V) es ;; ret (EOther a k es')
  | EVerbatim s => ret (EVerbatim s)
  end.

(** ** Read-only traversal with results combined by [plus]: what [syn::visit_mut] does for a
    visitor that changes nothing and accumulates (visitor.rs:383-425,436-496). *)
Section Fold.
  Context {A : Type} (plus : A -> A -> A) (zero : A).
  Variables (fe : expr -> A) (fs : stmt -> A) (fa : arm -> A) (fl : local -> A).

  (** Children lists in order. *)
  Definition fold_list {B} (f : B -> A) (l : list B) : A :=
    fold_right (fun x r => plus (f x) r) zero l.
  (** Optional child. *)
  Definition fold_opt {B} (f : B -> A) (o : option B) : A :=
    match o with Some x => f x | None => zero end.
  (** [visit_arm_mut], read-only. *)
  Definition fold_arm (x : arm) : A :=
    match x with Arm _ _ g b _ => plus (fold_opt fe g) (fe b) end.
  (** [visit_local_mut], read-only. *)
  Definition fold_local (x : local) : A :=
    match x with Local _ _ _ i d => plus (fold_opt fe i) (fold_opt fe d) end.
  (** [visit_stmt_mut], read-only, items not visited. *)
  Definition fold_stmt (s : stmt) : A :=
    match s with
    | SLocal l => fl l
    | SItem _ => zero
    | SExpr e _ => fe e
    | SMacro _ _ _ => zero
    end.
  (** [visit_expr_mut], read-only. *)
  Definition fold_expr (e : expr) : A :=
    match e with
    | EBlock _ _ b | EBlk _ _ b | ELoop _ _ b => fold_list fs b
    | EMatch _ s arms => plus (fe s) (fold_list fa arms)
    | EIf _ c t els => plus (fe c) (plus (fold_list fs t) (fold_opt fe els))
    | EWhile _ _ c b => plus (fe c) (fold_list fs b)
    | EFor _ _ _ it b => plus (fe it) (fold_list fs b)
    | EBreak _ _ x | EReturn _ x => fold_opt fe x
    | ELet _ _ x | ETry _ x | EParen _ x => fe x
    | EClosure _ _ b => fe b
    | EMethodCall _ r _ args => plus (fe r) (fold_list fe args)
    | ECall _ f args => plus (fe f) (fold_list fe args)
    | EOther _ _ es => fold_list fe es
    | EContinue _ _ | EMacro _ _ | EPath _ _ _ | EVerbatim _ => zero
    end.
End Fold.

(** ** [find_nested], visitor.rs:383-425 *)

(** [FindNested::visit_expr_mut], visitor.rs:389-397. *)
Fixpoint find_nested_expr (e : expr) : bool :=
  if any_attr (e_attrs e) NAME then false
  else if any_empty_attr (e_attrs e) NESTED then true
  else fold_expr orb false find_nested_expr find_nested_stmt find_nested_arm e
(** [visit_stmt_mut] is not overridden: syn's default. *)
with find_nested_stmt (s : stmt) : bool :=
  fold_stmt false find_nested_expr find_nested_local s
(** [FindNested::visit_arm_mut], visitor.rs:399-405. *)
with find_nested_arm (x : arm) : bool :=
  match x with
  | Arm a _ _ _ _ =>
      if any_empty_attr a NESTED then true else fold_arm orb false find_nested_expr x
  end
(** [FindNested::visit_local_mut], visitor.rs:407-415. *)
with find_nested_local (x : local) : bool :=
  match x with
  | Local a _ _ _ _ =>
      if any_attr a NAME then false
      else if any_empty_attr a NESTED then true
      else fold_local orb false find_nested_expr x
  end.

(** [find_nested] on a block, visitor.rs:383 with [Node for Block] (utils.rs:114-118). *)
Definition find_nested_block (b : list stmt) : bool :=
  fold_list orb false find_nested_stmt b.

(** ** [visit_fn], visitor.rs:436-496 *)

(** [FnCount], visitor.rs:431-434: [(try_, return_)]. *)
Definition fncount := (nat * nat)%type.
(** Addition of counts ([+= 1] along the traversal, visitor.rs:454,460). *)
Definition fc_plus (x y : fncount) : fncount := (fst x + fst y, snd x + snd y).
(** [FnCount::default()], visitor.rs:493. *)
Definition fc_zero : fncount := (0, 0).

(** The part of [Scope::check_expr] that [FnVisitor] reads (visitor.rs:26-33,447):
    a closure ends the function's own level. *)
Definition enters_closure (e : expr) : bool :=
  match e with EClosure _ _ _ => true | _ => false end.

(** The [match node] of [FnVisitor::visit_expr_mut], visitor.rs:449-465. *)
Definition fn_count_node (cx : ctx) (e : expr) : fncount :=
  if any_empty_attr (e_attrs e) NEVER then fc_zero
  else match e with
       | ETry _ x => if is_marker_expr cx x then fc_zero else (1, 0)
       | EReturn _ x =>
           if match x with None => true | Some y => negb (is_marker_expr cx y) end
           then (0, 1) else fc_zero
       | _ => fc_zero
       end.

(** [FnVisitor::visit_expr_mut], visitor.rs:444-474.  [foreign] is set but never read there,
    so it is left out; inside a closure nothing is counted at any depth
    ([scope.closure] stays set), so the traversal stops there. *)
Fixpoint fn_count_expr (cx : ctx) (e : expr) : fncount :=
  if enters_closure e then fc_zero
  else fc_plus (fn_count_node cx e)
         (fold_expr fc_plus fc_zero (fn_count_expr cx) (fn_count_stmt cx) (fn_count_arm cx) e)
(** [FnVisitor::visit_stmt_mut], visitor.rs:476-486. *)
with fn_count_stmt (cx : ctx) (s : stmt) : fncount :=
  fold_stmt fc_zero (fn_count_expr cx) (fn_count_local cx) s
(** syn's default. *)
with fn_count_arm (cx : ctx) (x : arm) : fncount :=
  fold_arm fc_plus fc_zero (fn_count_expr cx) x
(** syn's default. *)
with fn_count_local (cx : ctx) (x : local) : fncount :=
  fold_local fc_plus fc_zero (fn_count_expr cx) x.

(** [visit_fn] on a block, visitor.rs:493-495. *)
Definition visit_fn_block (cx : ctx) (b : list stmt) : fncount :=
  fold_list fc_plus fc_zero (fn_count_stmt cx) b.
(** [visit_fn] on an expression (a closure body), visitor.rs:493-495, mod.rs:63. *)
Definition visit_fn_expr (cx : ctx) (e : expr) : fncount := fn_count_expr cx e.

(** ** [is_unreachable], expr.rs:40-98 *)

(** [is_unreachable_macro], expr.rs:80-86. *)
Definition is_unreachable_macro (cx : ctx) (m : mac) : bool :=
  existsb (fun i => path_eq (mac_path m) ["std"; "core"] [i]) ["unreachable"; "panic"]
  || is_marker_macro cx m.

Section OnLast.
  Context {A : Type} (f : stmt -> A) (d : A).
  (** Applies [f] to the last statement: [block.stmts.last()], expr.rs:47. *)
  Fixpoint on_last (b : list stmt) : A :=
    match b with
    | [] => d
    | s :: r => match r with [] => f s | _ => on_last r end
    end.
End OnLast.

(** [`Err(expr)?` or `None?`], expr.rs:59-70: the operand of the [?]. *)
Definition is_try_exit (e : expr) : bool :=
  match e with
  | EPath _ false p => path_eq p ["std"; "core"] ["option"; "Option"; "None"]
  | ECall _ f args =>
      if (length args =? 1)%nat then
        match f with
        | EPath _ false p => path_eq p ["std"; "core"] ["result"; "Result"; "Err"]
        | _ => false
        end
      else false
  | _ => false
  end.

(** [is_unreachable], expr.rs:40-78. *)
Fixpoint is_unreachable (cx : ctx) (e : expr) {struct e} : bool :=
  if any_empty_attr (e_attrs e) NEVER || any_attr (e_attrs e) NAME then true
  else match e with
       | EBlock _ _ b | EBlk KUnsafe _ b => on_last (is_unreachable_stmt cx) false b
       | EBreak _ _ _ | EContinue _ _ | EReturn _ _ => true
       | EMacro _ m => is_unreachable_macro cx m
       | EMatch _ _ arms =>
           forallb (fun x => match x with
                             | Arm a _ _ b _ => any_empty_attr a NEVER || is_unreachable cx b
                             end) arms
       | ETry _ x => is_try_exit x
       | EMethodCall _ r _ _ => is_unreachable cx r
       | EParen _ x => is_unreachable cx x
       | _ => false
       end
(** [is_unreachable_stmt] on a present statement, expr.rs:88-98 ([None] is the default
    [false] of [on_last]). *)
with is_unreachable_stmt (cx : ctx) (s : stmt) {struct s} : bool :=
  match s with
  | SExpr e _ => is_unreachable cx e
  | SLocal (Local _ _ _ (Some e) _) => is_unreachable cx e
  | SLocal (Local _ _ _ None _) => false
  | SItem _ => true
  | SMacro _ m _ => is_unreachable_macro cx m
  end.

(** ** Rewriting of the last expression, expr.rs:16-38,100-201 *)

(** [skip] of [visit_last_expr_match], expr.rs:101-106. *)
Definition skip_arm (cx : ctx) (x : arm) : bool :=
  match x with
  | Arm a _ _ b _ =>
      any_empty_attr a NEVER || any_empty_attr a NESTED || is_unreachable cx b
      || find_nested_arm x
  end.

(** The loop body of [visit_last_expr_match], expr.rs:108-113. *)
Definition visit_last_arm (x : arm) : M arm :=
  skip <- gets (fun cx => skip_arm cx x) ;;
  if (skip : bool) then ret x
  else match x with
       | Arm a p g b _ => b' <- next_expr b ;; ret (Arm a p g b' true)
       end.

(** [skip] of [visit_last_expr_if], expr.rs:117-126. *)
Definition skip_block (cx : ctx) (b : list stmt) : bool :=
  on_last (fun s => match s with
                    | SExpr e false =>
                        any_empty_attr (e_attrs e) NESTED || is_unreachable cx e
                        || find_nested_block b
                    | _ => is_unreachable_stmt cx s
                    end) false b.

(** [replace_block(block, |b| cx.next_expr(expr_block(b)))] unless skipped,
    expr.rs:128-130,134-136 and utils.rs:44-50. *)
Definition visit_last_block (b : list stmt) : M (list stmt) :=
  skip <- gets (fun cx => skip_block cx b) ;;
  if (skip : bool) then ret b
  else e' <- next_expr (expr_block b) ;; ret [SExpr e' false].

(** [visit_last_expr_if], expr.rs:116-146, on an [if] expression. *)
Fixpoint visit_last_expr_if (e : expr) : M expr :=
  match e with
  | EIf a c t els =>
      t' <- visit_last_block t ;;
      els' <- match els with
              | Some (EBlock ea l b) => b' <- visit_last_block b ;; ret (Some (EBlock ea l b'))
              | Some (EIf _ _ _ _ as e2) => e2' <- visit_last_expr_if e2 ;; ret (Some e2')
              | None => error ErrNoElse ;;; ret None
              | Some _ => panic "wrong_if"
              end ;;
      ret (EIf a c t' els')
  | _ => ret e
  end.

(** [LoopVisitor::compare_labels], expr.rs:156-162. *)
Definition compare_labels (this other : option string) : bool :=
  match this, other with
  | None, None => true
  | Some x, Some y => x =? y
  | _, _ => false
  end.

(** [LoopVisitor::visit_expr_mut], expr.rs:166-193.  In the [Break] case the code replaces the
    operand by [Enum::VariantN(operand)] and then visits the new children; visiting
    the call visits its function path (nothing to do there) and the operand, so here the variant is
    taken first and the operand visited after it. *)
Fixpoint loop_expr (label : option string) (nested : bool) (e : expr) : M expr :=
  if any_empty_attr (e_attrs e) NEVER then ret e
  else match e with
       | EClosure _ _ _ | EBlk KAsync _ _ => ret e
       | ELoop _ _ _ | EFor _ _ _ _ _ | EWhile _ _ _ _ =>
           match label with
           | None => ret e
           | Some _ =>
               walk_expr (Vis (loop_expr label true) (loop_stmt label true)
                              (loop_arm label true) (loop_local label true)) e
           end
       | EBreak a l x =>
           if (negb nested && match l with None => true | Some _ => false end)
              || compare_labels label l
           then
             match x with
             | None => x' <- replace_boxed_expr None ;; ret (EBreak a l x')
             | Some y =>
                 mk <- gets (fun cx => is_marker_expr cx y) ;;
                 if (mk : bool) then y' <- loop_expr label nested y ;; ret (EBreak a l (Some y'))
                 else
                   call <- next_expr y ;;
                   y' <- loop_expr label nested y ;;
                   ret (EBreak a l (Some (match call with
                                          | ECall ca f _ => ECall ca f [y']
                                          | _ => call
                                          end)))
             end
           else x' <- optM (loop_expr label nested) x ;; ret (EBreak a l x')
       | _ => walk_expr (Vis (loop_expr label nested) (loop_stmt label nested)
                             (loop_arm label nested) (loop_local label nested)) e
       end
(** syn's default, expr.rs:165-198. *)
with loop_stmt (label : option string) (nested : bool) (s : stmt) : M stmt :=
  walk_stmt (loop_expr label nested) (loop_local label nested) s
(** syn's default. *)
with loop_arm (label : option string) (nested : bool) (x : arm) : M arm :=
  walk_arm (loop_expr label nested) x
(** syn's default. *)
with loop_local (label : option string) (nested : bool) (x : local) : M local :=
  walk_local (loop_expr label nested) x.

(** [visit_last_expr_loop], expr.rs:148-201, on the label and the body. *)
Definition visit_last_expr_loop (label : option string) (b : list stmt) : M (list stmt) :=
  mapM (loop_stmt label false) b.

Section MapLast.
  Variable f : expr -> M expr.
  (** [if let Some(Stmt::Expr(expr, None)) = block.stmts.last_mut() { f(expr) }],
      expr.rs:23-25, mod.rs:206-207. *)
  Fixpoint map_last_expr (b : list stmt) : M (list stmt) :=
    match b with
    | [] => ret []
    | s :: r =>
        match r with
        | [] => match s with
                | SExpr e false => e' <- f e ;; ret [SExpr e' false]
                | _ => ret [s]
                end
        | _ => r' <- map_last_expr r ;; ret (s :: r')
        end
    end.
End MapLast.

(** [child_expr], expr.rs:16-38. *)
Fixpoint child_expr (e : expr) : M expr :=
  stop <- gets (fun cx => negb (visit_last cx) || is_unreachable cx e) ;;
  if (stop : bool) then ret e
  else match e with
       | EBlock a l b => b' <- map_last_expr child_expr b ;; ret (EBlock a l b')
       | EBlk KUnsafe a b => b' <- map_last_expr child_expr b ;; ret (EBlk KUnsafe a b')
       | EMatch a s arms => arms' <- mapM visit_last_arm arms ;; ret (EMatch a s arms')
       | EIf _ _ _ _ => visit_last_expr_if e
       | ELoop a l b => b' <- visit_last_expr_loop l b ;; ret (ELoop a l b')
       | EMethodCall a r m args => r' <- child_expr r ;; ret (EMethodCall a r' m args)
       | EParen a x => x' <- child_expr x ;; ret (EParen a x')
       | _ => ret e
       end.
