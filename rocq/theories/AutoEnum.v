(** Model of the rewriting visitors of /repo/src/auto_enum/visitor.rs and of
    /repo/src/auto_enum/mod.rs.

    The Rust functions are mutually recursive through the syntax tree: a visitor meets a nested
    [#[auto_enum]], makes a child context and expands the node, which starts a visitor on it again.
    [engine n] is that family of functions with [n] levels of recursion left. *)

Require Import Coq.Strings.String Coq.Lists.List Coq.Bool.Bool Coq.Arith.Arith Coq.NArith.NArith.
Require Import Verif.Syntax Verif.Context Verif.ExprModel Verif.TypeAnalysis.
Import ListNotations.
Open Scope string_scope.
Open Scope list_scope.

(** [Scope], visitor.rs:14-22. *)
Record scope := Scope {
  sc_closure : bool;
  sc_try_block : bool;
  sc_foreign : bool
}.

(** [Scope::default()], visitor.rs:46. *)
Definition scope0 : scope := Scope false false false.

(** [scope.foreign = true], visitor.rs:178,252. *)
Definition set_foreign (sc : scope) : scope :=
  Scope (sc_closure sc) (sc_try_block sc) true.

(** [Scope::check_expr], visitor.rs:26-33. *)
Definition check_expr (sc : scope) (e : expr) : scope :=
  match e with
  | EClosure _ _ _ => Scope true (sc_try_block sc) (sc_foreign sc)
  | EBlk KTry _ _ => Scope (sc_closure sc) true (sc_foreign sc)
  | _ => sc
  end.

(** ** Pieces of [Visitor], visitor.rs:44-205 *)

(** [Visitor::find_remove_attrs] on an attribute list, visitor.rs:49-66. *)
Definition find_remove_attrs (sc : scope) (a : list attr) : M (list attr) :=
  if sc_foreign sc then ret a
  else
    a <- match find_remove_attr a NEVER with
         | Some (at_, a') =>
             (if is_path_only at_ then ret tt else error (ErrNotPathOnly NEVER)) ;;; ret a'
         | None => ret a
         end ;;
    match find_remove_attr a REC with
    | Some (_, a') => error ErrRec ;;; ret a'
    | None => ret a
    end.

(** [Visitor::find_remove_attrs] on an expression, visitor.rs:200. *)
Definition find_remove_attrs_expr (sc : scope) (e : expr) : M expr :=
  a <- find_remove_attrs sc (e_attrs e) ;; ret (set_attrs e a).

(** [Visitor::visit_return], visitor.rs:69-81. *)
Definition visit_return (sc : scope) (e : expr) : M expr :=
  if negb (sc_closure sc) && negb (any_empty_attr (e_attrs e) NEVER) then
    match e with
    | EReturn a x =>
        mk <- gets (fun cx => match x with Some y => is_marker_expr cx y | None => false end) ;;
        if (mk : bool) then ret e
        else x' <- replace_boxed_expr x ;; ret (EReturn a x')
    | _ => ret e
    end
  else ret e.

(** [::core::result::Result::<name>], visitor.rs:108-112. *)
Definition core_result (name : string) : path :=
  Path true (map (fun i => Seg i ANone) ["core"; "result"; "Result"; name]).

(** The two arms generated by [Visitor::visit_try], visitor.rs:105-115. *)
Definition try_arms (err : expr) : list arm :=
  [Arm [] (PCtor (core_result "Ok") [PBind "val"]) None (EPath [] false (plain_path ["val"])) true;
   Arm [] (PCtor (core_result "Err") [PBind "err"]) None
     (EBlock [] None
        [SExpr (EReturn [] (Some (ECall [] (EPath [] false (core_result "Err")) [err]))) true])
     false].

(** [Visitor::visit_try], visitor.rs:84-129. *)
Definition visit_try (sc : scope) (e : expr) : M expr :=
  if negb (sc_try_block sc) && negb (sc_closure sc) && negb (any_empty_attr (e_attrs e) NEVER)
  then
    match e with
    | ETry a x =>
        mk <- gets (fun cx => is_marker_expr cx x) ;;
        if (mk : bool) then ret e
        else
          err <- next_expr (EPath [] false (plain_path ["err"])) ;;
          ret (EMatch a x (try_arms err))
    | _ => ret e
    end
  else ret e.

(** [Visitor::visit_nested], visitor.rs:132-140. *)
Definition visit_nested (sc : scope) (e : expr) (a : attr) : M expr :=
  massert (fun _ => negb (sc_foreign sc)) "visit_nested: foreign" ;;;
  if is_path_only a then child_expr e
  else error (ErrNotPathOnly NESTED) ;;; ret e.

(** The expression put where a marker argument does not parse, visitor.rs:156-158. *)
Definition compile_error_expr : expr := EMacro [] (Mac (plain_path ["compile_error"]) None).

(** [Visitor::visit_marker_macro], visitor.rs:143-170. *)
Definition visit_marker_macro (sc : scope) (e : expr) : M expr :=
  massert (fun cx => negb (sc_foreign sc) || negb (cx_marker cx =? DEFAULT_MARKER))
          "visit_marker_macro: scope" ;;;
  exact <- gets (fun cx => match e with EMacro _ m => is_marker_macro_exact cx m | _ => false end) ;;
  match e with
  | EMacro a (Mac _ x) =>
      if (exact : bool) then
        args <- match x with
                | Some y => ret y
                | None => error ErrMarkerExpr ;;; ret compile_error_expr
                end ;;
        bad <- gets has_error ;;
        if (bad : bool) then ret args else next_expr_with_attrs a args
      else ret e
  | _ => ret e
  end.

(** [build_expr], mod.rs:89-93. *)
Definition build_expr (g : genum) (e : expr) : expr :=
  expr_block [SItem (IEnum g); SExpr e false].

(** Insertion of the enum into a function body, mod.rs:227. *)
Definition build_fn (g : genum) (b : list stmt) : list stmt := SItem (IEnum g) :: b.

Section Engine.
  (** The hash of the token text of a node (/repo/src/auto_enum/context.rs:372-376): external. *)
  Variable hash : node -> N.
  (** Whether the feature [type_analysis] is on (mod.rs:76,126,197,215). *)
  Variable ta : bool.

  (** The visitors with the recursion cut: [Visitor] (visitor.rs:207-267) in a scope, and
      [Dummy] (visitor.rs:288-310). *)
  Record engine_t := Engine {
    r_vexpr : scope -> bool -> expr -> M expr;
    r_vstmt : scope -> stmt -> M stmt;
    r_varm : scope -> arm -> M arm;
    r_vlocal : scope -> local -> M local;
    r_dexpr : expr -> M expr;
    r_dstmt : stmt -> M stmt
  }.

  (** [visit_expr_mut] of [Visitor], visitor.rs:208-212; [r_vexpr _ has_semi] includes the test
      for errors also for the call at visitor.rs:247, where it was just made (visitor.rs:245). *)
  Definition v_expr (R : engine_t) (sc : scope) : expr -> M expr := r_vexpr R sc false.

  (** [Visitor] as a [VisitMut], visitor.rs:207-267. *)
  Definition v_vis (R : engine_t) (sc : scope) : vis :=
    Vis (v_expr R sc) (r_vstmt R sc) (r_varm R sc) (r_vlocal R sc).

  (** [Dummy] as a [VisitMut], visitor.rs:288-310; arms and locals are syn's default. *)
  Definition d_vis (R : engine_t) : vis :=
    Vis (r_dexpr R) (r_dstmt R) (walk_arm (r_dexpr R)) (walk_local (r_dexpr R)).

  (** ** mod.rs *)

  (** The early exit under [type_analysis], mod.rs:76-84,215-223. *)
  Definition ta_dummy (cx : ctx) : bool :=
    ta && match cx_mode cx with
          | VReturn count =>
              match cx_args cx with [] => true | _ => false end
              && variant_is_empty cx && (count <? 2)%nat
          | _ => false
          end.

  (** The end of [expand_expr], mod.rs:74-86, on the expression or closure body. *)
  Definition expand_body (R : engine_t) (e : expr) : M expr :=
    e <- child_expr e ;;
    d <- gets ta_dummy ;;
    if (d : bool) then r_dexpr R e else r_vexpr R scope0 false e.

  (** [expand_expr], mod.rs:60-87. *)
  Definition expand_expr (R : engine_t) (e : expr) : M expr :=
    vl <- gets visit_last ;;
    match e with
    | EClosure a ps body =>
        if (vl : bool) then
          count <- gets (fun cx => visit_fn_expr cx body) ;;
          modify (set_mode (if (2 <=? fst count)%nat then VTry else VReturn (snd count))) ;;;
          body' <- expand_body R body ;;
          ret (EClosure a ps body')
        else expand_body R e
    | _ => expand_body R e
    end.

  (** [expand_parent_expr], mod.rs:110-123. *)
  Definition expand_parent_expr (R : engine_t) (e : expr) (has_semi : bool) : M expr :=
    (if has_semi then modify (set_last LNever) else ret tt) ;;;
    dummy <- gets is_dummy ;;
    if (dummy : bool) then
      massert (fun cx => match cx_args cx with [] => true | _ => false end) "dummy: args" ;;;
      r_dexpr R e
    else
      e <- expand_expr R e ;;
      build build_expr e.

  (** The type analysis of a let statement, mod.rs:126-133: the new type annotation. *)
  Definition local_ty (t : option ty) : M (option ty) :=
    if ta then
      match t with
      | Some t0 =>
          '(traits, found) <- gets (fun cx => collect_impl_trait (cx_args cx) (cx_traits cx) t0) ;;
          modify (set_traits traits) ;;;
          ret (if (found : bool) then None else t)
      | None => ret t
      end
    else ret t.

  (** [expand_parent_local], mod.rs:125-153. *)
  Definition expand_parent_local (R : engine_t) (l : local) : M local :=
    match l with
    | Local a p t init div =>
        t <- local_ty t ;;
        dummy <- gets is_dummy ;;
        if (dummy : bool) then
          massert (fun cx => match cx_args cx with [] => true | _ => false end) "dummy: args" ;;;
          walk_local (r_dexpr R) (Local a p t init div)
        else
          match init with
          | None => error ErrUninitLet ;;; ret (Local a p t init div)
          | Some e =>
              e <- expand_expr R e ;;
              e <- build build_expr e ;;
              ret (Local a p t (Some e) div)
          end
    end.

  (** [Result<T, impl Trait>] as mod.rs:166-183 tests it. *)
  Definition is_result_impl (t : ty) : bool :=
    match t with
    | TPath None p =>
        match seg_args (last (path_segs p) (Seg "" ANone)) with
        | AAngle false [g1; g2] =>
            path_eq p ["std"; "core"] ["result"; "Result"]
            && match g1, g2 with
               | GType _, GType (TImpl _) => true
               | _, _ => false
               end
        | _ => false
        end
    | _ => false
    end.

  (** The choice of [visit_mode] from the return type, mod.rs:157-195. *)
  Definition fn_mode (out : option ty) (b : list stmt) : M unit :=
    vl <- gets (fun cx => match cx_last cx with LNever => false | LDefault => true end) ;;
    if (vl : bool) then
      match out with
      | Some (TImpl _) =>
          count <- gets (fun cx => visit_fn_block cx b) ;;
          modify (set_mode (VReturn (snd count)))
      | Some t =>
          if is_result_impl t then
            count <- gets (fun cx => visit_fn_block cx b) ;;
            if (2 <=? fst count)%nat then modify (set_mode VTry) else ret tt
          else ret tt
      | None => ret tt
      end
    else ret tt.

  (** The type analysis of a return type, mod.rs:197-198. *)
  Definition fn_collect (out : option ty) : M unit :=
    if ta then
      match out with
      | Some t =>
          '(traits, _) <- gets (fun cx => collect_impl_trait (cx_args cx) (cx_traits cx) t) ;;
          modify (set_traits traits)
      | None => ret tt
      end
    else ret tt.

  (** [expand_parent_item_fn], mod.rs:155-228, on the return type and the body. *)
  Definition expand_parent_item_fn (R : engine_t) (out : option ty) (b : list stmt) : M (list stmt) :=
    fn_mode out b ;;;
    fn_collect out ;;;
    dummy <- gets is_dummy ;;
    if (dummy : bool) then
      massert (fun cx => match cx_args cx with [] => true | _ => false end) "dummy: args" ;;;
      mapM (r_dstmt R) b
    else
      b <- match b with
           | [] => error ErrEmptyFn ;;; ret []
           | _ => map_last_expr child_expr b
           end ;;
      d <- gets ta_dummy ;;
      if (d : bool) then mapM (r_dstmt R) b
      else
        b <- mapM (r_vstmt R scope0) b ;;
        build build_fn b.

  (** [expand_parent_stmt], mod.rs:98-108. *)
  Definition expand_parent_stmt (R : engine_t) (s : stmt) : M stmt :=
    match s with
    | SExpr e semi => e <- expand_parent_expr R e semi ;; ret (SExpr e semi)
    | SLocal l => l <- expand_parent_local R l ;; ret (SLocal l)
    | SItem (IFn a sig out b) =>
        b <- expand_parent_item_fn R out b ;; ret (SItem (IFn a sig out b))
    | SItem _ => error ErrPosition ;;; ret s
    | SMacro _ _ _ => ret s
    end.

  (** ** [VisitStmt], visitor.rs:321-377 *)

  (** Runs [f] in a child context and joins it: visitor.rs:337-340,370-373. *)
  Definition in_child {A} (child : ctx) (f : M A) : M A :=
    fun cx => match f child with
              | ROk (a, child') => (join_child child' ;;; ret a) cx
              | RFuel => RFuel
              | RPanic s => RPanic s
              end.

  (** [VisitStmt::visit_expr], visitor.rs:324-343, for the visitor [V]. *)
  Definition vs_visit_expr (R : engine_t) (V : vis) (e : expr) (has_semi : bool) : M expr :=
    match find_remove_attr (e_attrs e) NAME with
    | None => walk_expr V e
    | Some (at_, a') =>
        let e := set_attrs e a' in
        r <- match at_ with
             | MList _ toks => make_child (enum_name (hash (NExpr e))) toks
             | _ => ret (inl ErrExpectedList)
             end ;;
        e <- walk_expr V e ;;
        match r with
        | inl er => error er ;;; ret e
        | inr child => in_child child (expand_parent_expr R e has_semi)
        end
    end.

  (** [VisitStmt::visit_stmt], visitor.rs:345-376, for the visitor [V]. *)
  Definition vs_visit_stmt (R : engine_t) (V : vis) (s : stmt) : M stmt :=
    match s with
    | SExpr e semi => e <- vs_visit_expr R V e semi ;; ret (SExpr e semi)
    | SItem _ => ret s
    | SMacro _ _ _ => walk_stmt (on_expr V) (on_local V) s
    | SLocal (Local a p t i d) =>
        match find_remove_attr a NAME with
        | None => walk_stmt (on_expr V) (on_local V) s
        | Some (at_, a') =>
            let s := SLocal (Local a' p t i d) in
            r <- match at_ with
                 | MPath _ => make_child (enum_name (hash (NStmt s))) []
                 | MList _ toks => make_child (enum_name (hash (NStmt s))) toks
                 | MNameValue _ _ => ret (inl ErrExpectedList)
                 end ;;
            s <- walk_stmt (on_expr V) (on_local V) s ;;
            match r with
            | inl er => error er ;;; ret s
            | inr child => in_child child (expand_parent_stmt R s)
            end
        end
    end.

  (** ** The visitors, one level *)

  (** [has_error] guard of all [visit_*_mut] methods, visitor.rs:209,215,229,245,290,299. *)
  Definition unless_error {A} (x : A) (m : M A) : M A :=
    bad <- gets has_error ;; if (bad : bool) then ret x else m.

  (** Sets [has_child] when another [auto_enum] is there, visitor.rs:177-181,251-255,291-293. *)
  Definition note_child (a : list attr) : M unit :=
    if any_attr a NAME then modify set_has_child else ret tt.

  (** The scope below a node with these attributes, visitor.rs:177-178,251-252. *)
  Definition scope_below (sc : scope) (a : list attr) : scope :=
    if any_attr a NAME then set_foreign sc else sc.

  (** [Visitor::visit_expr], visitor.rs:172-204. *)
  Definition visit_expr (R : engine_t) (sc : scope) (has_semi : bool) (e : expr) : M expr :=
    massert (fun cx => negb (has_error cx)) "visit_expr: has_error" ;;;
    note_child (e_attrs e) ;;;
    let sc := check_expr (scope_below sc (e_attrs e)) e in
    mode <- gets cx_mode ;;
    e <- match mode with
         | VReturn _ => visit_return sc e
         | VTry => visit_try sc e
         | VDefault => ret e
         end ;;
    e <- (if sc_foreign sc then ret e
          else match find_remove_attr (e_attrs e) NESTED with
               | Some (at_, a') => visit_nested sc (set_attrs e a') at_
               | None => ret e
               end) ;;
    e <- vs_visit_expr R (v_vis R sc) e has_semi ;;
    cur <- gets cx_marker ;;
    if negb (sc_foreign sc) || negb (cur =? DEFAULT_MARKER) then
      e <- visit_marker_macro sc e ;;
      find_remove_attrs_expr sc e
    else ret e.

  (** [Visitor::visit_arm_mut], visitor.rs:214-226. *)
  Definition visit_arm (R : engine_t) (sc : scope) (x : arm) : M arm :=
    match x with
    | Arm a p g b c =>
        x <- (if sc_foreign sc then ret x
              else match find_remove_attr a NESTED with
                   | Some (at_, a') => b' <- visit_nested sc b at_ ;; ret (Arm a' p g b' c)
                   | None => ret x
                   end) ;;
        x <- walk_arm (v_expr R sc) x ;;
        match x with
        | Arm a p g b c => a <- find_remove_attrs sc a ;; ret (Arm a p g b c)
        end
    end.

  (** [Visitor::visit_local_mut], visitor.rs:228-242. *)
  Definition visit_local (R : engine_t) (sc : scope) (x : local) : M local :=
    match x with
    | Local a p t i d =>
        x <- (if sc_foreign sc then ret x
              else match find_remove_attr a NESTED with
                   | Some (at_, a') =>
                       i' <- optM (fun e => visit_nested sc e at_) i ;; ret (Local a' p t i' d)
                   | None => ret x
                   end) ;;
        x <- walk_local (v_expr R sc) x ;;
        match x with
        | Local a p t i d => a <- find_remove_attrs sc a ;; ret (Local a p t i d)
        end
    end.

  (** [Visitor::visit_stmt_mut], visitor.rs:244-262; in the expression case [r_vexpr] is
      [visit_expr] of visitor.rs:247. *)
  Definition visit_stmt (R : engine_t) (sc : scope) (s : stmt) : M stmt :=
    match s with
    | SExpr e semi => e <- r_vexpr R sc semi e ;; ret (SExpr e semi)
    | _ =>
        note_child (s_attrs s) ;;;
        vs_visit_stmt R (v_vis R (scope_below sc (s_attrs s))) s
    end.

  (** [Dummy::visit_expr_mut], visitor.rs:298-305. *)
  Definition dummy_expr (R : engine_t) (e : expr) : M expr :=
    note_child (e_attrs e) ;;; vs_visit_expr R (d_vis R) e false.

  (** [Dummy::visit_stmt_mut], visitor.rs:289-296. *)
  Definition dummy_stmt (R : engine_t) (s : stmt) : M stmt :=
    note_child (s_attrs s) ;;; vs_visit_stmt R (d_vis R) s.

  (** One level of the recursion. *)
  Definition step (R : engine_t) : engine_t :=
    Engine (fun sc has_semi e => unless_error e (visit_expr R sc has_semi e))
           (fun sc s => unless_error s (visit_stmt R sc s))
           (fun sc x => unless_error x (visit_arm R sc x))
           (fun sc x => unless_error x (visit_local R sc x))
           (fun e => unless_error e (dummy_expr R e))
           (fun s => unless_error s (dummy_stmt R s)).

  (** [n] levels of the recursion; the bottom has no counterpart in /repo. *)
  Fixpoint engine (n : nat) : engine_t :=
    match n with
    | O => Engine (fun _ _ _ => out_of_fuel) (fun _ _ => out_of_fuel) (fun _ _ => out_of_fuel)
                  (fun _ _ => out_of_fuel) (fun _ => out_of_fuel) (fun _ => out_of_fuel)
    | S n' => step (engine n')
    end.

  (** ** [attribute], mod.rs:31-58 *)

  (** Expansion of the annotated code, mod.rs:37-56. *)
  Definition expand_input (R : engine_t) (i : input) : M input :=
    match i with
    | InStmt s => s <- expand_parent_stmt R s ;; ret (InStmt s)
    | InExpr e => e <- expand_parent_expr R e false ;; ret (InExpr e)
    | InBad => error ErrInputSyntax ;;; error ErrPosition ;;; ret InBad
    end.

  (** What the macro returns: code or compile errors. *)
  Inductive outcome :=
  | Code (i : input) (cx : ctx)
  | Errors (l : list err).

  (** [attribute], mod.rs:31-58, with [n] levels of recursion.  [Code] also carries the final
      context (not part of the macro's output) so that theorems can speak of the
      enum that was generated. *)
  Definition attribute (n : nat) (args : list token) (i : input) : res outcome :=
    match ctx_root (enum_name (hash (NInput i))) args with
    | inl e => ROk (Errors [e])
    | inr cx =>
        match expand_input (engine n) i cx with
        | ROk (i', cx') =>
            ROk (match cx_errs cx' with [] => Code i' cx' | l => Errors l end)
        | RFuel => RFuel
        | RPanic s => RPanic s
        end
    end.
End Engine.
