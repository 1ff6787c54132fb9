(** The expansion without state: for each function of the model the relation between argument and result
    in runs that report no error.  A proof device: TwinRun.v proves that all such runs are in the
    relation; properties are then proved of the relation.

    [P] is a context of which only the constant fields matter (name, markers, mode, traits). *)

Require Import Coq.Strings.String Coq.Lists.List Coq.Bool.Bool Coq.Arith.Arith Coq.NArith.NArith.
Require Import Verif.Syntax Verif.Context Verif.ExprModel Verif.TypeAnalysis Verif.AutoEnum Verif.Edits.
Require Import Verif.NoValueRun Verif.Tails.
Import ListNotations.
Open Scope string_scope.
Open Scope list_scope.

(** ** Congruence *)

Section Lists.
  Context {A : Type} (R : A -> A -> Prop).
  Fixpoint all2 (l l' : list A) : Prop :=
    match l with
    | [] => l' = []
    | x :: r => exists y s, l' = y :: s /\ R x y /\ all2 r s
    end.
  Definition opt2 (o o' : option A) : Prop :=
    match o with
    | None => o' = None
    | Some x => exists y, o' = Some y /\ R x y
    end.
End Lists.

(** A visitor as relations. *)
Record rvis := RVis {
  o_expr : expr -> expr -> Prop;
  o_stmt : stmt -> stmt -> Prop;
  o_arm : arm -> arm -> Prop;
  o_local : local -> local -> Prop
}.

Definition t_arm (f : expr -> expr -> Prop) (x x' : arm) : Prop :=
  match x with
  | Arm a p g b c => exists g' b', x' = Arm a p g' b' c /\ opt2 f g g' /\ f b b'
  end.
Definition t_local (f : expr -> expr -> Prop) (x x' : local) : Prop :=
  match x with
  | Local a p t i d => exists i' d', x' = Local a p t i' d' /\ opt2 f i i' /\ opt2 f d d'
  end.
Definition t_stmt (fe : expr -> expr -> Prop) (fl : local -> local -> Prop) (s s' : stmt) : Prop :=
  match s with
  | SLocal l => exists l', s' = SLocal l' /\ fl l l'
  | SItem i => s' = SItem i
  | SExpr e semi => exists e', s' = SExpr e' semi /\ fe e e'
  | SMacro a m semi => s' = SMacro a m semi
  end.
Definition t_walk (V : rvis) (e e' : expr) : Prop :=
  match e with
  | EBlock a l b => exists b', e' = EBlock a l b' /\ all2 (o_stmt V) b b'
  | EBlk k a b => exists b', e' = EBlk k a b' /\ all2 (o_stmt V) b b'
  | EMatch a s arms => exists s' arms', e' = EMatch a s' arms' /\ o_expr V s s' /\ all2 (o_arm V) arms arms'
  | EIf a c t els =>
      exists c' t' els', e' = EIf a c' t' els'
        /\ o_expr V c c' /\ all2 (o_stmt V) t t' /\ opt2 (o_expr V) els els'
  | ELet a p x => exists x', e' = ELet a p x' /\ o_expr V x x'
  | ELoop a l b => exists b', e' = ELoop a l b' /\ all2 (o_stmt V) b b'
  | EWhile a l c b => exists c' b', e' = EWhile a l c' b' /\ o_expr V c c' /\ all2 (o_stmt V) b b'
  | EFor a l p it b => exists it' b', e' = EFor a l p it' b' /\ o_expr V it it' /\ all2 (o_stmt V) b b'
  | EBreak a l x => exists x', e' = EBreak a l x' /\ opt2 (o_expr V) x x'
  | EContinue a l => e' = EContinue a l
  | EReturn a x => exists x', e' = EReturn a x' /\ opt2 (o_expr V) x x'
  | ETry a x => exists x', e' = ETry a x' /\ o_expr V x x'
  | EClosure a ps b => exists b', e' = EClosure a ps b' /\ o_expr V b b'
  | EMacro a m => e' = EMacro a m
  | EMethodCall a r m args =>
      exists r' args', e' = EMethodCall a r' m args' /\ o_expr V r r' /\ all2 (o_expr V) args args'
  | EParen a x => exists x', e' = EParen a x' /\ o_expr V x x'
  | ECall a f args => exists f' args', e' = ECall a f' args' /\ o_expr V f f' /\ all2 (o_expr V) args args'
  | EPath a q p => e' = EPath a q p
  | EOther a k es => exists es', e' = EOther a k es' /\ all2 (o_expr V) es es'
  | EVerbatim s => e' = EVerbatim s
  end.

(** ** Wrapping the branches of the last expression *)

Section Context.
  Variable P : ctx.

  (** [Enum::Variant(e)] *)
  Definition wraps (e e' : expr) : Prop := exists v, e' = wrap (cx_ident P) v e.

  Definition c_arm (x x' : arm) : Prop :=
    if skip_arm P x then x' = x
    else match x with Arm a p g b _ => exists b', x' = Arm a p g b' true /\ wraps b b' end.

  Definition c_block (b b' : list stmt) : Prop :=
    if skip_block P b then b' = b
    else exists e', b' = [SExpr e' false] /\ wraps (EBlock [] None b) e'.

  Fixpoint c_if (e e' : expr) : Prop :=
    match e with
    | EIf a c t els =>
        exists t' els', e' = EIf a c t' els' /\ c_block t t'
          /\ match els with
             | Some (EBlock ea l b) => exists b', els' = Some (EBlock ea l b') /\ c_block b b'
             | Some (EIf _ _ _ _ as e2) => exists e2', els' = Some e2' /\ c_if e2 e2'
             | _ => False
             end
    | _ => e' = e
    end.

  (** [break x] whose value belongs to the loop. *)
  Definition own_break (label : option string) (nested : bool) (l : option string) : bool :=
    (negb nested && match l with None => true | Some _ => false end) || compare_labels label l.

  Fixpoint c_loop (label : option string) (nested : bool) (e e' : expr) : Prop :=
    if any_empty_attr (e_attrs e) NEVER then e' = e
    else match e with
         | EClosure _ _ _ | EBlk KAsync _ _ => e' = e
         | ELoop _ _ _ | EFor _ _ _ _ _ | EWhile _ _ _ _ =>
             match label with
             | None => e' = e
             | Some _ =>
                 t_walk (RVis (c_loop label true) (c_loop_stmt label true)
                              (c_loop_arm label true) (c_loop_local label true)) e e'
             end
         | EBreak a l x =>
             if own_break label nested l then
               match x with
               | None => exists x', e' = EBreak a l (Some x') /\ wraps (EOther [] "Tuple" []) x'
               | Some y =>
                   exists y', c_loop label nested y y'
                   /\ if is_marker_expr P y then e' = EBreak a l (Some y')
                      else exists y2, e' = EBreak a l (Some y2) /\ wraps y' y2
               end
             else exists x', e' = EBreak a l x' /\ opt2 (c_loop label nested) x x'
         | _ => t_walk (RVis (c_loop label nested) (c_loop_stmt label nested)
                             (c_loop_arm label nested) (c_loop_local label nested)) e e'
         end
  with c_loop_stmt (label : option string) (nested : bool) (s s' : stmt) : Prop :=
    t_stmt (c_loop label nested) (c_loop_local label nested) s s'
  with c_loop_arm (label : option string) (nested : bool) (x x' : arm) : Prop :=
    t_arm (c_loop label nested) x x'
  with c_loop_local (label : option string) (nested : bool) (x x' : local) : Prop :=
    t_local (c_loop label nested) x x'.

  Section Last.
    Variable f : expr -> expr -> Prop.
    Fixpoint t_last (b b' : list stmt) : Prop :=
      match b with
      | [] => b' = []
      | s :: r =>
          match r with
          | [] => match s with
                  | SExpr e false => exists e', b' = [SExpr e' false] /\ f e e'
                  | _ => b' = [s]
                  end
          | _ => exists r', b' = s :: r' /\ t_last r r'
          end
      end.
  End Last.

  (** [child_expr] *)
  Fixpoint c_expr (e e' : expr) : Prop :=
    if negb (visit_last P) || is_unreachable P e then e' = e
    else match e with
         | EBlock a l b => exists b', e' = EBlock a l b' /\ t_last c_expr b b'
         | EBlk KUnsafe a b => exists b', e' = EBlk KUnsafe a b' /\ t_last c_expr b b'
         | EMatch a s arms => exists arms', e' = EMatch a s arms' /\ all2 c_arm arms arms'
         | EIf _ _ _ _ => c_if e e'
         | ELoop a l b => exists b', e' = ELoop a l b' /\ all2 (c_loop_stmt l false) b b'
         | EMethodCall a r m args => exists r', e' = EMethodCall a r' m args /\ c_expr r r'
         | EParen a x => exists x', e' = EParen a x' /\ c_expr x x'
         | _ => e' = e
         end.

  (** [child_expr] with the variants it uses. *)
  Definition tails (t : list string) (e e' : expr) : Prop :=
    if visit_last P then tail (cx_ident P) (ctx_marker P) t e e' else t = [] /\ e' = e.
  Definition tails_body (t : list string) (b b' : list stmt) : Prop :=
    if visit_last P then tail_body (cx_ident P) (ctx_marker P) t b b' else t = [] /\ b' = b.

  (** ** Pieces of the visitor *)

  Definition t_return (sc : scope) (e e' : expr) : Prop :=
    if negb (sc_closure sc) && negb (any_empty_attr (e_attrs e) NEVER) then
      match e with
      | EReturn a x =>
          if match x with Some y => is_marker_expr P y | None => false end then e' = e
          else exists x', e' = EReturn a (Some x') /\ wraps (operand x) x'
      | _ => e' = e
      end
    else e' = e.

  Definition t_try (sc : scope) (e e' : expr) : Prop :=
    if negb (sc_try_block sc) && negb (sc_closure sc) && negb (any_empty_attr (e_attrs e) NEVER) then
      match e with
      | ETry a x =>
          if is_marker_expr P x then e' = e
          else exists v, e' = EMatch a x (question_arms (cx_ident P) v)
      | _ => e' = e
      end
    else e' = e.

  Definition t_nested (e e' : expr) (a : attr) : Prop := is_path_only a = true /\ c_expr e e'
    /\ exists n k, tails (from n k) e e'.

  Definition t_marker (e e' : expr) : Prop :=
    match e with
    | EMacro a (Mac p x) =>
        if is_ident p (cx_marker P) then
          exists y v, x = Some y /\ e' = ECall a (EPath [] false (ctor (cx_ident P) v)) [y]
        else e' = e
    | _ => e' = e
    end.
End Context.

(** [find_remove_attrs] *)
Definition t_attrs (sc : scope) (a a' : list attr) : Prop :=
  if sc_foreign sc then a' = a
  else find_remove_attr a' REC = None
       /\ match find_remove_attr a NEVER with
          | Some (x, a1) => is_path_only x = true /\ a' = a1
          | None => a' = a
          end.

Section Engine.
  Variable hash : node -> N.
  Variable ta : bool.

  Record tengine := TEngine {
    q_vexpr : ctx -> scope -> bool -> expr -> expr -> Prop;
    q_vstmt : ctx -> scope -> stmt -> stmt -> Prop;
    q_varm : ctx -> scope -> arm -> arm -> Prop;
    q_vlocal : ctx -> scope -> local -> local -> Prop;
    q_dexpr : ctx -> expr -> expr -> Prop;
    q_dstmt : ctx -> stmt -> stmt -> Prop
  }.

  Definition tv_vis (R : tengine) (sc : scope) (P : ctx) : rvis :=
    RVis (q_vexpr R P sc false) (q_vstmt R P sc) (q_varm R P sc) (q_vlocal R P sc).
  Definition td_vis (R : tengine) (P : ctx) : rvis :=
    RVis (q_dexpr R P) (q_dstmt R P) (t_arm (q_dexpr R P)) (t_local (q_dexpr R P)).

  (** The early exit under [type_analysis]. *)
  Definition early (P : ctx) : Prop :=
    ta = true /\ cx_args P = [] /\ exists c, cx_mode P = VReturn c /\ c < 2.

  Definition t_body (R : tengine) (P : ctx) (e e' : expr) : Prop :=
    exists e1 k, c_expr P e e1 /\ tails P (from 0 k) e e1
      /\ ((early P /\ k = 0 /\ q_dexpr R P e1 e') \/ q_vexpr R P scope0 false e1 e').

  (** The mode for a closure body. *)
  Definition closure_mode (P : ctx) (body : expr) : visit_mode :=
    if (2 <=? fst (visit_fn_expr P body))%nat then VTry else VReturn (snd (visit_fn_expr P body)).

  Definition t_expand (R : tengine) (P : ctx) (e e' : expr) : Prop :=
    match e with
    | EClosure a ps body =>
        if visit_last P then
          exists body', e' = EClosure a ps body' /\ t_body R (set_mode (closure_mode P body) P) body body'
        else t_body R P e e'
    | _ => t_body R P e e'
    end.

  (** The enum that an attribute declares. *)
  Definition t_enum (P : ctx) (n : nat) : genum :=
    enum_of (cx_ident P) (variants n) (cx_args P ++ cx_traits P).

  Definition t_build_expr (P : ctx) (e e' : expr) : Prop :=
    e' = e
    \/ exists n, 2 <= n /\ e' = EBlock [] None [SItem (IEnum (t_enum P n)); SExpr e false].

  Definition semi_ctx (semi : bool) (P : ctx) : ctx := if semi then set_last LNever P else P.

  Definition t_parent_expr (R : tengine) (P : ctx) (e : expr) (semi : bool) (e' : expr) : Prop :=
    if is_dummy P then q_dexpr R (semi_ctx semi P) e e'
    else exists e1, t_expand R (semi_ctx semi P) e e1 /\ t_build_expr (semi_ctx semi P) e1 e'.

  (** The context after the type analysis of a type. *)
  Definition t_collect (P : ctx) (t : option ty) : ctx :=
    match t with
    | Some t0 => if ta then set_traits (fst (collect_impl_trait (cx_args P) (cx_traits P) t0)) P else P
    | None => P
    end.

  (** The type annotation after the type analysis. *)
  Definition t_type (P : ctx) (t : option ty) : option ty :=
    match t with
    | Some t0 => if ta && snd (collect_impl_trait (cx_args P) (cx_traits P) t0) then None else t
    | None => None
    end.

  Definition t_parent_local (R : tengine) (P : ctx) (l l' : local) : Prop :=
    match l with
    | Local a p t i d =>
        let P1 := t_collect P t in
        exists i' d', l' = Local a p (t_type P t) i' d' /\
        if is_dummy P1 then opt2 (q_dexpr R P1) i i' /\ opt2 (q_dexpr R P1) d d'
        else d' = d /\ exists e e1 e', i = Some e /\ i' = Some e' /\ t_expand R P1 e e1 /\ t_build_expr P1 e1 e'
    end.

  (** The mode of a function. *)
  Definition t_fn_mode (P : ctx) (out : option ty) (b : list stmt) : visit_mode :=
    match cx_last P with
    | LNever => cx_mode P
    | LDefault =>
        match out with
        | Some (TImpl _) => VReturn (snd (visit_fn_block P b))
        | Some t => if is_result_impl t && (2 <=? fst (visit_fn_block P b))%nat then VTry else cx_mode P
        | None => cx_mode P
        end
    end.

  Definition fn_ctx (P : ctx) (out : option ty) (b : list stmt) : ctx :=
    t_collect (set_mode (t_fn_mode P out b) P) out.

  Definition t_parent_fn (R : tengine) (P : ctx) (out : option ty) (b b' : list stmt) : Prop :=
    let P1 := fn_ctx P out b in
    if is_dummy P1 then all2 (q_dstmt R P1) b b'
    else b <> [] /\ exists b1 k, t_last (c_expr P1) b b1 /\ tails_body P1 (from 0 k) b b1
         /\ ((early P1 /\ k = 0 /\ all2 (q_dstmt R P1) b1 b')
             \/ exists b2, all2 (q_vstmt R P1 scope0) b1 b2
                /\ (b' = b2 \/ exists n, 2 <= n /\ b' = SItem (IEnum (t_enum P1 n)) :: b2)).

  Definition t_parent_stmt (R : tengine) (P : ctx) (s s' : stmt) : Prop :=
    match s with
    | SExpr e semi => exists e', s' = SExpr e' semi /\ t_parent_expr R P e semi e'
    | SLocal l => exists l', s' = SLocal l' /\ t_parent_local R P l l'
    | SItem (IFn a sg out b) => exists b', s' = SItem (IFn a sg out b') /\ t_parent_fn R P out b b'
    | SItem _ => False
    | SMacro _ _ _ => s' = s
    end.

  (** The context of a nested attribute. *)
  Definition nested_ctx (P : ctx) (ident : string) (toks : list token) (C : ctx) : Prop :=
    ctx_new ident toks false (cx_markers P) [] = inr C.

  Definition t_vs_expr (R : tengine) (V : ctx -> rvis) (P : ctx) (e : expr) (semi : bool) (e' : expr) : Prop :=
    match find_remove_attr (e_attrs e) NAME with
    | None => t_walk (V P) e e'
    | Some (at_, a') =>
        let e0 := set_attrs e a' in
        exists p toks C e1, at_ = MList p toks
          /\ nested_ctx P (enum_name (hash (NExpr e0))) toks C
          /\ t_walk (V (set_markers [] P)) e0 e1
          /\ t_parent_expr R C e1 semi e'
    end.

  Definition t_vs_stmt (R : tengine) (V : ctx -> rvis) (P : ctx) (s s' : stmt) : Prop :=
    match s with
    | SExpr e semi => exists e', s' = SExpr e' semi /\ t_vs_expr R V P e semi e'
    | SItem _ => s' = s
    | SMacro _ _ _ => s' = s
    | SLocal (Local a p t i d) =>
        match find_remove_attr a NAME with
        | None => exists l', s' = SLocal l' /\ o_local (V P) (Local a p t i d) l'
        | Some (at_, a') =>
            let l0 := Local a' p t i d in
            exists toks C l1 l', (match at_ with MPath _ => toks = [] | MList _ ts => toks = ts
                                    | MNameValue _ _ => False end)
              /\ nested_ctx P (enum_name (hash (NStmt (SLocal l0)))) toks C
              /\ o_local (V (set_markers [] P)) l0 l1
              /\ s' = SLocal l' /\ t_parent_local R C l1 l'
        end
    end.

  Definition t_visit_expr (R : tengine) (P : ctx) (sc : scope) (semi : bool) (e e' : expr) : Prop :=
    let sc1 := check_expr (scope_below sc (e_attrs e)) e in
    exists e1 e2 e3,
      match cx_mode P with
      | VReturn _ => t_return P sc1 e e1
      | VTry => t_try P sc1 e e1
      | VDefault => e1 = e
      end
      /\ (if sc_foreign sc1 then e2 = e1
          else match find_remove_attr (e_attrs e1) NESTED with
               | Some (at_, a') => t_nested P (set_attrs e1 a') e2 at_
               | None => e2 = e1
               end)
      /\ t_vs_expr R (tv_vis R sc1) P e2 semi e3
      /\ if negb (sc_foreign sc1) || negb (cx_marker P =? DEFAULT_MARKER) then
           exists e4 a', t_marker P e3 e4 /\ t_attrs sc1 (e_attrs e4) a' /\ e' = set_attrs e4 a'
         else e' = e3.

  Definition t_visit_arm (R : tengine) (P : ctx) (sc : scope) (x x' : arm) : Prop :=
    match x with
    | Arm a p g b c =>
        exists a1 b1 g2 b2 a2,
          (if sc_foreign sc then a1 = a /\ b1 = b
           else match find_remove_attr a NESTED with
                | Some (at_, a') => a1 = a' /\ t_nested P b b1 at_
                | None => a1 = a /\ b1 = b
                end)
          /\ opt2 (q_vexpr R P sc false) g g2 /\ q_vexpr R P sc false b1 b2
          /\ t_attrs sc a1 a2 /\ x' = Arm a2 p g2 b2 c
    end.

  Definition t_visit_local (R : tengine) (P : ctx) (sc : scope) (x x' : local) : Prop :=
    match x with
    | Local a p t i d =>
        exists a1 i1 i2 d2 a2,
          (if sc_foreign sc then a1 = a /\ i1 = i
           else match find_remove_attr a NESTED with
                | Some (at_, a') => a1 = a' /\ opt2 (fun e e' => t_nested P e e' at_) i i1
                | None => a1 = a /\ i1 = i
                end)
          /\ opt2 (q_vexpr R P sc false) i1 i2 /\ opt2 (q_vexpr R P sc false) d d2
          /\ t_attrs sc a1 a2 /\ x' = Local a2 p t i2 d2
    end.

  Definition t_visit_stmt (R : tengine) (P : ctx) (sc : scope) (s s' : stmt) : Prop :=
    match s with
    | SExpr e semi => exists e', s' = SExpr e' semi /\ q_vexpr R P sc semi e e'
    | _ => t_vs_stmt R (tv_vis R (scope_below sc (s_attrs s))) P s s'
    end.

  Definition t_step (R : tengine) : tengine :=
    TEngine (t_visit_expr R) (t_visit_stmt R) (t_visit_arm R) (t_visit_local R)
            (fun P e e' => t_vs_expr R (td_vis R) P e false e')
            (fun P s s' => t_vs_stmt R (td_vis R) P s s').

  Fixpoint tengine_n (n : nat) : tengine :=
    match n with
    | O => TEngine (fun _ _ _ _ _ => False) (fun _ _ _ _ => False) (fun _ _ _ _ => False)
                   (fun _ _ _ _ => False) (fun _ _ _ => False) (fun _ _ _ => False)
    | S k => t_step (tengine_n k)
    end.

  (** The annotated code. *)
  Definition t_input (R : tengine) (P : ctx) (i i' : input) : Prop :=
    match i with
    | InStmt s => exists s', i' = InStmt s' /\ t_parent_stmt R P s s'
    | InExpr e => exists e', i' = InExpr e' /\ t_parent_expr R P e false e'
    | InBad => False
    end.
End Engine.
