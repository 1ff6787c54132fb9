(** Specification: the meaning of programs.

    An evaluator for the syntax of Syntax.v.  What the language itself does (blocks, branches, loops,
    [break], [continue], [return], [?], patterns of [Ok], [Err], [Some], closures, calls) is computed;
    everything else (literals, arithmetic, fields, methods, other macros and patterns, global names,
    iterators) is an operation of the record [ops], about which theorems assume nothing but that
    it does not look at the wrapper of a generated enum.  Attributes, types and items have no effect. *)

Require Import Coq.Strings.String Coq.Lists.List Coq.Bool.Bool.
Require Import Verif.Syntax Verif.Edits.
Import ListNotations.
Open Scope string_scope.
Open Scope list_scope.

(** ** Values *)

Inductive value :=
| VUnit
| VBool (b : bool)
| VNone
(* [Ok(x)], [Err(x)], [Some(x)] *)
| VCon (c : string) (x : value)
(* the functions [Ok], [Err], [Some] *)
| VConF (c : string)
(* a variant of a generated enum *)
| VWrap (i v : string) (x : value)
(* the constructor of a variant *)
| VWrapF (i v : string)
(* a closure or an async block, with its variables; [true] marks the address of a variable *)
| VClos (ps : list pat) (body : expr) (env : list (string * (bool * value)))
(* the result of [let p = e] in a condition: the variables if it matched *)
| VLet (bs : option (list (string * (bool * value))))
(* anything else *)
| VOp (s : string) (l : list value).

(** Variables. *)
Definition env := list (string * (bool * value)).

Fixpoint lookup (x : string) (l : env) : option (bool * value) :=
  match l with
  | [] => None
  | (y, b) :: r => if x =? y then Some b else lookup x r
  end.

(** The value inside all wrappers. *)
Fixpoint peel (x : value) : value :=
  match x with VWrap _ _ y => peel y | _ => x end.

(** How an expression ends. *)
Inductive out :=
| ONorm (x : value)
| OBreak (l : option string) (x : value)
| OCont (l : option string)
| ORet (x : value)
| OPanic
(* the bound on loop iterations and calls was reached *)
| OFuel
(* the program does something that is not allowed, e.g. a condition that is not a boolean *)
| OStuck.

(** ** Names with a fixed meaning *)

Definition ids_eqb (l l' : list string) : bool := if list_eq_dec string_dec l l' then true else false.

(** The path is the name alone or written in full from [std] or [core]. *)
Definition named (p : path) (modules : list string) (name : string) : bool :=
  ids_eqb (path_ids p) [name]
  || ids_eqb (path_ids p) ("std" :: modules ++ [name])
  || ids_eqb (path_ids p) ("core" :: modules ++ [name]).

Definition con_of (p : path) : option string :=
  if named p ["result"; "Result"] "Ok" then Some "Ok"
  else if named p ["result"; "Result"] "Err" then Some "Err"
  else if named p ["option"; "Option"] "Some" then Some "Some"
  else None.
Definition none_of (p : path) : bool := named p ["option"; "Option"] "None".
Definition panic_of (p : path) : bool := named p [] "panic" || named p [] "unreachable".
(** The variants of generated enums. *)
Definition variant_of (p : path) : option (string * string) :=
  match path_ids p with
  | [i; v] => if gen_name i then Some (i, v) else None
  | _ => None
  end.
Definition var_of (p : path) : option string :=
  match path_ids p with [x] => Some x | _ => None end.

(** ** Operations *)

Section World.
  (** Everything outside the variables. *)
  Variable W : Type.

  (** What an operation does: it may call closures. *)
  Inductive act :=
  | ADone (x : value) (w : W)
  | APanic (w : W)
  | AStuck
  | ACall (f : value) (args : list value) (w : W) (k : value -> W -> act).

  (** Results of matching a pattern. *)
  Inductive pres := PYes (bs : env) | PNo | PStuck.

  Record ops := Ops {
    (* a path that is not a variable; [true] = as a place *)
    o_global : bool -> bool -> path -> W -> value;
    (* reading a variable known by its address *)
    o_use : value -> W -> value;
    (* [let x;] *)
    o_decl : W -> value * W;
    (* a call of something that is not a closure of the program *)
    o_call : value -> list value -> W -> act;
    o_method : string -> list value -> W -> act;
    (* other expressions: which operands are places, whether another operand is evaluated after these
       ([&&], [||]), and the result *)
    o_mode : string -> nat -> bool;
    o_more : string -> list value -> W -> bool;
    o_other : string -> bool -> list value -> W -> act;
    o_macro : path -> option expr -> env -> W -> act;
    o_verbatim : string -> env -> W -> act;
    (* other patterns *)
    o_pat : string -> value -> W -> pres * W;
    o_fields : path -> value -> W -> option (list value);
    (* [for] *)
    o_iter : value -> W -> act;
    o_next : value -> W -> act
  }.

  Definition result := (out * W)%type.

  (** Continue with the value, or end in the same way. *)
  Definition bnd (r : result) (f : value -> W -> result) : result :=
    match r with
    | (ONorm x, w) => f x w
    | _ => r
    end.

  (** The end of a function body. *)
  Definition finish (r : result) : result :=
    match r with
    | (ORet x, w) => (ONorm x, w)
    | (OBreak _ _, w) | (OCont _, w) => (OStuck, w)
    | _ => r
    end.

  (** The unlabelled exit or the one with the loop's label. *)
  Definition catches (own l : option string) : bool :=
    match l with
    | None => true
    | Some x => match own with Some y => x =? y | None => false end
    end.

  (** A loop with at most [k] iterations. *)
  Fixpoint iterate (k : nat) (own : option string) (body : W -> result) (w : W) : result :=
    match k with
    | 0 => (OFuel, w)
    | S k' =>
        match body w with
        | (ONorm _, w1) => iterate k' own body w1
        | (OCont l, w1) => if catches own l then iterate k' own body w1 else (OCont l, w1)
        | (OBreak l x, w1) => if catches own l then (ONorm x, w1) else (OBreak l x, w1)
        | r => r
        end
    end.

  (** A block with a label. *)
  Definition labelled (own : option string) (r : result) : result :=
    match own, r with
    | Some y, (OBreak (Some x) v, w) => if x =? y then (ONorm v, w) else r
    | _, _ => r
    end.

  (** A statement: its variables and its value, or another end. *)
  Inductive sres := SGo (bs : env) (x : value) (w : W) | SOut (o : out) (w : W).
  (** An arm: taken or not. *)
  Inductive ares := ATake (r : result) | ANext (w : W).

  Section Ops.
    Variable O : ops.

    Section Matches.
      Variable f : pat -> value -> W -> pres * W.
      Fixpoint pmatches (ps : list pat) (xs : list value) (w : W) : pres * W :=
        match ps, xs with
        | [], [] => (PYes [], w)
        | p :: ps, x :: xs =>
            match f p x w with
            | (PYes bs, w1) =>
                match pmatches ps xs w1 with
                | (PYes bs', w2) => (PYes (bs' ++ bs), w2)
                | r => r
                end
            | r => r
            end
        | _, _ => (PStuck, w)
        end.
    End Matches.

    (** Patterns. *)
    Fixpoint pmatch (p : pat) (x : value) (w : W) : pres * W :=
      match p with
      | PWild => (PYes [], w)
      | PBind y => (PYes [(y, (false, x))], w)
      | PCtor q ps =>
          match con_of q with
          | Some c =>
              match x with
              | VCon d y => if c =? d then pmatches pmatch ps [y] w else (PNo, w)
              | VNone => (PNo, w)
              | _ => (PStuck, w)
              end
          | None =>
              match o_fields O q x w with
              | Some ys => pmatches pmatch ps ys w
              | None => (PNo, w)
              end
          end
      | POther s => o_pat O s x w
      end.

    (** Conditions. *)
    Definition cond (x : value) : pres :=
      match x with
      | VBool true => PYes []
      | VBool false => PNo
      | VLet (Some bs) => PYes bs
      | VLet None => PNo
      | _ => PStuck
      end.

    Section Level.
      (** The names of marker macros; bound on the iterations of a loop; calls of functions. *)
      Variable mk : string -> bool.
      Variable k : nat.
      Variable self : expr -> env -> W -> result.

      Definition is_marker (p : path) : bool :=
        match p with Path false [Seg i ANone] => mk i | _ => false end.

      Definition is_fn (f : value) : bool :=
        match peel f with VClos _ _ _ | VConF _ | VWrapF _ _ => true | _ => false end.
      Definition apply_fn (f : value) (args : list value) (w : W) : result :=
        match peel f with
        | VClos ps b en =>
            match pmatches pmatch ps args w with
            | (PYes bs, w1) => finish (self b (bs ++ en) w1)
            | (_, w1) => (OStuck, w1)
            end
        | VConF c => match args with [x] => (ONorm (VCon c x), w) | _ => (OStuck, w) end
        | VWrapF i v => match args with [x] => (ONorm (VWrap i v x), w) | _ => (OStuck, w) end
        | _ => (OStuck, w)
        end.

      Fixpoint run_act (w0 : W) (a : act) : result :=
        match a with
        | ADone x w => (ONorm x, w)
        | APanic w => (OPanic, w)
        | AStuck => (OStuck, w0)
        | ACall f args w f' =>
            match apply_fn f args w with
            | (ONorm x, w1) => run_act w1 (f' x w1)
            | r => r
            end
        end.
      Definition act_in (w : W) (a : act) : result := run_act w a.

      Section Lists.
        Variable ev : bool -> expr -> env -> W -> result.
        Variable ev_stmt : bool -> stmt -> env -> W -> sres.
        Variable ev_arm : value -> arm -> env -> W -> ares.

        (** Operands, from left to right, as long as [more]; [got] are the values so far. *)
        Fixpoint ev_list (mode : nat -> bool) (more : list value -> W -> bool) (es : list expr) (got : list value)
            (en : env) (w : W) (f : list value -> W -> result) : result :=
          match es with
          | [] => f got w
          | e :: r =>
              if more got w then
                bnd (ev (mode (length got)) e en w) (fun x w1 => ev_list mode more r (got ++ [x]) en w1 f)
              else f got w
          end.

        Fixpoint ev_stmts (pl : bool) (b : list stmt) (en : env) (w : W) : result :=
          match b with
          | [] => (ONorm VUnit, w)
          | s :: r =>
              match ev_stmt (pl && match r with [] => true | _ => false end) s en w with
              | SGo bs x w1 =>
                  match r with
                  | [] => (ONorm x, w1)
                  | _ => ev_stmts pl r (bs ++ en) w1
                  end
              | SOut o w1 => (o, w1)
              end
          end.

        Fixpoint ev_arms (x : value) (arms : list arm) (en : env) (w : W) : result :=
          match arms with
          | [] => (OStuck, w)
          | a :: r =>
              match ev_arm x a en w with
              | ATake res => res
              | ANext w1 => ev_arms x r en w1
              end
          end.
      End Lists.

      Definition as_stmt (bs : env) (f : value -> value) (r : result) : sres :=
        match r with
        | (ONorm x, w) => SGo bs (f x) w
        | (o, w) => SOut o w
        end.

      (** All operands are values and all are evaluated. *)
      Definition values : nat -> bool := fun _ => false.
      Definition all : list value -> W -> bool := fun _ _ => true.

      (** Expressions; [pl]: as a place. *)
      Fixpoint ev (pl : bool) (e : expr) (en : env) (w : W) {struct e} : result :=
        match e with
        | EBlock _ l b => labelled l (ev_stmts ev_stmt pl b en w)
        | EBlk KUnsafe _ b | EBlk KConst _ b => ev_stmts ev_stmt pl b en w
        | EBlk KAsync _ b => (ONorm (VClos [] (EBlock [] None b) en), w)
        | EBlk KTry _ _ => (OStuck, w)
        | EMatch _ s arms => bnd (ev false s en w) (fun x w1 => ev_arms ev_arm x arms en w1)
        | EIf _ c t els =>
            bnd (ev false c en w) (fun x w1 =>
              match cond x with
              | PYes bs => ev_stmts ev_stmt false t (bs ++ en) w1
              | PNo => match els with Some e2 => ev false e2 en w1 | None => (ONorm VUnit, w1) end
              | PStuck => (OStuck, w1)
              end)
        | ELet _ p x =>
            bnd (ev false x en w) (fun v w1 =>
              match pmatch p v w1 with
              | (PYes bs, w2) => (ONorm (VLet (Some bs)), w2)
              | (PNo, w2) => (ONorm (VLet None), w2)
              | (PStuck, w2) => (OStuck, w2)
              end)
        | ELoop _ l b => iterate k l (fun w1 => ev_stmts ev_stmt false b en w1) w
        | EWhile _ l c b =>
            iterate k l (fun w1 => bnd (ev false c en w1) (fun x w2 =>
              match cond x with
              | PYes bs => ev_stmts ev_stmt false b (bs ++ en) w2
              | PNo => (OBreak None VUnit, w2)
              | PStuck => (OStuck, w2)
              end)) w
        | EFor _ l p it b =>
            bnd (ev false it en w) (fun x w1 => bnd (act_in w1 (o_iter O x w1)) (fun i w2 =>
              iterate k l (fun w3 => bnd (act_in w3 (o_next O i w3)) (fun y w4 =>
                match y with
                | VCon _ z =>
                    match pmatch p z w4 with
                    | (PYes bs, w5) => ev_stmts ev_stmt false b (bs ++ en) w5
                    | (_, w5) => (OStuck, w5)
                    end
                | VNone => (OBreak None VUnit, w4)
                | _ => (OStuck, w4)
                end)) w2))
        | EBreak _ l o =>
            match o with
            | Some x => bnd (ev false x en w) (fun v w1 => (OBreak l v, w1))
            | None => (OBreak l VUnit, w)
            end
        | EContinue _ l => (OCont l, w)
        | EReturn _ o =>
            match o with
            | Some x => bnd (ev false x en w) (fun v w1 => (ORet v, w1))
            | None => (ORet VUnit, w)
            end
        | ETry _ x =>
            bnd (ev false x en w) (fun v w1 =>
              match v with
              | VCon c y => if c =? "Err" then (ORet v, w1) else (ONorm y, w1)
              | VNone => (ORet VNone, w1)
              | _ => (OStuck, w1)
              end)
        | EClosure _ ps b => (ONorm (VClos ps b en), w)
        | EMacro _ (Mac p o) =>
            if is_marker p then match o with Some x => ev false x en w | None => (OStuck, w) end
            else if panic_of p then (OPanic, w)
            else act_in w (o_macro O p o en w)
        | EMethodCall _ r m args =>
            bnd (ev true r en w) (fun x w1 =>
              ev_list ev values all args [] en w1 (fun xs w2 => act_in w2 (o_method O m (x :: xs) w2)))
        | EParen _ x => ev pl x en w
        | ECall _ f args =>
            bnd (ev false f en w) (fun x w1 =>
              ev_list ev values all args [] en w1 (fun xs w2 =>
                if is_fn x then apply_fn x xs w2 else act_in w2 (o_call O x xs w2)))
        | EPath _ q p =>
            match con_of p with
            | Some c => (ONorm (VConF c), w)
            | None =>
                if none_of p then (ONorm VNone, w)
                else match variant_of p with
                     | Some (i, v) => (ONorm (VWrapF i v), w)
                     | None =>
                         match (match var_of p with Some x => lookup x en | None => None end) with
                         | Some (true, x) => (ONorm (if pl then x else o_use O x w), w)
                         | Some (false, x) => (ONorm x, w)
                         | None => (ONorm (o_global O pl q p w), w)
                         end
                     end
            end
        | EOther _ kind es =>
            match es with
            | [] => if kind =? "Tuple" then (ONorm VUnit, w) else act_in w (o_other O kind pl [] w)
            | _ => ev_list ev (o_mode O kind) (o_more O kind) es [] en w
                     (fun xs w1 => act_in w1 (o_other O kind pl xs w1))
            end
        | EVerbatim s => act_in w (o_verbatim O s en w)
        end
      (** Statements. *)
      with ev_stmt (pl : bool) (s : stmt) (en : env) (w : W) {struct s} : sres :=
        match s with
        | SLocal l => ev_local l en w
        | SItem _ => SGo [] VUnit w
        | SExpr e semi => as_stmt [] (fun x => if semi then VUnit else x) (ev (pl && negb semi) e en w)
        | SMacro _ (Mac p o) semi =>
            as_stmt [] (fun x => if semi then VUnit else x)
              (if is_marker p then match o with Some x => ev false x en w | None => (OStuck, w) end
               else if panic_of p then (OPanic, w)
               else act_in w (o_macro O p o en w))
        end
      (** [let] statements. *)
      with ev_local (l : local) (en : env) (w : W) {struct l} : sres :=
        match l with
        | Local _ p _ (Some x) d =>
            match ev false x en w with
            | (ONorm v, w1) =>
                match pmatch p v w1 with
                | (PYes bs, w2) => SGo bs VUnit w2
                | (PNo, w2) =>
                    match d with
                    | Some y => match ev false y en w2 with (ONorm _, w3) => SOut OStuck w3 | (o, w3) => SOut o w3 end
                    | None => SOut OStuck w2
                    end
                | (PStuck, w2) => SOut OStuck w2
                end
            | (o, w1) => SOut o w1
            end
        | Local _ p _ None _ =>
            match o_decl O w with
            | (v, w1) =>
                match p with
                | PBind x => SGo [(x, (true, v))] VUnit w1
                | _ => SOut OStuck w1
                end
            end
        end
      (** Arms of a [match] on the value [x]. *)
      with ev_arm (x : value) (a : arm) (en : env) (w : W) {struct a} : ares :=
        match a with
        | Arm _ p g b _ =>
            match pmatch p x w with
            | (PYes bs, w1) =>
                match g with
                | None => ATake (ev false b (bs ++ en) w1)
                | Some c =>
                    match ev false c (bs ++ en) w1 with
                    | (ONorm y, w2) =>
                        match cond y with
                        | PYes bs' => ATake (ev false b (bs' ++ bs ++ en) w2)
                        | PNo => ANext w2
                        | PStuck => ATake (OStuck, w2)
                        end
                    | r => ATake r
                    end
                end
            | (PNo, w1) => ANext w1
            | (PStuck, w1) => ATake (OStuck, w1)
            end
        end.
    End Level.

    (** Evaluation with at most [n] calls inside each other and at most [n] iterations of each loop. *)
    Fixpoint eval (mk : string -> bool) (n : nat) (e : expr) (en : env) (w : W) : result :=
      ev mk n (match n with 0 => fun _ _ w1 => (OFuel, w1) | S n' => eval mk n' end) false e en w.
    (** The calls made at level [n]. *)
    Definition calls (mk : string -> bool) (n : nat) : expr -> env -> W -> result :=
      match n with 0 => fun _ _ w1 => (OFuel, w1) | S n' => eval mk n' end.
    Definition eval_stmt (mk : string -> bool) (n : nat) : stmt -> env -> W -> sres :=
      ev_stmt mk n (calls mk n) false.
    Definition eval_block (mk : string -> bool) (n : nat) : list stmt -> env -> W -> result :=
      ev_stmts (ev_stmt mk n (calls mk n)) false.

    (** The annotated code: an expression or statement is run with the variables [en]; a function is called,
        [en] being its parameters. *)
    Definition run_input (mk : string -> bool) (n : nat) (i : input) (en : env) (w : W) : sres :=
      match i with
      | InExpr e => as_stmt [] (fun x => x) (eval mk n e en w)
      | InStmt (SItem (IFn _ _ _ b)) => as_stmt [] (fun x => x) (finish (eval_block mk n b en w))
      | InStmt s => eval_stmt mk n s en w
      | InBad => SOut OStuck w
      end.
  End Ops.
End World.
