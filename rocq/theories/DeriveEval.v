(** What the methods generated by [#[enum_derive]] do when they are called.

    Rust's meaning of the generated [match] (this is not in /repo; the generated code it interprets is
    built by /repo/src/derive/**, cited in Derive.v).  The values held by the enum, their
    implementations of the traits, the arguments and the results are arbitrary: they are a parameter
    ([inner]).  An enum that is called through a reference lives at an address, and its field lives in
    it; a call on the field may depend on that address and on whether the reference is pinned, and every
    such access is recorded. *)

Require Import Coq.Strings.String Coq.Lists.List Coq.Bool.Bool Coq.Arith.Arith.
Require Import Verif.Derive Verif.EnumDerive.
Import ListNotations.
Open Scope string_scope.
Open Scope list_scope.

Section Values.
  (** Opaque data of user code. *)
  Context {V : Type}.

  (** Values.  [VRef a] refers to the enum at address [a], [VField a] to the field inside it,
      [VPin] is [::core::pin::Pin] around a reference (/repo/src/derive/core/future.rs:22,28).
      [VEnum e v x] is [e::v(x)]. *)
  Inductive val :=
  | VData (v : V)
  | VRef (a : nat)
  | VField (a : nat)
  | VPin (x : val)
  | VEnum (e v : string) (x : val)
  | VNone
  | VSome (x : val)
  | VOk (x : val)
  | VErr (x : val).

  (** Memory: what lives at an address. *)
  Definition memory := nat -> option val.

  (** Writing to memory. *)
  Definition write (h : memory) (a : nat) (x : val) : memory :=
    fun b => if (b =? a)%nat then Some x else h b.

  (** How a field is reached by a call: by a plain reference, by a pinned reference, or moved out. *)
  Inductive access := ByRef (a : nat) | ByPin (a : nat) | ByMove.

  (** The trait implementations of the field types: the result of calling method [m] of trait [tr] for
      type [t], and the state the field is left in (irrelevant after a move).  Any function. *)
  Definition inner := toks -> trait_ref -> string -> access -> val -> list val -> val * val.

  (** ** Evaluation *)

  (** The state of a run: memory and the accesses to fields so far, in order. *)
  Record world := World { w_mem : memory; w_log : list access }.

  (** The arguments of a call in an arm, looked up by parameter name. *)
  Fixpoint lookups (env : list (string * val)) (l : list string) : option (list val) :=
    match l with
    | [] => Some []
    | s :: r =>
        match find (fun x => fst x =? s) env, lookups env r with
        | Some x, Some xs => Some (snd x :: xs)
        | _, _ => None
        end
    end.

  (** [<t as tr>::m(self, args)] where [self] evaluated to the given value. *)
  Definition call_inner (I : inner) (w : world) (t : toks) (tr : trait_ref) (m : string)
      (self : val) (args : list val) : option (val * world) :=
    let through (acc : access) (a : nat) :=
      match w_mem w a with
      | Some (VEnum e v p) =>
          let r := I t tr m acc p args in
          Some (fst r, World (write (w_mem w) a (VEnum e v (snd r))) (w_log w ++ [acc]))
      | _ => None
      end in
    match self with
    | VField a => through (ByRef a) a
    | VPin (VField a) => through (ByPin a) a
    | VRef _ | VPin _ => None
    | p => Some (fst (I t tr m ByMove p args), World (w_mem w) (w_log w ++ [ByMove]))
    end.

  (** [b.map(e::v)]. *)
  Definition map_val (e v : string) (x : val) : option val :=
    match x with
    | VNone => Some VNone
    | VSome y => Some (VSome (VEnum e v y))
    | VOk y => Some (VOk (VEnum e v y))
    | VErr y => Some (VErr y)
    | _ => None
    end.

  (** [b.map_err(e::v)]. *)
  Definition map_err_val (e v : string) (x : val) : option val :=
    match x with
    | VOk y => Some (VOk y)
    | VErr y => Some (VErr (VEnum e v y))
    | _ => None
    end.

  (** The right side of an arm; [x] is the value its pattern bound. *)
  Fixpoint eval_body (I : inner) (env : list (string * val)) (x : val) (b : body) (w : world)
      : option (val * world) :=
    match b with
    | BX => Some (x, w)
    | BPin b =>
        match eval_body I env x b w with
        | Some (y, w') => Some (VPin y, w')
        | None => None
        end
    | BCall t tr m b args =>
        match eval_body I env x b w, lookups env args with
        | Some (y, w'), Some l => call_inner I w' t tr m y l
        | _, _ => None
        end
    | BSome b =>
        match eval_body I env x b w with
        | Some (y, w') => Some (VSome y, w')
        | None => None
        end
    | BMap b e v =>
        match eval_body I env x b w with
        | Some (y, w') =>
            match map_val e v y with Some z => Some (z, w') | None => None end
        | None => None
        end
    | BMapErr b e v =>
        match eval_body I env x b w with
        | Some (y, w') =>
            match map_err_val e v y with Some z => Some (z, w') | None => None end
        | None => None
        end
    end.

  (** The match: the variant of the value matched on, and what [x] is bound to: a reference to the
      field when matching through a reference, the field itself when matching a value. *)
  Definition scrutinee (w : world) (s : scrut) (self : val) : option (string * string * val) :=
    let at_ (a : nat) :=
      match w_mem w a with
      | Some (VEnum e v _) => Some (e, v, VField a)
      | _ => None
      end in
    match s, self with
    | SSelf, VRef a => at_ a
    | SSelf, VEnum e v p => Some (e, v, p)
    | SPinned, VPin (VRef a) => at_ a
    | _, _ => None
    end.

  (** The receiver has the form the method asks for. *)
  Definition receives (r : recv) (self : val) : bool :=
    match r, self with
    | RRef, VRef _ | RMut, VRef _ | ROwn, VEnum _ _ _ | RPin, VPin (VRef _) => true
    | _, _ => false
    end.

  (** A call of a generated method; [None] means that the call is ill typed or no arm matches. *)
  Definition call_method (I : inner) (m : gmethod) (self : val) (args : list val) (w : world)
      : option (val * world) :=
    if receives (gm_recv m) self && (length args =? length (gm_params m))%nat then
      match scrutinee w (gm_scrut m) self with
      | Some (e, v, x) =>
          match find (fun a => (ma_enum a =? e) && (ma_variant a =? v)) (gm_arms m) with
          | Some a => eval_body I (combine (gm_params m) args) x (ma_body a) w
          | None => None
          end
      | None => None
      end
    else None.

End Values.
Arguments val : clear implicits.
Arguments memory : clear implicits.
Arguments inner : clear implicits.
Arguments world : clear implicits.

(** ** Finding the method *)

(** The trait references are the same. *)
Definition tref_eqb (a b : trait_ref) : bool :=
  (tr_path a =? tr_path b) && toks_eqb (tr_args a) (tr_args b).

(** The impl blocks of an output. *)
Definition impls_of (o : doutput) : list gimpl :=
  flat_map (fun i => match i with GImpl g => [g] | GMustNotDrop _ _ _ => [] end) (do_items o).

(** The methods that an output implements for a trait. *)
Definition trait_methods (o : doutput) (tr : trait_ref) : list gmethod :=
  flat_map (fun g => match gi_trait g with
                     | Some t => if tref_eqb t tr then gi_methods g else []
                     | None => []
                     end) (impls_of o).

(** Method [m] of trait [tr], as implemented by an output. *)
Definition find_method (o : doutput) (tr : trait_ref) (m : string) : option gmethod :=
  find (fun g => gm_name g =? m) (trait_methods o tr).
