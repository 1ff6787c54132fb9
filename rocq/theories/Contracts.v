(** Specification: iterator contracts, error chains and transposition, in terms of what callers observe. *)

Require Import Coq.Strings.String Coq.Lists.List Coq.Bool.Bool Coq.Arith.Arith.
Require Import Verif.Syntax Verif.Context Verif.Derive Verif.EnumDerive Verif.DeriveEval Verif.DeriveSpec.
Import ListNotations.
Open Scope string_scope.
Open Scope list_scope.

Section Contracts.
  Context {V : Type}.
  Local Notation val := (val V).
  Local Notation call := (call V).

  (** What a value answers to a history of calls; [None] if some call is not possible. *)
  Definition observer := list call -> option (list val).

  (** A value of type [t] in state [p], at address [a]. *)
  Definition of_value (I : inner V) (t : toks) (a : nat) (p : val) : observer :=
    fun cs => Some (fst (direct I t a p cs)).

  (** The enum at address [a]. *)
  Definition of_enum (I : inner V) (o : doutput) (a : nat) (w : world V) : observer :=
    fun cs => option_map fst (through_enum I o a cs w).

  (** The answer to call [c] after the history [cs]. *)
  Definition answer (f : observer) (cs : list call) (c : call) : option val :=
    match f (cs ++ [c]) with
    | Some l => nth_error l (length cs)
    | None => None
    end.

  (** The calls of iterators. *)
  Definition next : call := Call (TRef "::core::iter::Iterator" []) "next" false [].
  Definition size_hint : call := Call (TRef "::core::iter::Iterator" []) "size_hint" false [].
  Definition next_back : call := Call (TRef "::core::iter::DoubleEndedIterator" []) "next_back" false [].
  Definition len : call := Call (TRef "::core::iter::ExactSizeIterator" []) "len" false [].

  (** The calls that occur in histories. *)
  Context (ok : call -> Prop).

  (** The contract of [FusedIterator]: after [None], only [None]. *)
  Definition fused (f : observer) : Prop :=
    forall cs cs', Forall ok cs -> Forall ok cs' ->
      answer f cs next = Some VNone -> answer f (cs ++ next :: cs') next = Some VNone.

  (** [hint n] is the pair [(n, Some(n))] and [num n] the number [n]. *)
  Context (hint num : nat -> val).

  (** The contract of [TrustedLen], and of [ExactSizeIterator] for [size_hint]: at any time [size_hint] tells
      how many items are left. *)
  Definition exact (f : observer) : Prop :=
    forall cs, Forall ok cs -> exists n, answer f cs size_hint = Some (hint n)
      /\ (forall k, k < n -> exists x, answer f (cs ++ repeat next k) next = Some (VSome x))
      /\ answer f (cs ++ repeat next n) next = Some VNone.

  (** [len] is the number that [size_hint] tells. *)
  Definition len_agrees (f : observer) : Prop :=
    forall cs, Forall ok cs -> exists n, answer f cs size_hint = Some (hint n) /\ answer f cs len = Some (num n).

  (** Taking items from the two ends of a list: [true] takes from the back. *)
  Fixpoint from_ends (l : list val) (bs : list bool) : list val :=
    match bs with
    | [] => []
    | b :: r =>
        match (if b then rev l else l) with
        | [] => VNone :: from_ends [] r
        | x :: l' => VSome x :: from_ends (if b then rev l' else l') r
        end
    end.

  (** The contract of [DoubleEndedIterator]: at any time there is a sequence of items of which [next] and
      [next_back] take from the front and from the back, in any order of calls. *)
  Definition both_ends (f : observer) : Prop :=
    forall cs, Forall ok cs -> exists l, forall bs, exists before,
      length before = length cs
      /\ f (cs ++ map (fun b : bool => if b then next_back else next) bs) = Some (before ++ from_ends l bs).

End Contracts.

(** The calls that are forwarded: all that the output implements, except [Error::source]. *)
Definition forwarded {V} (o : doutput) (c : call V) : Prop :=
  implemented o c /\ ~ is_source (c_trait c) (c_method c).

(** ** Error chains *)

Section Errors.
  Context {V : Type}.
  Local Notation val := (val V).

  (** The value that a reference points to. *)
  Definition pointee (w : world V) (x : val) : option val :=
    match x with
    | VField a => match w_mem w a with Some (VEnum _ _ p) => Some p | _ => None end
    | VRef a => w_mem w a
    | y => Some y
    end.

  (** Following [source] from a value, [n] times; [src] tells the source of each value. *)
  Fixpoint follow (src : val -> option val) (n : nat) (x : val) : option val :=
    match n with
    | O => Some x
    | S n' => match src x with Some y => follow src n' y | None => None end
    end.

  (** The source of a value, as told by the method [source] that an output has for it: the value that the
      returned reference points to. *)
  Definition source_of (I : inner V) (o : doutput) (x : val) : option val :=
    let w := World (fun _ => Some x) [] in
    match find_method o (TRef "::std::error::Error" []) "source" with
    | Some m => match call_method I m (VRef 0) [] w with
                | Some (VSome r, w') => pointee w' r
                | _ => None
                end
    | None => None
    end.

  (** An error inside of enums that derive [Error]; each layer is the name of an enum, the output of the
      attribute on it, and the variant. *)
  Fixpoint layered (ls : list (string * doutput * string)) (x : val) : val :=
    match ls with
    | [] => x
    | (e, _, v) :: r => VEnum e v (layered r x)
    end.
End Errors.

(** ** Transposition *)

(** Method [m] of the inherent implementation for the enum with the given type arguments. *)
Definition find_inherent (o : doutput) (self : list toks) (m : string) : option gmethod :=
  find (fun g => gm_name g =? m)
    (flat_map (fun g => match gi_trait g, gi_self g with
                        | None, Some s => if list_eq_dec (list_eq_dec string_dec) s self then gi_methods g else []
                        | _, _ => []
                        end) (impls_of o)).

(** Undoing a transposition. *)
Definition untranspose {V} (x : val V) : val V :=
  match x with
  | VSome (VEnum e v y) => VEnum e v (VSome y)
  | VOk (VEnum e v y) => VEnum e v (VOk y)
  | VErr (VEnum e v y) => VEnum e v (VErr y)
  | y => y
  end.

(** The type arguments of an enum after each was put into [Option]. *)
Definition options (ts : list toks) : list toks :=
  map (fun t => "::core::option::Option" :: "<" :: t ++ [">"]) ts.
(** [Result] of each with one error type. *)
Definition results (ts : list toks) : list toks :=
  map (fun t => "::core::result::Result" :: "<" :: t ++ [","; "__E"; ">"]) ts.
(** [Result] with one success type and each as error type. *)
Definition failures (ts : list toks) : list toks :=
  map (fun t => "::core::result::Result" :: "<" :: "__T" :: "," :: t ++ [">"]) ts.
(** [Result] of each with an error type of its own. *)
Definition both_results (ts : list toks) : list toks :=
  map (fun x => "::core::result::Result" :: "<" :: fst x ++ "," :: ("__E" ++ dec_nat (snd x))%string :: [">"])
    (combine ts (seq 0 (length ts))).

(** The types of the fields of an enum. *)
Definition all_fields (i : enum_item) : list toks :=
  flat_map (fun v => match vi_fields v with FTuple l => l | _ => [] end) (ei_variants i).

(** ** Lists of types *)

(** A token that opens or closes a group. *)
Definition opens (s : string) : bool := existsb (String.eqb s) ["<"; "("; "["; "{"].
Definition closes (s : string) : bool := existsb (String.eqb s) [">"; ")"; "]"; "}"].

(** Reading tokens at a depth of groups: [None] at a comma or at a closing token outside of all groups. *)
Fixpoint scan (d : nat) (t : toks) : option nat :=
  match t with
  | [] => Some d
  | x :: r =>
      if x =? "," then match d with O => None | S _ => scan d r end
      else if opens x then scan (S d) r
      else if closes x then match d with O => None | S d' => scan d' r end
      else scan d r
  end.

(** The tokens can be one member of a list separated by commas: there are some, their groups are complete, and
    commas occur only inside of groups.  Types and generic parameters are such tokens. *)
Definition one_member (t : toks) : Prop := t <> [] /\ scan 0 t = Some 0.

(** The tokens of the enum's generic parameters and field types are of this form, and no field type is a lifetime
    parameter. *)
Definition sensible_tokens (i : enum_item) : Prop :=
  Forall one_member (map snd (gn_params (ei_generics i))) /\ Forall one_member (all_fields i)
  /\ forall l, In (true, l) (gn_params (ei_generics i)) -> ~ In l (all_fields i).

(** Every variant has exactly one unnamed field and no discriminant, and there is a variant. *)
Definition newtype_variants (i : enum_item) : Prop :=
  ei_variants i <> []
  /\ Forall (fun v => exists t, vi_fields v = FTuple [t] /\ vi_discriminant v = None) (ei_variants i).

(** The enum that [#[auto_enum]] writes, as [#[enum_derive]] receives it
    (/repo/src/auto_enum/context.rs:361-367). *)
Definition item_of (g : genum) : enum_item :=
  EnumItem [DUser "#[allow(non_camel_case_types)]"] (g_ident g)
    (Generics (map (fun p => (false, [p])) (g_params g)) false [])
    (map (fun v => VariantItem (fst v) (FTuple [[snd v]]) None) (g_variants g)).
