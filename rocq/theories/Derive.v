(** The [#[enum_derive]] macro, part 1: the enum it receives, the items it writes and the
    builders those items are made with.

    /repo/src/enum_derive.rs and /repo/src/derive/** produce token streams.  The model produces
    the items those token streams spell out.  [EnumData], [EnumImpl] and [derive_trait] belong to
    the external crate derive_utils (0.15, /repo/Cargo.toml:84), whose source is not in /repo; they
    are modelled after their use in /repo/src/derive and after the recorded expansions in
    /repo/tests/expand/** (cited below).  Not represented: attributes on methods ([#[inline]] and
    the like), types and bounds of method parameters, return types, generic parameters of methods. *)

Require Import Coq.Strings.String Coq.Lists.List Coq.Bool.Bool Coq.Arith.Arith.
Require Import Coq.Strings.Ascii.
Require Import Verif.Syntax.
Import ListNotations.
Open Scope char_scope.
Open Scope string_scope.
Open Scope list_scope.

(** A type or a generic parameter as printed by [quote!]: its tokens.  A delimited group is
    represented by its opening token, its content and its closing token
    (/repo/src/derive/ty_impls/transpose.rs:25 compares such printings). *)
Definition toks := list string.

(** ** The enum *)

(** The fields of a variant, [syn::Fields]; read by the external [EnumData::parse]
    (/repo/src/enum_derive.rs:264). *)
Inductive fields :=
| FUnit
| FTuple (l : list toks)
| FNamed (l : list (string * toks)).

(** [syn::Variant]: identifier, fields, discriminant (/repo/src/enum_derive.rs:264). *)
Record variant_item := VariantItem {
  vi_ident : string;
  vi_fields : fields;
  vi_discriminant : option toks
}.

(** An attribute of the enum: one written by the user, or the [#[derive(..)]] that
    /repo/src/enum_derive.rs:340-342 adds. *)
Inductive dattr :=
| DUser (s : string)
| DDerive (l : list path).

(** [syn::Generics] of the enum: parameters (a lifetime parameter is flagged), whether the list ends
    in a comma, and the predicates of the where clause
    (/repo/src/derive/ty_impls/transpose.rs:21-25, /repo/src/enum_derive.rs:322). *)
Record generics := Generics {
  gn_params : list (bool * toks);
  gn_trailing : bool;
  gn_where : list toks
}.

(** [syn::ItemEnum], /repo/src/enum_derive.rs:264,320. *)
Record enum_item := EnumItem {
  ei_attrs : list dattr;
  ei_ident : string;
  ei_generics : generics;
  ei_variants : list variant_item
}.

(** The external [derive_utils::EnumData]: the enum and the field types, one per variant
    (/repo/src/enum_derive.rs:264; its methods [variant_idents] and [field_types] are used at
    /repo/src/derive/core/future.rs:20). *)
Record enum_data := EnumData {
  d_item : enum_item;
  d_types : list toks
}.

(** [data.ident], /repo/src/derive/core/future.rs:10. *)
Definition d_ident (d : enum_data) : string := ei_ident (d_item d).
(** [data.generics], /repo/src/derive/ty_impls/transpose.rs:21. *)
Definition d_generics (d : enum_data) : generics := ei_generics (d_item d).
(** [data.variant_idents()], /repo/src/derive/core/future.rs:20. *)
Definition variant_idents (d : enum_data) : list string := map vi_ident (ei_variants (d_item d)).
(** [data.field_types()], /repo/src/derive/core/future.rs:20. *)
Definition field_types (d : enum_data) : list toks := d_types d.
(** [data.variant_idents().zip(data.field_types())], /repo/src/derive/core/future.rs:20. *)
Definition arms_of (d : enum_data) : list (string * toks) := combine (variant_idents d) (field_types d).

(** The field type of one variant in the external [EnumData::parse] (/repo/src/enum_derive.rs:264):
    exactly one unnamed field and no discriminant. *)
Definition variant_type (v : variant_item) : option toks :=
  match vi_discriminant v, vi_fields v with
  | None, FTuple [t] => Some t
  | _, _ => None
  end.

(** The field types of all variants, external [EnumData::parse] (/repo/src/enum_derive.rs:264). *)
Fixpoint variant_types (l : list variant_item) : option (list toks) :=
  match l with
  | [] => Some []
  | v :: r =>
      match variant_type v, variant_types r with
      | Some t, Some ts => Some (t :: ts)
      | _, _ => None
      end
  end.

(** The external [EnumData::parse], called at /repo/src/enum_derive.rs:264: an enum without variants
    is refused, and so is a variant that does not have exactly one unnamed field. *)
Definition parse_data (i : enum_item) : option enum_data :=
  match ei_variants i with
  | [] => None
  | _ =>
      match variant_types (ei_variants i) with
      | Some ts => Some (EnumData i ts)
      | None => None
      end
  end.

(** ** The items written *)

(** A trait reference [path<args>], e.g. [#trait_<__Item>] at
    /repo/src/derive/external/futures03.rs:260. *)
Record trait_ref := TRef { tr_path : string; tr_args : list string }.

(** The receiver of a method (/repo/src/derive/core/iter.rs:14-18, core/future.rs:28). *)
Inductive recv := RRef | RMut | ROwn | RPin.

(** The right side of a generated match arm.  [x] is the variable bound by the arm's pattern.
    - [BX]: [x];
    - [BPin b]: [::core::pin::Pin::new_unchecked(b)] (/repo/src/derive/core/future.rs:22);
    - [BCall t tr m b args]: [<t as tr>::m(b, args..)] (/repo/src/derive/core/future.rs:22 and
      /repo/tests/expand/std/iter/iterator.expanded.rs:16-17);
    - [BSome b]: [::std::option::Option::Some(b)] (/repo/src/derive/std/error.rs:10);
    - [BMap b e v]: [b.map(e::v)], [BMapErr b e v]: [b.map_err(e::v)]
      (/repo/src/derive/ty_impls/transpose.rs:36,68,95,117). *)
Inductive body :=
| BX
| BPin (b : body)
| BCall (t : toks) (tr : trait_ref) (m : string) (b : body) (args : list string)
| BSome (b : body)
| BMap (b : body) (e v : string)
| BMapErr (b : body) (e v : string).

(** A match arm [e::v(x) => body] (/repo/src/derive/core/future.rs:22). *)
Record marm := MArm { ma_enum : string; ma_variant : string; ma_body : body }.

(** What a generated method matches on: [match self { .. }], or
    [unsafe { match self.get_unchecked_mut() { .. } }] (/repo/src/derive/core/future.rs:31-33). *)
Inductive scrut := SSelf | SPinned.

(** A generated method: name, receiver, parameter names, the match that is its body. *)
Record gmethod := GMethod {
  (** /repo/src/derive/core/future.rs:29. *)
  gm_name : string;
  (** /repo/src/derive/core/future.rs:28. *)
  gm_recv : recv;
  (** /repo/src/derive/core/future.rs:29. *)
  gm_params : list string;
  (** /repo/src/derive/core/future.rs:32. *)
  gm_scrut : scrut;
  (** /repo/src/derive/core/future.rs:20-24. *)
  gm_arms : list marm
}.

(** The value of an associated type or of an associated-type binding: the associated type of another
    type, or a type parameter (/repo/tests/expand/std/iter/iterator.expanded.rs:10-12;
    /repo/src/derive/core/ops.rs:148 for [__U]). *)
Inductive assoc := AProj (t : toks) (tr : trait_ref) (name : string) | AParam (s : string).

(** A where predicate of a generated impl: a trait bound with associated-type bindings
    (/repo/tests/expand/std/iter/iterator.expanded.rs:9-10), a ['static] bound
    (/repo/src/derive/std/error.rs:26), or a predicate of the enum's own where clause
    (/repo/src/enum_derive.rs:322). *)
Inductive wpred :=
| WBound (t : toks) (tr : trait_ref) (binds : list (string * assoc))
| WStatic (t : toks)
| WUser (w : toks).

(** A generated impl block.  [gi_trait = None] is an inherent impl
    (/repo/src/derive/ty_impls/transpose.rs:34).  [gi_self] are the type arguments of the enum in the
    self type: [None] for the enum's own parameters, [Some] where
    /repo/src/derive/ty_impls/transpose.rs:49 replaces them. *)
Record gimpl := GImplBlock {
  (** [unsafe impl], /repo/tests/expand/std/iter/trusted_len.expanded.rs. *)
  gi_unsafe : bool;
  (** Generic parameters, /repo/tests/expand/std/iter/extend.expanded.rs. *)
  gi_params : list toks;
  (** The implemented trait, /repo/src/derive/core/ops.rs:151. *)
  gi_trait : option trait_ref;
  (** The self type, /repo/src/derive/ty_impls/transpose.rs:49. *)
  gi_self : option (list toks);
  (** The where clause, /repo/src/derive/core/ops.rs:155. *)
  gi_where : list wpred;
  (** Associated types, /repo/src/derive/core/future.rs:15. *)
  gi_assoc : list (string * assoc);
  (** Methods, /repo/src/derive/core/future.rs:25. *)
  gi_methods : list gmethod
}.

(** An item of the output: an impl block, or the [const _] item of /repo/src/enum_derive.rs:325-334
    that keeps users from implementing [Drop]: it implements one local trait both for every type that
    is [Drop] and for the enum. *)
Inductive gitem :=
| GImpl (i : gimpl)
| GMustNotDrop (params : list toks) (self : string) (wh : list toks).

(** ** Builders *)

(** [impl_generics] of the enum: lifetime parameters come first when printed
    ([syn::Generics::split_for_impl], used by the external [EnumImpl::new] and at
    /repo/src/enum_derive.rs:322). *)
Definition own_params (d : enum_data) : list toks :=
  map snd (filter fst (gn_params (d_generics d)))
  ++ map snd (filter (fun x => negb (fst x)) (gn_params (d_generics d))).

(** The external [EnumImpl::new] (/repo/src/derive/core/ops.rs:149): an inherent impl with the enum's
    generics and no items. *)
Definition impl_new (d : enum_data) : gimpl :=
  GImplBlock false (own_params d) None None (map WUser (gn_where (d_generics d))) [] [].

(** The external [EnumImpl::set_trait] (/repo/src/derive/core/ops.rs:151). *)
Definition set_trait (t : trait_ref) (i : gimpl) : gimpl :=
  GImplBlock (gi_unsafe i) (gi_params i) (Some t) (gi_self i) (gi_where i) (gi_assoc i) (gi_methods i).
(** The external [EnumImpl::push_generic_param] (/repo/src/derive/core/ops.rs:152). *)
Definition push_param (p : toks) (i : gimpl) : gimpl :=
  GImplBlock (gi_unsafe i) (gi_params i ++ [p]) (gi_trait i) (gi_self i) (gi_where i) (gi_assoc i)
    (gi_methods i).
(** The external [EnumImpl::push_where_predicate] (/repo/src/derive/core/ops.rs:155). *)
Definition push_where (w : wpred) (i : gimpl) : gimpl :=
  GImplBlock (gi_unsafe i) (gi_params i) (gi_trait i) (gi_self i) (gi_where i ++ [w]) (gi_assoc i)
    (gi_methods i).
(** Associated types added by the external [EnumImpl::append_items_from_trait]
    (/repo/src/derive/core/ops.rs:213). *)
Definition push_assoc (a : string * assoc) (i : gimpl) : gimpl :=
  GImplBlock (gi_unsafe i) (gi_params i) (gi_trait i) (gi_self i) (gi_where i) (gi_assoc i ++ [a])
    (gi_methods i).
(** The external [EnumImpl::push_item] with a method, and [impl_.items.push]
    (/repo/src/derive/std/error.rs:27, /repo/src/derive/core/future.rs:25). *)
Definition push_item (m : gmethod) (i : gimpl) : gimpl :=
  GImplBlock (gi_unsafe i) (gi_params i) (gi_trait i) (gi_self i) (gi_where i) (gi_assoc i)
    (gi_methods i ++ [m]).
(** [impl_.self_ty = ..] (/repo/src/derive/ty_impls/transpose.rs:49). *)
Definition set_self (l : list toks) (i : gimpl) : gimpl :=
  GImplBlock (gi_unsafe i) (gi_params i) (gi_trait i) (Some l) (gi_where i) (gi_assoc i)
    (gi_methods i).
(** The [unsafe] of a trait definition is copied to the impl
    (/repo/src/derive/core/iter.rs:146, /repo/tests/expand/std/iter/trusted_len.expanded.rs). *)
Definition set_unsafe (b : bool) (i : gimpl) : gimpl :=
  GImplBlock b (gi_params i) (gi_trait i) (gi_self i) (gi_where i) (gi_assoc i) (gi_methods i).

(** A method signature in a trait definition given to [derive_trait]
    (/repo/src/derive/core/iter.rs:13-58). *)
Record msig := Sig { ms_name : string; ms_recv : recv; ms_params : list string }.

(** A trait definition given to [derive_trait]: [unsafe], generic parameters, supertrait, associated
    types, methods (/repo/src/derive/core/iter.rs:11-58). *)
Record trait_def := TraitDef {
  td_unsafe : bool;
  td_params : list string;
  td_super : option trait_ref;
  td_types : list string;
  td_methods : list msig
}.

(** The identifier of a generic parameter such as [__T: ?Sized]
    (/repo/src/derive/core/convert.rs:10): the text before a colon. *)
Fixpoint param_ident (s : string) : string :=
  match s with
  | EmptyString => EmptyString
  | String c r => if Ascii.eqb c ":"%char then EmptyString else String c (param_ident r)
  end.

(** The external [EnumImpl::push_method] (/repo/src/derive/core/ops.rs:157): the body matches on
    [self] and each arm calls the same method of the field through the trait
    (/repo/tests/expand/std/iter/iterator.expanded.rs:14-19). *)
Definition forward (d : enum_data) (tr : trait_ref) (m : msig) : gmethod :=
  GMethod (ms_name m) (ms_recv m) (ms_params m) SSelf
    (map (fun a => MArm (d_ident d) (fst a) (BCall (snd a) tr (ms_name m) BX (ms_params m)))
         (arms_of d)).

(** The external [EnumImpl::push_method] (/repo/src/derive/core/ops.rs:157).  Called only after
    [set_trait]; without a trait nothing is pushed here. *)
Definition push_method (d : enum_data) (m : msig) (i : gimpl) : gimpl :=
  match gi_trait i with
  | Some tr => push_item (forward d tr m) i
  | None => i
  end.

(** The external [EnumImpl::append_items_from_trait] (/repo/src/derive/core/ops.rs:213): associated
    types are those of the first field, methods are forwarded. *)
Definition append_items (d : enum_data) (types : list string) (ms : list msig) (i : gimpl) : gimpl :=
  let i :=
    match gi_trait i, field_types d with
    | Some tr, t :: _ => fold_left (fun i n => push_assoc (n, AProj t tr n) i) types i
    | _, _ => i
    end in
  fold_left (fun i m => push_method d m i) ms i.

(** The bound on the fields of the external [EnumImpl::from_trait] (/repo/src/derive/core/future.rs:13):
    the first field implements the trait; each other one too, with the associated types of the
    first (/repo/tests/expand/std/iter/iterator.expanded.rs:9-10 and
    double_ended_iterator.expanded.rs for the type of a supertrait). *)
Definition field_bounds (d : enum_data) (tr : trait_ref) (binds : list (string * trait_ref)) : list wpred :=
  match field_types d with
  | [] => []
  | t :: ts =>
      WBound t tr []
      :: map (fun u => WBound u tr (map (fun b => (fst b, AProj t (snd b) (fst b))) binds)) ts
  end.

(** The external [EnumImpl::from_trait] (/repo/src/derive/core/future.rs:13-17).  [sup] names an
    associated type of the supertrait (/repo/src/derive/core/iter.rs:73). *)
Definition from_trait (d : enum_data) (path : string) (sup : option string) (td : trait_def) : gimpl :=
  let tr := TRef path (map param_ident (td_params td)) in
  let sup_binds :=
    match sup, td_super td with
    | Some n, Some s => [(n, s)]
    | _, _ => []
    end in
  let binds := sup_binds ++ map (fun n => (n, tr)) (td_types td) in
  let i := set_unsafe (td_unsafe td) (set_trait tr (impl_new d)) in
  let i := fold_left (fun i p => push_param [p] i) (td_params td) i in
  let i := fold_left (fun i w => push_where w i) (field_bounds d tr binds) i in
  append_items d (td_types td) (td_methods td) i.

(** ** Derive functions *)

(** The type [DeriveFn] of /repo/src/enum_derive.rs:29: an error message, or whether
    [cx.needs_pin_projection()] was called and the items. *)
Definition derive_fn := enum_data -> string + (bool * list gitem).

(** A derive function whose body is [Ok(derive_trait(data, path, sup, trait))], such as
    /repo/src/derive/core/iter.rs:8-59. *)
Definition by_trait (path : string) (sup : option string) (td : trait_def) : derive_fn :=
  fun d => inr (false, [GImpl (from_trait d path sup td)]).

(** One hand-written method of a pin-projecting derive, such as /repo/src/derive/core/future.rs:20-35:
    name, parameters, and in each arm the trait, the method called and the arguments after
    [Pin::new_unchecked(x)]. *)
Record pinmeth := PinMeth {
  pm_name : string;
  pm_params : list string;
  pm_trait : trait_ref;
  pm_call : string;
  pm_args : list string
}.

(** The method pushed at /repo/src/derive/core/future.rs:20-35. *)
Definition pin_method (d : enum_data) (p : pinmeth) : gmethod :=
  GMethod (pm_name p) RPin (pm_params p) SPinned
    (map (fun a => MArm (d_ident d) (fst a)
                     (BCall (snd a) (pm_trait p) (pm_call p) (BPin BX) (pm_args p)))
         (arms_of d)).

(** A pin-projecting derive function, such as /repo/src/derive/core/future.rs:7-38: it calls
    [cx.needs_pin_projection()], builds from the trait definition and pushes the methods. *)
Definition by_pin (path : string) (td : trait_def) (ms : list pinmeth) : derive_fn :=
  fun d =>
    inr (true, [GImpl (fold_left (fun i p => push_item (pin_method d p) i) ms
                                 (from_trait d path None td))]).

(** The macro [derive_fmt!], /repo/src/derive/core/fmt.rs:3-21. *)
Definition derive_fmt (name : string) : derive_fn :=
  by_trait (String.append "::core::fmt::" name) None (TraitDef false [] None [] [Sig "fmt" RRef ["f"]]).

(** ** Printing, for [Transpose] *)

(** [#(#l),*]: the token lists with commas between them
    (/repo/src/derive/ty_impls/transpose.rs:25). *)
Fixpoint commas (l : list toks) : toks :=
  match l with
  | [] => []
  | [t] => t
  | t :: r => t ++ "," :: commas r
  end.

(** A parameter list printed with its own commas: a comma after each parameter except, without a
    trailing comma, the last ([syn::punctuated::Punctuated]). *)
Fixpoint pairs (l : list (bool * toks)) (trailing : bool) : list (bool * toks * bool) :=
  match l with
  | [] => []
  | [(lf, t)] => [(lf, t, trailing)]
  | (lf, t) :: r => (lf, t, true) :: pairs r trailing
  end.

(** Printing of [syn::Generics] (external; [quote!(#generics)] at
    /repo/src/derive/ty_impls/transpose.rs:25): nothing without parameters; otherwise lifetime
    parameters first, each with its own comma, then the others, a comma being inserted if the last
    lifetime had none. *)
Definition print_generics (g : generics) : toks :=
  match gn_params g with
  | [] => []
  | _ =>
      let ps := pairs (gn_params g) (gn_trailing g) in
      let out := fun (x : bool * toks * bool) => snd (fst x) ++ (if snd x then [","] else []) in
      let lts := filter (fun x => fst (fst x)) ps in
      let others := filter (fun x => negb (fst (fst x))) ps in
      let sep :=
        match rev lts, others with
        | x :: _, _ :: _ => if snd x then [] else [","]
        | _, _ => []
        end in
      "<" :: concat (map out lts) ++ sep ++ concat (map out others) ++ [">"]
  end.

(** Equality of token lists ([==] on printed strings,
    /repo/src/derive/ty_impls/transpose.rs:25). *)
Fixpoint toks_eqb (a b : toks) : bool :=
  match a, b with
  | [], [] => true
  | x :: a', y :: b' => String.eqb x y && toks_eqb a' b'
  | _, _ => false
  end.

(** [check_fields], /repo/src/derive/ty_impls/transpose.rs:20-30.  Simplified: the two printings are
    compared as token lists, not as text with spaces. *)
Definition check_fields (d : enum_data) : bool :=
  let g := d_generics d in
  let comma :=
    if (match gn_params g with [] => true | _ => false end) || gn_trailing g then [","] else [] in
  toks_eqb (print_generics g) ("<" :: commas (field_types d) ++ comma ++ [">"]).

(** ** [Transpose] *)

(** [::core::option::Option<t>], /repo/src/derive/ty_impls/transpose.rs:48. *)
Definition option_of (t : toks) : toks := "::core::option::Option" :: "<" :: t ++ [">"].
(** [::core::result::Result<t, e>], /repo/src/derive/ty_impls/transpose.rs:83. *)
Definition result_of (t e : toks) : toks := "::core::result::Result" :: "<" :: t ++ "," :: e ++ [">"].

(** A method [fn name(self) -> .. { match self { #(#arms,)* } }] of
    /repo/src/derive/ty_impls/transpose.rs:36-44. *)
Definition own_method (d : enum_data) (name : string) (b : string -> body) : gmethod :=
  GMethod name ROwn [] SSelf (map (fun v => MArm (d_ident d) v (b v)) (variant_idents d)).

(** [transpose_option], /repo/src/derive/ty_impls/transpose.rs:32-51. *)
Definition transpose_option (d : enum_data) : gimpl :=
  set_self (map option_of (field_types d))
    (push_item (own_method d "transpose" (fun v => BMap BX (d_ident d) v)) (impl_new d)).

(** The identifiers [__E0], [__E1], .. of /repo/src/derive/ty_impls/transpose.rs:58-64. *)
Definition err_fields (d : enum_data) : list toks :=
  map (fun i => [String.append "__E" (dec_nat i)]) (seq 0 (length (field_types d))).

(** [transpose_result], /repo/src/derive/ty_impls/transpose.rs:53-86. *)
Definition transpose_result (d : enum_data) : gimpl :=
  set_self (map (fun x => result_of (fst x) (snd x)) (combine (field_types d) (err_fields d)))
    (push_item
       (own_method d "transpose" (fun v => BMapErr (BMap BX (d_ident d) v) (d_ident d) v))
       (fold_left (fun i p => push_param p i) (err_fields d) (impl_new d))).

(** [transpose_ok], /repo/src/derive/ty_impls/transpose.rs:88-108. *)
Definition transpose_ok (d : enum_data) : gimpl :=
  set_self (map (fun t => result_of t ["__E"]) (field_types d))
    (push_item (own_method d "transpose_ok" (fun v => BMap BX (d_ident d) v))
       (push_param ["__E"] (impl_new d))).

(** [transpose_err], /repo/src/derive/ty_impls/transpose.rs:110-130. *)
Definition transpose_err (d : enum_data) : gimpl :=
  set_self (map (fun t => result_of ["__T"] t) (field_types d))
    (push_item (own_method d "transpose_err" (fun v => BMapErr BX (d_ident d) v))
       (push_param ["__T"] (impl_new d))).
