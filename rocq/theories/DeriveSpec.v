(** Specification for [#[enum_derive]]: calls, documented names, contracts. *)

Require Import Coq.Strings.String Coq.Lists.List Coq.Bool.Bool Coq.Arith.Arith.
Require Import Verif.Syntax Verif.TypeAnalysis Verif.Derive Verif.EnumDerive Verif.DeriveTable Verif.DeriveEval.
Import ListNotations.
Open Scope string_scope.
Open Scope list_scope.

(** ** Calls on a value and on an enum around it *)

Section Calls.
  Context {V : Type}.
  Local Notation val := (val V).

  (** A call of a method through a reference, plain or pinned. *)
  Record call := Call {
    c_trait : trait_ref;
    c_method : string;
    c_pinned : bool;
    c_args : list val
  }.

  (** How a call reaches a value that lives at (or, for a field, in the enum at) address [a]. *)
  Definition reach (c : call) (a : nat) : access := if c_pinned c then ByPin a else ByRef a.

  (** The calls made directly on a value of type [t] in state [p]: results and final state. *)
  Fixpoint direct (I : inner V) (t : toks) (a : nat) (p : val) (cs : list call) : list val * val :=
    match cs with
    | [] => ([], p)
    | c :: r =>
        let x := I t (c_trait c) (c_method c) (reach c a) p (c_args c) in
        let y := direct I t a (snd x) r in
        (fst x :: fst y, snd y)
    end.

  (** The same calls made on the enum at address [a], through the generated methods. *)
  Fixpoint through_enum (I : inner V) (o : doutput) (a : nat) (cs : list call) (w : world V)
      : option (list val * world V) :=
    match cs with
    | [] => Some ([], w)
    | c :: r =>
        match find_method o (c_trait c) (c_method c) with
        | None => None
        | Some m =>
            match call_method I m (if c_pinned c then VPin (VRef a) else VRef a) (c_args c) w with
            | None => None
            | Some (x, w') =>
                match through_enum I o a r w' with
                | Some (xs, w'') => Some (x :: xs, w'')
                | None => None
                end
            end
        end
    end.

  (** The output has a method for the call, with such a receiver and so many parameters. *)
  Definition implemented (o : doutput) (c : call) : Prop :=
    exists m, find_method o (c_trait c) (c_method c) = Some m
              /\ (if c_pinned c then gm_recv m = RPin else gm_recv m = RRef \/ gm_recv m = RMut)
              /\ length (c_args c) = length (gm_params m).

  (** [Error::source], the one trait method that is not forwarded. *)
  Definition is_source (tr : trait_ref) (m : string) : Prop :=
    tr = TRef "::std::error::Error" [] /\ m = "source".

End Calls.
Arguments call : clear implicits.

(** Variant [v] of an enum has one unnamed field, of type [t]. *)
Definition has_variant (i : enum_item) (v : string) (t : toks) : Prop :=
  In (VariantItem v (FTuple [t]) None) (ei_variants i).

(** The variants of an enum have different names (Rust requires this). *)
Definition distinct_variants (i : enum_item) : Prop := NoDup (map vi_ident (ei_variants i)).

(** ** Documented traits *)

(** One line of the list of supported traits in the documentation, /repo/src/lib.rs:600-740: the
    names that may be written, the feature that is required, the trait that is meant. *)
Record doc_line := Doc { doc_names : list string; doc_feature : option string; doc_trait : string }.

(** The list of supported traits, /repo/src/lib.rs:609-740, in its order. *)
Definition documented : list doc_line :=
  [Doc ["Iterator"] None "::core::iter::Iterator";
   Doc ["DoubleEndedIterator"] None "::core::iter::DoubleEndedIterator";
   Doc ["ExactSizeIterator"] None "::core::iter::ExactSizeIterator";
   Doc ["FusedIterator"] None "::core::iter::FusedIterator";
   Doc ["Extend"] None "::core::iter::Extend";
   Doc ["TrustedLen"] (Some "trusted_len") "::core::iter::TrustedLen";
   Doc ["Future"] None "::core::future::Future";
   Doc ["Read"; "io::Read"] (Some "std") "::std::io::Read";
   Doc ["BufRead"; "io::BufRead"] (Some "std") "::std::io::BufRead";
   Doc ["Write"; "io::Write"] (Some "std") "::std::io::Write";
   Doc ["Seek"; "io::Seek"] (Some "std") "::std::io::Seek";
   Doc ["Deref"] (Some "ops") "::core::ops::Deref";
   Doc ["DerefMut"] (Some "ops") "::core::ops::DerefMut";
   Doc ["Index"] (Some "ops") "::core::ops::Index";
   Doc ["IndexMut"] (Some "ops") "::core::ops::IndexMut";
   Doc ["RangeBounds"] (Some "ops") "::core::ops::RangeBounds";
   Doc ["Fn"] (Some "fn_traits") "::core::ops::Fn";
   Doc ["FnMut"] (Some "fn_traits") "::core::ops::FnMut";
   Doc ["FnOnce"] (Some "fn_traits") "::core::ops::FnOnce";
   Doc ["Coroutine"] (Some "coroutine_trait") "::core::ops::Coroutine";
   Doc ["AsRef"] (Some "convert") "::core::convert::AsRef";
   Doc ["AsMut"] (Some "convert") "::core::convert::AsMut";
   Doc ["Debug"; "fmt::Debug"] None "::core::fmt::Debug";
   Doc ["Display"; "fmt::Display"] None "::core::fmt::Display";
   Doc ["fmt::Binary"] (Some "fmt") "::core::fmt::Binary";
   Doc ["fmt::LowerExp"] (Some "fmt") "::core::fmt::LowerExp";
   Doc ["fmt::LowerHex"] (Some "fmt") "::core::fmt::LowerHex";
   Doc ["fmt::Octal"] (Some "fmt") "::core::fmt::Octal";
   Doc ["fmt::Pointer"] (Some "fmt") "::core::fmt::Pointer";
   Doc ["fmt::UpperExp"] (Some "fmt") "::core::fmt::UpperExp";
   Doc ["fmt::UpperHex"] (Some "fmt") "::core::fmt::UpperHex";
   Doc ["fmt::Write"] None "::core::fmt::Write";
   Doc ["Error"] (Some "std") "::std::error::Error";
   Doc ["futures03::Stream"] (Some "futures03") "::futures::stream::Stream";
   Doc ["futures03::Sink"] (Some "futures03") "::futures::sink::Sink";
   Doc ["futures03::AsyncRead"] (Some "futures03") "::futures::io::AsyncRead";
   Doc ["futures03::AsyncWrite"] (Some "futures03") "::futures::io::AsyncWrite";
   Doc ["futures03::AsyncSeek"] (Some "futures03") "::futures::io::AsyncSeek";
   Doc ["futures03::AsyncBufRead"] (Some "futures03") "::futures::io::AsyncBufRead";
   Doc ["futures01::Future"] (Some "futures01") "::futures::future::Future";
   Doc ["futures01::Stream"] (Some "futures01") "::futures::stream::Stream";
   Doc ["futures01::Sink"] (Some "futures01") "::futures::sink::Sink";
   Doc ["rayon::ParallelIterator"] (Some "rayon") "::rayon::iter::ParallelIterator";
   Doc ["rayon::IndexedParallelIterator"] (Some "rayon") "::rayon::iter::IndexedParallelIterator";
   Doc ["rayon::ParallelExtend"] (Some "rayon") "::rayon::iter::ParallelExtend";
   Doc ["serde::Serialize"] (Some "serde") "::serde::ser::Serialize";
   Doc ["tokio1::AsyncRead"] (Some "tokio1") "::tokio::io::AsyncRead";
   Doc ["tokio1::AsyncWrite"] (Some "tokio1") "::tokio::io::AsyncWrite";
   Doc ["tokio1::AsyncSeek"] (Some "tokio1") "::tokio::io::AsyncSeek";
   Doc ["tokio1::AsyncBufRead"] (Some "tokio1") "::tokio::io::AsyncBufRead";
   Doc ["tokio03::AsyncRead"] (Some "tokio03") "::tokio::io::AsyncRead";
   Doc ["tokio03::AsyncWrite"] (Some "tokio03") "::tokio::io::AsyncWrite";
   Doc ["tokio03::AsyncSeek"] (Some "tokio03") "::tokio::io::AsyncSeek";
   Doc ["tokio03::AsyncBufRead"] (Some "tokio03") "::tokio::io::AsyncBufRead";
   Doc ["tokio02::AsyncRead"] (Some "tokio02") "::tokio::io::AsyncRead";
   Doc ["tokio02::AsyncWrite"] (Some "tokio02") "::tokio::io::AsyncWrite";
   Doc ["tokio02::AsyncSeek"] (Some "tokio02") "::tokio::io::AsyncSeek";
   Doc ["tokio02::AsyncBufRead"] (Some "tokio02") "::tokio::io::AsyncBufRead";
   Doc ["tokio01::AsyncRead"] (Some "tokio01") "::tokio::io::AsyncRead";
   Doc ["tokio01::AsyncWrite"] (Some "tokio01") "::tokio::io::AsyncWrite";
   Doc ["http_body1::Body"] (Some "http_body1") "::http_body::Body"].

(** The documented trait that a name means when these features are on. *)
Definition means (feat : features) (name : string) (tr : string) : Prop :=
  exists l, In l documented /\ In name (doc_names l) /\ doc_trait l = tr
            /\ (forall f, doc_feature l = Some f -> feat f = true).

(** [Transpose], which derives methods instead of a trait, /repo/src/lib.rs:742-769. *)
Definition is_transpose (feat : features) (name : string) : Prop :=
  name = "Transpose" /\ feat "transpose_methods" = true.

(** A name that [#[enum_derive]] does not support with these features. *)
Definition unsupported (feat : features) (name : string) : Prop :=
  (forall tr, ~ means feat name tr) /\ ~ is_transpose feat name.

(** The output has an implementation of the trait with this path. *)
Definition implements (o : doutput) (tr : string) : Prop :=
  exists g t, In (GImpl g) (do_items o) /\ gi_trait g = Some t /\ tr_path t = tr.

(** The output has the four inherent transposing implementations' methods. *)
Definition has_inherent (o : doutput) (m : string) : Prop :=
  exists g, In (GImpl g) (do_items o) /\ gi_trait g = None
            /\ exists x, In x (gi_methods g) /\ gm_name x = m.

(** ** Supertraits *)

(** Requested names and the names of the traits they need, as /repo/src/enum_derive.rs:201-225
    promises them. *)
Definition needed : list (string * option string * list string) :=
  [("Copy", None, ["Clone"]); ("Eq", None, ["PartialEq"]); ("PartialOrd", None, ["PartialEq"]);
   ("Ord", None, ["PartialOrd"; "Eq"; "PartialEq"]);
   ("DerefMut", Some "ops", ["Deref"]); ("IndexMut", Some "ops", ["Index"]);
   ("Fn", Some "fn_traits", ["FnMut"; "FnOnce"]); ("FnMut", Some "fn_traits", ["FnOnce"]);
   ("DoubleEndedIterator", None, ["Iterator"]); ("ExactSizeIterator", None, ["Iterator"]);
   ("FusedIterator", None, ["Iterator"]); ("TrustedLen", Some "trusted_len", ["Iterator"]);
   ("BufRead", Some "std", ["Read"]); ("io::BufRead", Some "std", ["Read"]);
   ("Error", Some "std", ["Display"; "Debug"]);
   ("rayon::IndexedParallelIterator", Some "rayon", ["rayon::ParallelIterator"])].

(** With these features, [name] needs [dep]. *)
Definition needs (feat : features) (name dep : string) : Prop :=
  exists f deps, In (name, f, deps) needed /\ In dep deps
                 /\ (forall x, f = Some x -> feat x = true).

(** ** Duplicates and pin projection *)

(** The traits that an output implements, by path, with repetition. *)
Definition impl_paths (o : doutput) : list string :=
  flat_map (fun g => match gi_trait g with Some t => [tr_path t] | None => [] end) (impls_of o).

(** The list names no trait twice; two names of one line of the documentation, such as [Debug] and
    [fmt::Debug], count as different. *)
Definition names_no_trait_twice (feat : features) (ps : list path) : Prop :=
  NoDup (map path_text ps)
  /\ forall p q l l', In p ps -> In q ps -> In l documented -> In l' documented ->
       In (path_text p) (doc_names l) -> In (path_text q) (doc_names l') ->
       (forall f, doc_feature l = Some f \/ doc_feature l' = Some f -> feat f = true) ->
       doc_trait l = doc_trait l' -> l = l'.

(** No trait that is missing from the list is needed by two of its members. *)
Definition no_shared_need (feat : features) (ps : list path) : Prop :=
  forall p q dep, In p ps -> In q ps -> p <> q ->
    needs feat (path_text p) dep -> needs feat (path_text q) dep -> In dep (map path_text ps).

(** The path of [Unpin]. *)
Definition unpin_path : string := "::core::marker::Unpin".

(** The implementations of [Unpin] in an output. *)
Definition unpin_impls (o : doutput) : list gimpl :=
  filter (fun g => match gi_trait g with Some t => tr_path t =? unpin_path | None => false end) (impls_of o).

(** The items of an output that forbid [Drop]: the generic parameters, the name and the where clause of the
    type each is about. *)
Definition drop_guards (o : doutput) : list (list toks * string * list toks) :=
  flat_map (fun it => match it with GMustNotDrop ps n wh => [(ps, n, wh)] | GImpl _ => [] end) (do_items o).

(** Some generated method projects a pinned enum to a field. *)
Definition projects_pin (o : doutput) : Prop :=
  exists g m, In (GImpl g) (do_items o) /\ In m (gi_methods g) /\ gm_scrut m = SPinned.

(** The parameters of an enum, lifetimes first. *)
Definition params_in_order (i : enum_item) : list toks :=
  map snd (filter fst (gn_params (ei_generics i)))
  ++ map snd (filter (fun x => negb (fst x)) (gn_params (ei_generics i))).

(** An implementation applies when its where clause holds; [holds] says which predicates do. *)
Definition applies (holds : wpred -> Prop) (g : gimpl) : Prop := Forall holds (gi_where g).

(** The second list is the members of the first with property [P], in the same order. *)
Inductive keeps_exactly {A} (P : A -> Prop) : list A -> list A -> Prop :=
| ke_nil : keeps_exactly P [] []
| ke_keep x l m : P x -> keeps_exactly P l m -> keeps_exactly P (x :: l) (x :: m)
| ke_drop x l m : ~ P x -> keeps_exactly P l m -> keeps_exactly P (x :: l) m.
