(** The [#[enum_derive]] macro, part 3: arguments, dependencies, aliases and the expansion
    (/repo/src/enum_derive.rs). *)

Require Import Coq.Strings.String Coq.Lists.List Coq.Bool.Bool Coq.Arith.Arith.
Require Import Verif.Syntax Verif.Context Verif.TypeAnalysis Verif.Derive Verif.DeriveTable.
Import ListNotations.
Open Scope string_scope.
Open Scope list_scope.

(** ** Arguments *)

(** [to_trimmed_string], /repo/src/enum_derive.rs:182-184, is the [path_text] of TypeAnalysis.v: the text of
    a path without spaces.  Simplified: paths with generic arguments are not parsed by the model. *)

(** The loop of [Args::parse], /repo/src/enum_derive.rs:186-196; [None] is a syntax error.  [fuel]
    bounds the number of iterations, each of which consumes a token. *)
Fixpoint parse_traits_loop (fuel : nat) (ts : list token) (inner : list (string * path))
    : option (list (string * path)) :=
  match fuel with
  | O => None
  | S fuel' =>
      match ts with
      | [] => Some inner
      | _ =>
          match parse_path ts with
          | None => None
          | Some (p, rest) =>
              let inner := inner ++ [(path_text p, p)] in
              match rest with
              | [] => Some inner
              | TkComma :: rest' => parse_traits_loop fuel' rest' inner
              | _ => None
              end
          end
      end
  end.

(** [syn::parse2::<Args>], /repo/src/enum_derive.rs:180-199,265. *)
Definition parse_traits (ts : list token) : option (list (string * path)) :=
  parse_traits_loop (S (length ts)) ts [].

(** ** Dependencies and aliases *)

(** The lines of [get_trait_deps], /repo/src/enum_derive.rs:202-222: the feature, the names on the left,
    the dependencies. *)
Definition dep_table : list (option string * list string * list string) :=
  [(None, ["Copy"], ["Clone"]);
   (None, ["Eq"; "PartialOrd"], ["PartialEq"]);
   (None, ["Ord"], ["PartialOrd"; "Eq"; "PartialEq"]);
   (Some "ops", ["DerefMut"], ["Deref"]);
   (Some "ops", ["IndexMut"], ["Index"]);
   (Some "fn_traits", ["Fn"], ["FnMut"; "FnOnce"]);
   (Some "fn_traits", ["FnMut"], ["FnOnce"]);
   (None, ["DoubleEndedIterator"; "ExactSizeIterator"; "FusedIterator"], ["Iterator"]);
   (Some "trusted_len", ["TrustedLen"], ["Iterator"]);
   (Some "std", ["BufRead"; "io::BufRead"], ["Read"]);
   (Some "std", ["Error"], ["Display"; "Debug"]);
   (Some "rayon", ["rayon::IndexedParallelIterator"], ["rayon::ParallelIterator"])].

(** [get_trait_deps], /repo/src/enum_derive.rs:201-225; no dependencies if the result is [None]. *)
Definition get_trait_deps (feat : features) (s : string) : list string :=
  match find (fun x => enabled feat (fst (fst x)) && names_it (snd (fst x)) s) dep_table with
  | Some x => snd x
  | None => []
  end.

(** The lines of [match_alias!], /repo/src/enum_derive.rs:243-256. *)
Definition alias_table : list (option string * list string) :=
  [(None, core_fmt_debug_NAME);
   (None, core_fmt_display_NAME);
   (Some "std", std_io_read_NAME);
   (Some "std", std_io_buf_read_NAME);
   (Some "std", std_io_seek_NAME);
   (Some "std", std_io_write_NAME)].

(** One line of [match_alias!], /repo/src/enum_derive.rs:230-241: the other of the two names. *)
Definition other_name (names : list string) (s : string) : option string :=
  match names with
  | n0 :: n1 :: _ => if s =? n0 then Some n1 else if s =? n1 then Some n0 else None
  | _ => None
  end.

(** [get_alias], /repo/src/enum_derive.rs:228-259. *)
Fixpoint get_alias_in (t : list (option string * list string)) (feat : features) (s : string) : option string :=
  match t with
  | [] => None
  | (f, names) :: r =>
      if enabled feat f then
        match other_name names s with
        | Some x => Some x
        | None => get_alias_in r feat s
        end
      else get_alias_in r feat s
  end.

(** [get_alias], /repo/src/enum_derive.rs:228-259. *)
Definition get_alias (feat : features) (s : string) : option string := get_alias_in alias_table feat s.

(** A requested trait: its text and, unless it was added as a dependency, its path
    (/repo/src/enum_derive.rs:227,266-278). *)
Definition request := (string * option path)%type.

(** [exists_alias], /repo/src/enum_derive.rs:227-261. *)
Definition exists_alias (feat : features) (s : string) (v : list request) : bool :=
  match get_alias feat s with
  | Some x => existsb (fun r => fst r =? x) v
  | None => false
  end.

(** The inner loop of the fold, /repo/src/enum_derive.rs:267-273. *)
Definition add_deps (feat : features) (args : list (string * path)) (s : string) (v : list request)
    : list request :=
  fold_left
    (fun v t => if exists_alias feat t v then v else v ++ [(t, None)])
    (filter (fun x => negb (existsb (fun a => fst a =? x) args)) (get_trait_deps feat s))
    v.

(** One step of the fold, /repo/src/enum_derive.rs:266-277. *)
Definition add_arg (feat : features) (args : list (string * path)) (v : list request)
    (a : string * path) : list request :=
  let v := add_deps feat args (fst a) v in
  if exists_alias feat (fst a) v then v else v ++ [(fst a, Some (snd a))].

(** The fold, /repo/src/enum_derive.rs:266-278. *)
Definition requests (feat : features) (args : list (string * path)) : list request :=
  fold_left (add_arg feat args) args [].

(** ** Expansion *)

(** Why an expansion fails: the enum (/repo/src/enum_derive.rs:264), the arguments (265), or a derive
    function with its message (287). *)
Inductive derr :=
| ErrEnum
| ErrTraits
| ErrDerive (s msg : string).

(** The state of the loop at /repo/src/enum_derive.rs:280-282: the [derive] vector, the items and the
    [needs_pin_projection] cell. *)
Record dstate := DState {
  ds_derive : list path;
  ds_items : list gitem;
  ds_pin : bool
}.

(** The loop over the requests, /repo/src/enum_derive.rs:283-293. *)
Fixpoint process (feat : features) (d : enum_data) (rs : list request) (st : dstate) : derr + dstate :=
  match rs with
  | [] => inr st
  | (s, arg) :: r =>
      match get_derive feat s, arg with
      | Some f, _ =>
          match f d with
          | inl msg => inl (ErrDerive s msg)
          | inr (pin, its) =>
              process feat d r (DState (ds_derive st) (ds_items st ++ its) (ds_pin st || pin))
          end
      | None, Some p => process feat d r (DState (ds_derive st ++ [p]) (ds_items st) (ds_pin st))
      | None, None => process feat d r st
      end
  end.

(** The conditional [Unpin] implementation, /repo/src/enum_derive.rs:311-318. *)
Definition unpin_impl (d : enum_data) : gimpl :=
  from_trait d "::core::marker::Unpin" None (TraitDef false [] None [] []).

(** The item of /repo/src/enum_derive.rs:325-334. *)
Definition must_not_drop (d : enum_data) : gitem :=
  GMustNotDrop (own_params d) (d_ident d) (gn_where (d_generics d)).

(** The output: the enum and the items after it (/repo/src/enum_derive.rs:344-346). *)
Record doutput := DOutput {
  do_enum : enum_item;
  do_items : list gitem
}.

(** [item.attrs.push(..)], /repo/src/enum_derive.rs:340-342. *)
Definition add_derive (l : list path) (i : enum_item) : enum_item :=
  match l with
  | [] => i
  | _ => EnumItem (ei_attrs i ++ [DDerive l]) (ei_ident i) (ei_generics i) (ei_variants i)
  end.

(** [expand], /repo/src/enum_derive.rs:263-347. *)
Definition enum_derive (feat : features) (ts : list token) (i : enum_item) : derr + doutput :=
  match parse_data i with
  | None => inl ErrEnum
  | Some d =>
      match parse_traits ts with
      | None => inl ErrTraits
      | Some args =>
          match process feat d (requests feat args) (DState [] [] false) with
          | inl e => inl e
          | inr st =>
              let items :=
                if ds_pin st then ds_items st ++ [GImpl (unpin_impl d); must_not_drop d]
                else ds_items st in
              inr (DOutput (add_derive (ds_derive st) (d_item d)) items)
          end
      end
  end.
