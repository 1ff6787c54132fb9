(** Properties C54 and C55. *)

Require Import Coq.Strings.String Coq.Lists.List Coq.Bool.Bool Coq.Arith.Arith Coq.NArith.NArith.
Require Import Verif.Syntax Verif.Context Verif.ExprModel Verif.TypeAnalysis Verif.AutoEnum.
Require Import Verif.ExitsTop Verif.Outside Verif.Samples Verif.PropFound Verif.Rename Verif.RenameRun.
Import ListNotations.
Open Scope string_scope.
Open Scope list_scope.

(** ** C54 *)

(** The marker by another name, in the attribute and in the code: the same answer, with the same renaming. The two runs may
    have different hashes as long as these give the enum the same name. *)
Theorem C54_marker_name : forall hash0 hash1 ta n args0 args1 ps mo0 mo1 i,
  parse_args args0 = inr (ps, mo0) -> parse_args args1 = inr (ps, mo1) ->
  reserved (own_marker mo0) = false -> reserved (own_marker mo1) = false -> plain_input i = true ->
  let swap := re_input (other_name (own_marker mo0) (own_marker mo1)) same_name in
  enum_name (hash1 (NInput (swap i))) = enum_name (hash0 (NInput i)) ->
  but_names (other_name (own_marker mo0) (own_marker mo1)) same_name (attribute hash0 ta n args0 i) (attribute hash1 ta n args1 (swap i)).
Proof.
  intros. eapply rename_run; eauto.
  - apply other_inj.
  - intros. apply other_reserved; assumption.
  - symmetry. apply other_own.
Qed.
Print Assumptions C54_marker_name.

(** So the code is refused under one name exactly if it is refused under the other, with the same errors. *)
Theorem C54_refused : forall hash ta n args0 args1 ps mo0 mo1 i l,
  parse_args args0 = inr (ps, mo0) -> parse_args args1 = inr (ps, mo1) ->
  reserved (own_marker mo0) = false -> reserved (own_marker mo1) = false -> plain_input i = true ->
  enum_name (hash (NInput (re_input (other_name (own_marker mo0) (own_marker mo1)) same_name i))) = enum_name (hash (NInput i)) ->
  attribute hash ta n args0 i = ROk (Errors l)
  <-> attribute hash ta n args1 (re_input (other_name (own_marker mo0) (own_marker mo1)) same_name i) = ROk (Errors l).
Proof.
  intros hash ta n args0 args1 ps mo0 mo1 i l A0 A1 X Y P E.
  pose proof (C54_marker_name hash hash ta n args0 args1 ps mo0 mo1 i A0 A1 X Y P E) as T.
  destruct (attribute hash ta n args0 i) as [[]| |], (attribute hash ta n args1 _) as [[]| |]; cbn in T; try contradiction;
    split; intros H; try discriminate H; congruence.
Qed.
Print Assumptions C54_refused.

(** With inner [#[auto_enum]] attributes, for markers other than the default one: an inner attribute without [marker = ..] has that
    one, and one that chooses a marker should choose neither name. The hashes should give renamed code the name that they give the code. *)
Theorem C54_nested_attributes : forall hash0 hash1 ta n args0 args1 ps m0 m1 i,
  parse_args args0 = inr (ps, Some m0) -> parse_args args1 = inr (ps, Some m1) ->
  reserved m0 = false -> reserved m1 = false -> m0 <> "marker" -> m1 <> "marker" ->
  kept_input (other_name m0 m1) i = true ->
  (forall e, enum_name (hash1 (NExpr (re_expr (other_name m0 m1) same_name e))) = enum_name (hash0 (NExpr e))) ->
  (forall s, enum_name (hash1 (NStmt (re_stmt (other_name m0 m1) same_name s))) = enum_name (hash0 (NStmt s))) ->
  enum_name (hash1 (NInput (re_input (other_name m0 m1) same_name i))) = enum_name (hash0 (NInput i)) ->
  but_names (other_name m0 m1) same_name (attribute hash0 ta n args0 i) (attribute hash1 ta n args1 (re_input (other_name m0 m1) same_name i)).
Proof.
  intros hash0 hash1 ta n args0 args1 ps m0 m1 i A0 A1 R0 R1 D0 D1 K HE HS HI. eapply rename_nested; eauto.
  - apply other_inj.
  - intros. apply other_reserved; assumption.
  - apply String.eqb_neq in D0, D1. unfold other_name. rewrite String.eqb_sym in D0, D1. rewrite D0, D1. reflexivity.
  - symmetry. exact (other_own m0 m1).
Qed.
Print Assumptions C54_nested_attributes.

(** ** C55 *)

(** The name of the enum, which is made from a hash of the code, has no effect: with another hash the answer is the same but for
    that name. The code itself should not name the enum. *)
Theorem C55_enum_name : forall hash0 hash1 ta n args i,
  plain_input i = true ->
  let new := one_name (enum_name (hash0 (NInput i))) (enum_name (hash1 (NInput i))) in
  re_input same_name new i = i ->
  but_names same_name new (attribute hash0 ta n args i) (attribute hash1 ta n args i).
Proof.
  intros hash0 hash1 ta n args i P new N. destruct (parse_args args) as [e|[ps mo]] eqn:A.
  - unfold attribute, ctx_root, ctx_new. rewrite A. reflexivity.
  - rewrite <- N at 2. eapply rename_run; eauto. rewrite N. unfold new, one_name. rewrite String.eqb_refl. reflexivity.
Qed.
Print Assumptions C55_enum_name.

(** So whether code is refused, and with which errors, does not depend on the hash. *)
Theorem C55_refused : forall hash0 hash1 ta n args i l,
  plain_input i = true ->
  re_input same_name (one_name (enum_name (hash0 (NInput i))) (enum_name (hash1 (NInput i)))) i = i ->
  attribute hash0 ta n args i = ROk (Errors l) <-> attribute hash1 ta n args i = ROk (Errors l).
Proof.
  intros hash0 hash1 ta n args i l P N. pose proof (C55_enum_name hash0 hash1 ta n args i P N) as T. cbv zeta in T.
  destruct (attribute hash0 ta n args i) as [[]| |], (attribute hash1 ta n args i) as [[]| |]; cbn in T; try contradiction;
    split; intros H; try discriminate H; congruence.
Qed.
Print Assumptions C55_refused.

(** With inner attributes, each of which has an enum of its own: if [new] takes the name that one hash gives a part of the code to
    the name that the other gives the same part, then it takes one answer to the other. Nothing is asked of [new] otherwise: it may
    take the names of two enums to the same name. *)
Theorem C55_nested_attributes : forall hash0 hash1 new ta n args i,
  (forall e, enum_name (hash1 (NExpr (re_expr same_name new e))) = new (enum_name (hash0 (NExpr e)))) ->
  (forall s, enum_name (hash1 (NStmt (re_stmt same_name new s))) = new (enum_name (hash0 (NStmt s)))) ->
  enum_name (hash1 (NInput i)) = new (enum_name (hash0 (NInput i))) ->
  re_input same_name new i = i ->
  but_names same_name new (attribute hash0 ta n args i) (attribute hash1 ta n args i).
Proof.
  intros hash0 hash1 new ta n args i HE HS HI N. destruct (parse_args args) as [e|[ps mo]] eqn:A.
  - unfold attribute, ctx_root, ctx_new. rewrite A. reflexivity.
  - rewrite <- N at 2. eapply rename_nested; eauto; try reflexivity; [rewrite N; exact HI|apply same_kept_input].
Qed.
Print Assumptions C55_nested_attributes.

(** ** Concrete cases *)

(** [fn f() -> impl Iterator { if c { return marker!(r()); } m!(q()); match x { A => marker!(a()), B => b() } }] under [#[auto_enum(Iterator)]], and
    with [marker] and [m] exchanged under [#[auto_enum(Iterator, marker = m)]]. *)
Definition mark (m : string) (e : expr) : expr := EMacro [] (Mac (plain_path [m]) (Some e)).
Definition marked_fn (m1 m2 : string) : input :=
  InStmt (SItem (IFn [] "f" (Some (impl_ty "Iterator"))
    [SExpr (EIf [] (var "c") [SExpr (EReturn [] (Some (mark m1 (call0 "r")))) true] None) false;
     SExpr (mark m2 (call0 "q")) true;
     SExpr (EMatch [] (var "x") [arm1 "A" (mark m1 (call0 "a")); arm1 "B" (call0 "b")]) false])).
Definition m_args : list token := [TkIdent "Iterator"; TkComma; TkIdent "marker"; TkEq; TkIdent "m"].
Definition one_hash (_ : node) : N := 7%N.
Definition run7 (args : list token) (i : input) : res outcome := attribute one_hash false 50 args i.
Example C54_example :
  parse_args sample_args = inr ([plain_path ["Iterator"]], None)
  /\ parse_args m_args = inr ([plain_path ["Iterator"]], Some "m")
  /\ plain_input (marked_fn "marker" "m") = true
  /\ re_input (other_name "marker" "m") same_name (marked_fn "marker" "m") = marked_fn "m" "marker"
  /\ option_map (re_input (other_name "marker" "m") same_name) (code_of (run7 sample_args (marked_fn "marker" "m"))) = code_of (run7 m_args (marked_fn "m" "marker"))
  /\ code_of (run7 m_args (marked_fn "m" "marker")) <> None
  /\ code_of (run7 m_args (marked_fn "m" "marker")) <> code_of (run7 sample_args (marked_fn "m" "marker")).
Proof. repeat split; try (vm_compute; reflexivity); vm_compute; discriminate. Qed.

(** One branch with a marker alone is refused under either name. *)
Definition one_mark (m : string) : input := InExpr (EMatch [] (var "x") [arm1 "A" (mark m (call0 "a"))]).
Example C54_refused_example :
  run7 sample_args (one_mark "marker") = ROk (Errors [ErrFewVariants true false])
  /\ run7 m_args (one_mark "m") = ROk (Errors [ErrFewVariants true false]) /\ re_input (other_name "marker" "m") same_name (one_mark "marker") = one_mark "m".
Proof. vm_compute. auto. Qed.

(** Names that the expansion knows itself are excluded: if [panic] and [marker] are exchanged, then what was [panic!(..)] is a macro
    like any other, and its branch gets a variant. *)
Definition two_marks (m : string) : input :=
  InExpr (EMatch [] (var "x") [arm1 "A" (call0 "a"); arm1 "B" (call0 "b"); Arm [] (POther "C") None (mark m (call0 "c")) true; arm1 "D" (mark "panic" (call0 "d"))]).
Definition panic_args : list token := [TkIdent "Iterator"; TkComma; TkIdent "marker"; TkEq; TkIdent "panic"].
Example C54_reserved :
  option_map (re_input (other_name "marker" "panic") same_name) (code_of (run7 sample_args (two_marks "marker"))) <> code_of (run7 panic_args (re_input (other_name "marker" "panic") same_name (two_marks "marker"))).
Proof. vm_compute. discriminate. Qed.

(** The default name differs from others below an inner attribute: there only [m!] is replaced. *)
Definition below (m : string) : input :=
  InExpr (EMatch [] (var "x")
    [arm1 "A" (call0 "a"); arm1 "B" (call0 "b");
     arm1 "C" (EBlock [] None
       [SLocal (Local [auto_enum_attr [TkIdent "Clone"; TkComma; TkIdent "marker"; TkEq; TkIdent "k"]] (PBind "z") None
          (Some (EMatch [] (var "y") [arm1 "D" (call0 "d"); arm1 "E" (EBlock [] None [SExpr (mark m (call0 "e")) false])])) None);
        SExpr (var "z") false])]).
Example C54_nested :
  plain_input (below "marker") = false
  /\ option_map (re_input (other_name "marker" "m") same_name) (code_of (run7 sample_args (below "marker"))) <> code_of (run7 m_args (below "m")).
Proof. split; [reflexivity|]. vm_compute. discriminate. Qed.

(** A marker below an inner attribute, with [m] and [q] for the outer attribute. *)
Definition q_args : list token := [TkIdent "Iterator"; TkComma; TkIdent "marker"; TkEq; TkIdent "q"].
Example C54_nested_example :
  parse_args m_args = inr ([plain_path ["Iterator"]], Some "m") /\ parse_args q_args = inr ([plain_path ["Iterator"]], Some "q")
  /\ kept_input (other_name "m" "q") (below "m") = true /\ re_input (other_name "m" "q") same_name (below "m") = below "q"
  /\ option_map (re_input (other_name "m" "q") same_name) (code_of (run7 m_args (below "m"))) = code_of (run7 q_args (below "q"))
  /\ code_of (run7 q_args (below "q")) <> None
  /\ code_of (run7 q_args (below "q")) <> code_of (run7 m_args (below "q")).
Proof. repeat split; try (vm_compute; reflexivity); vm_compute; discriminate. Qed.

(** If the inner attribute chose the new name too, it would be refused. *)
Definition k_args : list token := [TkIdent "Iterator"; TkComma; TkIdent "marker"; TkEq; TkIdent "k"].
Example C54_kept_condition :
  kept_input (other_name "m" "k") (below "m") = false /\ code_of (run7 m_args (below "m")) <> None
  /\ code_of (run7 k_args (re_input (other_name "m" "k") same_name (below "m"))) = None.
Proof. repeat split; try (vm_compute; reflexivity); vm_compute; discriminate. Qed.

(** Two hashes for the same code, with a [return], a marker and two branches. *)
Definition plain_fn : input :=
  InStmt (SItem (IFn [] "f" (Some (impl_ty "Iterator"))
    [SExpr (EIf [] (var "c") [SExpr (EReturn [] (Some (call0 "r"))) true] None) false; SExpr (mark "marker" (call0 "q")) true;
     SExpr sample_match false])).
Definition run8 (args : list token) (i : input) : res outcome := attribute (fun _ => 8%N) false 50 args i.
Example C55_example :
  plain_input plain_fn = true /\ re_input same_name (one_name "__Enum7" "__Enum8") plain_fn = plain_fn
  /\ option_map (re_input same_name (one_name "__Enum7" "__Enum8")) (code_of (run7 sample_args plain_fn)) = code_of (run8 sample_args plain_fn)
  /\ code_of (run8 sample_args plain_fn) <> None /\ code_of (run7 sample_args plain_fn) <> code_of (run8 sample_args plain_fn).
Proof. repeat split; try (vm_compute; reflexivity); vm_compute; discriminate. Qed.
Example C55_refused_example :
  re_input same_name (one_name "__Enum7" "__Enum8") (one_mark "marker") = one_mark "marker"
  /\ run7 sample_args (one_mark "marker") = ROk (Errors [ErrFewVariants true false])
  /\ run8 sample_args (one_mark "marker") = ROk (Errors [ErrFewVariants true false]).
Proof. vm_compute. auto. Qed.

(** Code with an inner attribute, under a hash that tells expressions, statements and the whole apart and under a constant one. *)
Definition kind_hash (x : node) : N := match x with NExpr _ => 1%N | NStmt _ => 2%N | NInput _ => 3%N end.
Definition to_one (s : string) : string := if existsb (String.eqb s) ["__Enum1"; "__Enum2"; "__Enum3"] then "__Enum7" else s.
Example C55_nested_example :
  (forall e, enum_name (one_hash (NExpr (re_expr same_name to_one e))) = to_one (enum_name (kind_hash (NExpr e))))
  /\ (forall s, enum_name (one_hash (NStmt (re_stmt same_name to_one s))) = to_one (enum_name (kind_hash (NStmt s))))
  /\ enum_name (one_hash (NInput (below "m"))) = to_one (enum_name (kind_hash (NInput (below "m"))))
  /\ re_input same_name to_one (below "m") = below "m"
  /\ (let r := attribute kind_hash false 50 m_args (below "m") in
      option_map (re_input same_name to_one) (code_of r) = code_of (run7 m_args (below "m"))
      /\ code_of r <> None /\ code_of r <> code_of (run7 m_args (below "m"))).
Proof. cbv zeta. repeat split; try (intros; vm_compute; reflexivity); vm_compute; discriminate. Qed.

(** Code that names the enum is not renamed by the macro. *)
Definition names_it : input :=
  InExpr (EMatch [] (var "x") [arm1 "A" (call0 "a"); arm1 "B" (EPath [] false (plain_path ["__Enum7"; "V"]))]).
Example C55_condition :
  re_input same_name (one_name "__Enum7" "__Enum8") names_it <> names_it
  /\ option_map (re_input same_name (one_name "__Enum7" "__Enum8")) (code_of (run7 sample_args names_it)) <> code_of (run8 sample_args names_it).
Proof. split; vm_compute; discriminate. Qed.
