(** Properties C25, C26, C27, C38: arguments, recognised names, and traits taken from types. *)

Require Import Coq.Strings.String Coq.Lists.List Coq.Bool.Bool Coq.Arith.Arith Coq.NArith.NArith Lia.
Require Import Verif.Syntax Verif.Context Verif.ExprModel Verif.TypeAnalysis Verif.AutoEnum.
Require Import Verif.Edits Verif.RunLemmas Verif.Scope Verif.AttributeRun Verif.RootRun
  Verif.ArgsSpec Verif.ArgsRun Verif.TraitRun Verif.Samples.
Import ListNotations.
Open Scope string_scope.
Open Scope list_scope.

(** ** C25 *)

(** The parser accepts exactly the argument lists with at most one marker, and returns the traits in
    order and the marker. *)
Theorem C25_grammar : forall toks ps m,
  parse_args toks = inr (ps, m)
  <-> exists l, arg_list l toks /\ traits_of l = ps
        /\ markers_of l = match m with Some x => [x] | None => [] end.
Proof. exact parse_args_grammar. Qed.
Print Assumptions C25_grammar.

(** A second marker is rejected with the message about that. *)
Theorem C25_second_marker : forall toks l,
  arg_list l toks -> 2 <= length (markers_of l) -> parse_args toks = inl ErrDupMarkerArg.
Proof. exact parse_args_dup. Qed.
Print Assumptions C25_second_marker.

(** Arguments outside the grammar make the attribute fail whatever it is put on. *)
Theorem C25_rejected : forall hash ta n args i,
  (forall l, arg_list l args -> 2 <= length (markers_of l)) ->
  exists e, attribute hash ta n args i = ROk (Errors [e]).
Proof.
  intros hash ta n args i H. unfold attribute, ctx_root, ctx_new.
  destruct (parse_args args) as [e|[ps m]] eqn:E; [eauto|exfalso].
  apply parse_args_grammar in E. destruct E as (l & AL & _ & EM). apply H in AL.
  rewrite EM in AL. destruct m; cbn in AL; lia.
Qed.
Print Assumptions C25_rejected.

(** [Iterator, marker = m, ::std::fmt::Debug, marker,]: a trait called [marker] comes last. *)
Example C25_example :
  let toks := [TkIdent "Iterator"; TkComma; TkIdent "marker"; TkEq; TkIdent "m"; TkComma;
               TkColon2; TkIdent "std"; TkColon2; TkIdent "fmt"; TkColon2; TkIdent "Debug"; TkComma;
               TkIdent "marker"; TkComma] in
  parse_args toks
  = inr ([plain_path ["Iterator"];
          Path true [Seg "std" ANone; Seg "fmt" ANone; Seg "Debug" ANone]; plain_path ["marker"]], Some "m")
  /\ parse_args (toks ++ toks) = inl ErrDupMarkerArg
  /\ parse_args [TkComma] = inl ErrArgSyntax
  /\ parse_args [TkIdent "marker"; TkEq] = inl ErrArgSyntax
  /\ parse_args [TkIdent "A"; TkIdent "B"] = inl ErrArgSyntax.
Proof. vm_compute. auto 6. Qed.

Example C25_example_grammar :
  arg_list [Trait (plain_path ["A"]); Marker "m"; Trait (plain_path ["fmt"; "Debug"])]
    [TkIdent "A"; TkComma; TkIdent "marker"; TkEq; TkIdent "m"; TkComma; TkIdent "fmt"; TkColon2;
     TkIdent "Debug"].
Proof.
  apply (al_cons _ _ [TkIdent "A"]); [constructor; constructor|].
  apply (al_cons _ _ [TkIdent "marker"; TkEq; TkIdent "m"]); [constructor|].
  apply al_one. apply w_path. constructor. constructor.
Qed.

(** ** C26 *)

(** [None?] and [Err(e)?] *)
Theorem C26_try_exit : forall x,
  is_try_exit x = true
  <-> (exists a p, x = EPath a false p /\ names p ["option"; "Option"] "None")
      \/ (exists a fa p y, x = ECall a (EPath fa false p) [y] /\ names p ["result"; "Result"] "Err").
Proof.
  intros x. split.
  - destruct x; try discriminate; cbn [is_try_exit].
    + destruct args as [|y [|]]; cbn [length Nat.eqb]; try discriminate.
      destruct x; try discriminate. destruct qself; [discriminate|]. intros H. right.
      exists a, a0, p, y. split; [reflexivity|].
      apply (path_eq_names p ["result"; "Result"] "Err"). exact H.
    + destruct qself; [discriminate|]. intros H. left. exists a, p. split; [reflexivity|].
      apply (path_eq_names p ["option"; "Option"] "None"). exact H.
  - intros [(a & p & -> & H)|(a & fa & p & y & -> & H)]; cbn.
    + apply (path_eq_names p ["option"; "Option"] "None"). exact H.
    + apply (path_eq_names p ["result"; "Result"] "Err"). exact H.
Qed.
Print Assumptions C26_try_exit.

(** [panic!] and [unreachable!] (for a macro that is no marker) *)
Theorem C26_macros : forall cx m,
  is_marker_macro cx m = false ->
  (is_unreachable_macro cx m = true
   <-> names (mac_path m) [] "panic" \/ names (mac_path m) [] "unreachable").
Proof.
  intros cx m H. unfold is_unreachable_macro. rewrite H. cbn [existsb].
  rewrite !orb_true_iff, <- (path_eq_names (mac_path m) [] "panic"),
    <- (path_eq_names (mac_path m) [] "unreachable"). cbn [app].
  split; [intros [[X|[X|X]]|X]; try discriminate; auto|intros [X|X]; auto].
Qed.
Print Assumptions C26_macros.

(** [Result<T, impl Trait>] as a return type *)
Theorem C26_result : forall t,
  is_result_impl t = true
  <-> exists leading segs id t1 bs,
        t = TPath None (Path leading (segs ++ [Seg id (AAngle false [GType t1; GType (TImpl bs)])]))
        /\ names (Path leading (segs ++ [Seg id ANone])) ["result"] "Result".
Proof.
  intros t. split.
  - destruct t as [|[|] p|]; try discriminate. destruct p as [ld segs]. cbn [is_result_impl path_segs].
    destruct segs as [|s0 segs0] using rev_ind; [discriminate|]. clear IHsegs0.
    rewrite last_last. destruct s0 as [id args]. cbn [seg_args].
    destruct args as [|[] [|g1 [|g2 [|]]]|]; try discriminate.
    intros H. apply andb_true_iff in H. destruct H as [H1 H2].
    destruct g1 as [t1| | |]; try discriminate. destruct g2 as [[bs| |]| | |]; try discriminate.
    exists ld, segs0, id, t1, bs. split; [reflexivity|].
    apply (path_eq_names _ ["result"] "Result"). revert H1. unfold path_eq, path_ids. cbn [path_segs].
    rewrite !map_app. exact (fun H => H).
  - intros (ld & segs & id & t1 & bs & -> & H). cbn [is_result_impl path_segs]. rewrite last_last. cbn [seg_args].
    rewrite andb_true_r. apply (path_eq_names _ ["result"] "Result") in H. revert H.
    unfold path_eq, path_ids. cbn [path_segs]. rewrite !map_app. exact (fun H => H).
Qed.
Print Assumptions C26_result.

(** All names at once, for any list of modules. *)
Theorem C26_names : forall p modules name,
  path_eq p ["std"; "core"] (modules ++ [name]) = true <-> names p modules name.
Proof. exact path_eq_names. Qed.
Print Assumptions C26_names.

(** [::core::option::Option::None] counts; [Option::None] and [alloc::option::Option::None] do not. *)
Example C26_example :
  is_try_exit (EPath [] false (Path true (path_segs (plain_path ["core"; "option"; "Option"; "None"])))) = true
  /\ is_try_exit (EPath [] false (plain_path ["Option"; "None"])) = false
  /\ is_try_exit (EPath [] false (plain_path ["alloc"; "option"; "Option"; "None"])) = false
  /\ is_try_exit (EPath [] true (plain_path ["None"])) = false
  /\ is_result_impl (TPath None (Path false [Seg "std" ANone; Seg "result" ANone;
        Seg "Result" (AAngle false [GType (TOther "u8" []); GType (impl_ty "Display")])])) = true
  /\ is_result_impl (TPath None (Path false [Seg "io" ANone;
        Seg "Result" (AAngle false [GType (TOther "u8" []); GType (impl_ty "Display")])])) = false.
Proof. vm_compute. auto 7. Qed.

(** ** C27 *)

(** The traits derived by the enum of an attribute that is accepted: the arguments followed by the new
    traits of each [impl ..] in the type, in the order of [impls]; only with type analysis. *)
Theorem C27_enum_traits : forall hash ta n args i i' cx ps m,
  attribute hash ta n args i = ROk (Code i' cx) -> parse_args args = inr (ps, m) ->
  g_derive (own_enum cx)
  = ps ++ match annotated_type i with
          | Some t => if ta then flat_map (fun bs => filter (wanted ps) (bounds_traits bs)) (impls t) else []
          | None => []
          end.
Proof.
  intros hash ta n args i i' cx ps m H HP. destruct (root_traits _ _ _ _ _ _ _ _ _ H HP) as [E1 E2].
  cbn. rewrite E1, E2. f_equal. unfold taken. destruct (annotated_type i); [|reflexivity].
  destruct ta; [|reflexivity]. apply collect_impls.
Qed.
Print Assumptions C27_enum_traits.

(** [wanted] says: supported by name and not an argument. *)
Theorem C27_wanted : forall args q, wanted args q = true <-> new_trait args q.
Proof. exact wanted_new. Qed.
Print Assumptions C27_wanted.

(** Exactly the bounds of the [impl ..] types that are supported and new are taken. *)
Theorem C27_exact : forall args t q,
  In q (collect_ty args t)
  <-> exists bs, In bs (impls t) /\ In q (bounds_traits bs) /\ new_trait args q.
Proof. exact collect_exact. Qed.
Print Assumptions C27_exact.

(** [fn f() -> Option<impl Iterator<Item = impl Clone + Send> + Debug>] with [#[auto_enum(Debug)]]:
    [Clone] comes before [Iterator], [Send] is not supported, [Debug] is already there. *)
Definition C27_type : ty :=
  TPath None (Path false [Seg "Option" (AAngle false [GType (TImpl
    [BTrait (Path false [Seg "Iterator" (AAngle false
       [GAssoc "Item" (TImpl [BTrait (plain_path ["Clone"]); BTrait (plain_path ["Send"])])])]);
     BTrait (plain_path ["Debug"])])])]).
Definition C27_fn : input :=
  InStmt (SItem (IFn [] "f" (Some C27_type) [SExpr sample_match false])).
Example C27_example :
  match attribute sample_hash true 50 [TkIdent "Debug"] C27_fn with
  | ROk (Code i' cx) =>
      map g_derive (decls i') = [[plain_path ["Debug"]; plain_path ["Clone"]; plain_path ["Iterator"]]]
      /\ begins_with (own_enum cx) i'
  | _ => False
  end.
Proof. vm_compute. split; [reflexivity|eexists; reflexivity]. Qed.

(** ** C38 *)

(** The annotated let statement. *)
Theorem C38_let_type : forall hash ta n args a p t i d i' cx ps m,
  attribute hash ta n args (InStmt (SLocal (Local a p t i d))) = ROk (Code i' cx) ->
  parse_args args = inr (ps, m) ->
  exists t' i2 d2, i' = InStmt (SLocal (Local a p t' i2 d2))
    /\ (t' = t \/ t' = None)
    /\ (forall t0, t = Some t0 ->
        (t' = None <-> ta = true /\ exists bs q, In bs (impls t0) /\ In q (bounds_traits bs) /\ new_trait ps q)).
Proof.
  intros hash ta n args a p t i d i' cx ps m H HP.
  destruct (attribute_run _ _ _ _ _ _ _ H) as (cx0 & tt & C0 & HX & _).
  unfold ctx_root, ctx_new in C0. rewrite HP in C0.
  assert (CA : cx_args cx0 = ps) by (destruct m; cbn in C0; inversion C0; reflexivity).
  unfold expand_input in HX. apply bind_ok in HX. destruct HX as (s' & cx1 & H1 & H2).
  apply ret_ok in H2. destruct H2 as [-> ->]. cbn [expand_parent_stmt] in H1.
  apply bind_ok in H1. destruct H1 as (l' & cx2 & H1 & H2). apply ret_ok in H2. destruct H2 as [-> ->].
  apply parent_local_run in H1. destruct H1 as (_ & i2 & d2 & ->). rewrite CA.
  eexists. exists i2, d2. split; [reflexivity|]. split; [destruct (taken ta ps t); auto|].
  intros t0 ->. cbn [taken]. destruct ta.
  - destruct (collect_ty ps t0) as [|q r] eqn:E.
    + split; [discriminate|]. intros (_ & bs & q & X).
      assert (Y : In q (collect_ty ps t0)) by (apply collect_exact; eauto). rewrite E in Y. destruct Y.
    + split; [intros _|reflexivity]. split; [reflexivity|].
      assert (Y : In q (collect_ty ps t0)) by (rewrite E; left; reflexivity).
      apply collect_exact in Y. destruct Y as (bs & Y). eauto.
  - split; [discriminate|intros [X _]; discriminate].
Qed.
Print Assumptions C38_let_type.

(** A let statement under a nested attribute is expanded by the same function, in a context that
    holds the nested attribute's own arguments. *)
Theorem C38_let_type_nested : forall hash ta n a p t i d cx l' cx',
  expand_parent_local ta (engine hash ta n) (Local a p t i d) cx = ROk (l', cx') ->
  exists i' d', l' = Local a p (match taken ta (cx_args cx) t with [] => t | _ => None end) i' d'.
Proof. intros. eapply parent_local_run. eassumption. Qed.
Print Assumptions C38_let_type_nested.

(** [let x: impl Iterator = match ..;] loses its type, and keeps it without type analysis or when
    [Iterator] is an argument. *)
Definition C38_let : input :=
  InStmt (SLocal (Local [] (PBind "x") (Some (impl_ty "Iterator")) (Some sample_match) None)).
Definition let_ty (o : res outcome) : option (option ty) :=
  match o with ROk (Code (InStmt (SLocal (Local _ _ t _ _))) _) => Some t | _ => None end.
Example C38_example :
  let_ty (attribute sample_hash true 50 [] C38_let) = Some None
  /\ let_ty (attribute sample_hash false 50 [TkIdent "Clone"] C38_let) = Some (Some (impl_ty "Iterator"))
  /\ let_ty (attribute sample_hash true 50 [TkIdent "Iterator"] C38_let) = Some (Some (impl_ty "Iterator")).
Proof. vm_compute. auto. Qed.
