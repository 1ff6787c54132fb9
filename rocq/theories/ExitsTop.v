(** Exits.v for annotated functions and closures. *)

Require Import Coq.Strings.String Coq.Lists.List Coq.Bool.Bool Coq.Arith.Arith Coq.NArith.NArith Lia.
Require Import Verif.Syntax Verif.Context Verif.ExprModel Verif.TypeAnalysis Verif.AutoEnum Verif.Edits.
Require Import Verif.AstInd Verif.RunLemmas Verif.Twin Verif.TwinRun Verif.TwinEdits Verif.FoldTwin Verif.Exits Verif.ExitsRun.
Import ListNotations.
Open Scope string_scope.
Open Scope list_scope.

(** ** Specification *)

(** The marker name of an attribute with the argument [marker = m]. *)
Definition own_marker (m : option string) : string := match m with Some x => x | None => "marker" end.

(** A [?] that counts: not in a macro call, not [#[never]], not on a marker. *)
Definition counted (m : string) (x : place * exit) : bool :=
  match snd x with XTry a y => negb (excluded m (fst x) a (Some y)) | _ => false end.
(** The number of [?]s of the function itself. *)
Definition questions (m : string) (l : list (place * exit)) : nat := List.length (filter (counted m) l).

(** [Result<T, impl Trait>], [std::result::Result<T, impl Trait>] or the same with [core]. *)
Definition result_impl (t : ty) : Prop :=
  exists lead l id T bs, t = TPath None (Path lead (l ++ [Seg id (AAngle false [GType T; GType (TImpl bs)])]))
    /\ In (map seg_id l ++ [id]) [["Result"]; ["std"; "result"; "Result"]; ["core"; "result"; "Result"]].

(** The body of an annotated closure: an expression, a last expression of a block, or the value of a [let]. *)
Definition closure_input (i : input) : option expr :=
  match i with
  | InExpr (EClosure _ _ b) | InStmt (SExpr (EClosure _ _ b) false)
  | InStmt (SLocal (Local _ _ _ (Some (EClosure _ _ b)) _)) => Some b
  | _ => None
  end.
(** The same code, perhaps in a block behind the declaration of an enum. *)
Definition bare (e : expr) : expr :=
  match e with EBlock [] None [SItem (IEnum _); SExpr c false] => c | _ => e end.
Definition closure_output (i : input) : option expr :=
  match i with
  | InExpr e => closure_input (InExpr (bare e))
  | InStmt (SExpr e semi) => closure_input (InStmt (SExpr (bare e) semi))
  | InStmt (SLocal (Local a p t (Some e) d)) => closure_input (InStmt (SLocal (Local a p t (Some (bare e)) d)))
  | _ => None
  end.

(** ** Proofs *)

Lemma result_impl_iff t : result_impl t -> is_result_impl t = true.
Proof.
  intros (lead & l & id & T & bs & -> & H). unfold is_result_impl. cbn [path_segs].
  rewrite last_last. cbn [seg_args].
  assert (E : path_ids (Path lead (l ++ [Seg id (AAngle false [GType T; GType (TImpl bs)])])) = map seg_id l ++ [id]).
  { unfold path_ids. cbn [path_segs]. rewrite map_app. reflexivity. }
  unfold path_eq. rewrite E. destruct H as [<-|[<-|[<-|[]]]]; reflexivity.
Qed.

Lemma count_exits P : cx_root P = true ->
  (forall e pl, in_macro pl = false -> fst (fn_count_expr P e) = questions (cx_marker P) (exits false pl e))
  /\ (forall e pl, in_macro pl = false -> fst (fn_count_stmt P e) = questions (cx_marker P) (exits_stmt false pl e))
  /\ (forall e pl, in_macro pl = false -> fst (fn_count_arm P e) = questions (cx_marker P) (exits_arm false pl e))
  /\ (forall e pl, in_macro pl = false -> fst (fn_count_local P e) = questions (cx_marker P) (exits_local false pl e)).
Proof.
  intros Root. set (R := fun (a : fncount) (l : list (place * exit)) => fst a = questions (cx_marker P) l).
  assert (R0 : R fc_zero []) by reflexivity.
  assert (Rp : forall a a' b b', R a a' -> R b b' -> R (fc_plus a b) (a' ++ b')).
  { unfold R, fc_plus, questions. intros. cbn [fst]. rewrite filter_app, app_length. lia. }
  assert (MC : forall e pl, in_macro pl = true -> questions (cx_marker P) (exits false pl e) = 0).
  { intros e pl I. pose proof (macro_places false e pl I) as M. unfold questions. induction M as [|x l Hx M IH]; [reflexivity|].
    cbn [filter]. unfold counted at 1. unfold excluded. destruct (snd x); try exact IH. rewrite Hx. cbn. exact IH. }
  assert (E : forall e, kids (fun x => forall pl, in_macro pl = false -> R (fn_count_expr P x) (exits false pl x))
       (fun x => forall pl, in_macro pl = false -> R (fn_count_stmt P x) (exits_stmt false pl x))
       (fun x => forall pl, in_macro pl = false -> R (fn_count_arm P x) (exits_arm false pl x)) e ->
     match e with EClosure _ _ _ | EMacro _ _ => False | _ => True end ->
     forall pl, in_macro pl = false -> R (fn_count_expr P e) (exits false pl e)).
  { intros e K NM pl I.
    assert (IB : in_macro (below pl e) = false) by (unfold below; destruct e; cbn; rewrite ?I; try contradiction; reflexivity).
    assert (F : R (fold_expr fc_plus fc_zero (fn_count_expr P) (fn_count_stmt P) (fn_count_arm P) e)
                  (fold_expr (@app _) [] (exits false (below pl e)) (exits_stmt false (below pl e)) (exits_arm false (below pl e)) e)).
    { eapply (fold_walk _ _ _ _ R R0 Rp _ _ _ _ _ _ id_vis); [|apply id_walk].
      clear NM. revert K IB. generalize (below pl e). intros pl1 K IB.
      assert (L : forall A (f : A -> fncount) g l, Forall (fun x => forall pl, in_macro pl = false -> R (f x) (g pl x)) l ->
        Forall (fun x => forall x', x = x' -> R (f x) (g pl1 x')) l).
      { intros. eapply Forall_impl; [|eassumption]. cbn. intros a Ha x' <-. auto. }
      assert (O : forall A (f : A -> fncount) g l, opt_all (fun x => forall pl, in_macro pl = false -> R (f x) (g pl x)) l ->
        opt_all (fun x => forall x', x = x' -> R (f x) (g pl1 x')) l).
      { intros A f g [] H; cbn in *; [|exact Logic.I]. intros x' <-. auto. }
      destruct e; cbn [kids o_expr o_stmt o_arm id_vis] in *; repeat match goal with H : _ /\ _ |- _ => destruct H end;
        repeat split; auto; try (apply L; assumption); try (apply O; assumption); intros x' <-; auto. }
    assert (N : R (fn_count_node P e) (own_exit false pl e)).
    { unfold fn_count_node. rewrite never_empty. unfold R, questions.
      destruct e; try (destruct (never _); reflexivity).
      - cbn [own_exit filter counted snd]. destruct (never _); reflexivity || (destruct (match e with Some _ => _ | None => _ end); reflexivity).
      - cbn [own_exit filter]. unfold counted, excluded. cbn [snd fst e_attrs marks_opt]. rewrite I, (root_marks P _ Root).
        destruct (never _); [reflexivity|]. destruct (marks (cx_marker P) e); reflexivity. }
    rewrite exits_eq.
    assert (EQ : fn_count_expr P e = fc_plus (fn_count_node P e) (fold_expr fc_plus fc_zero (fn_count_expr P) (fn_count_stmt P) (fn_count_arm P) e))
      by (destruct e; try contradiction; reflexivity).
    rewrite EQ. unfold R, questions in *. cbn [fc_plus fst].
    assert (EI : inner false (below pl e) e = fold_expr (@app _) [] (exits false (below pl e)) (exits_stmt false (below pl e)) (exits_arm false (below pl e)) e)
      by (destruct e; try contradiction; reflexivity).
    rewrite EI, filter_app, app_length, N, F. lia. }
  unfold R in E. apply ast_ind; intros; try (apply E; cbn [kids]; auto; fail).
  - reflexivity.
  - rewrite exits_eq. cbn [inner own_exit]. rewrite app_nil_r.
    assert (Z : forall m, fst (fn_count_expr P (EMacro a m)) = 0)
      by (intros m; cbn [fn_count_expr enters_closure fold_expr fc_plus fst]; unfold fn_count_node; destruct (any_empty_attr _ _); reflexivity).
    rewrite Z. destruct e; [|reflexivity]. symmetry. apply MC. unfold below. cbn. apply orb_true_r.
  - apply H. exact H0.
  - reflexivity.
  - apply H. exact H0.
  - destruct e; [|reflexivity]. symmetry. cbn [exits_stmt]. apply MC. reflexivity.
  - rewrite exits_local_eq. cbn [fn_count_local fold_local]. apply (Rp _ _ _ _); unfold R.
    + destruct i; [apply H; assumption|reflexivity].
    + destruct d; [apply H0; assumption|reflexivity].
  - rewrite exits_arm_eq. cbn [fn_count_arm fold_arm]. apply (Rp _ _ _ _); unfold R.
    + destruct g; [apply H; assumption|reflexivity].
    + apply H0; assumption.
Qed.

Lemma result_impl_true t : is_result_impl t = true -> result_impl t.
Proof.
  unfold is_result_impl, result_impl. destruct t as [|[|] p|]; try discriminate.
  destruct p as [lead segs]. cbn [path_segs].
  destruct (rev segs) as [|[id g] r] eqn:R.
  { apply (f_equal (@rev _)) in R. rewrite rev_involutive in R. subst. discriminate. }
  apply (f_equal (@rev _)) in R. rewrite rev_involutive in R. cbn [rev] in R. subst segs. rewrite last_last. cbn [seg_args].
  destruct g as [|[] l|]; try discriminate. destruct l as [|g1 [|g2 [|]]]; try discriminate.
  destruct g1 as [T| | |]; try (rewrite andb_false_r; discriminate).
  destruct g2 as [[bs| |]| | |]; try (rewrite andb_false_r; discriminate). rewrite andb_true_r.
  intros E. exists lead, (rev r), id, T, bs. split; [reflexivity|]. revert E. unfold path_eq, path_ids. cbn [path_segs].
  rewrite map_app. cbn [map seg_id]. generalize (map seg_id (rev r)). intros l.
  destruct l as [|x [|y [|z l]]]; cbn; rewrite ?andb_false_r, ?andb_true_r, ?orb_false_r; try discriminate.
  - destruct (String.eqb_spec id "Result"); [subst; auto|discriminate].
  - destruct (String.eqb_spec id "Result"); [subst|rewrite !andb_false_r; discriminate].
    destruct (String.eqb_spec y "result"); [subst|rewrite !andb_false_r; discriminate]. rewrite andb_true_r.
    destruct (String.eqb_spec x "std"); [subst; auto|]. destruct (String.eqb_spec x "core"); [subst; auto|discriminate].
  - destruct l; discriminate.
Qed.

Lemma root_facts id args ps m P : parse_args args = inr (ps, m) -> ctx_root id args = inr P ->
  (gen_name id = true -> gen_name (cx_ident P) = true) /\ cx_ident P = id /\ cx_marker P = own_marker m /\ cx_root P = true /\ cx_args P = ps /\ cx_mode P = VDefault
  /\ cx_last P = LDefault.
Proof.
  unfold ctx_root, ctx_new. intros ->. destruct m as [m|]; cbn; intros E; injection E as <-; (split; [auto|repeat split; reflexivity]).
Qed.

Section Top.
  Variable hash : node -> N.
  Variable ta : bool.
  Variable n : nat.
  Let T := tengine_n hash ta n.
  Let G : exits_ok T := engine_exits hash ta n.

  (** The exits are collected as the mode demands. *)
  Definition mode_fits (P : ctx) (q : bool) : Prop :=
    match cx_mode P with VDefault => True | VReturn _ => q = false | VTry => q = true end.
  Lemma mode_fit P q pl : gen_name (cx_ident P) = true -> cx_root P = true -> in_macro pl = false -> in_try pl = false -> mode_fits P q -> fit P q scope0 pl.
  Proof. unfold fit, mode_fits. intros. split; [assumption|]. destruct (cx_mode P); cbn; auto. Qed.

  Lemma body_exits_of P q e e' : gen_name (cx_ident P) = true -> cx_root P = true -> mode_fits P q -> cx_args P <> [] -> t_body ta T P e e' ->
    Forall2 (treated P false) (exits q (Place false false) e) (exits q (Place false false) e').
  Proof.
    intros GN R M N (e1 & k & C & _ & [[(_ & A & _) _]|V]); [contradiction|].
    eapply Forall2_comp; [apply same_treated|apply split_same_exits; eapply c_expr_same; [exact GN|exact C]|].
    eapply (xo_vexpr _ G P scope0); [apply mode_fit; auto|exact V].
  Qed.

  Lemma fn_exits P out b b' q : gen_name (cx_ident P) = true -> cx_root P = true -> mode_fits (fn_ctx ta P out b) q -> cx_args P <> [] ->
    t_parent_fn ta T P out b b' ->
    Forall2 (treated (fn_ctx ta P out b) false) (body_exits q b) (body_exits q b').
  Proof.
    intros GN R M N. unfold t_parent_fn. cbv zeta.
    set (P1 := fn_ctx ta P out b) in *.
    assert (R1 : cx_root P1 = true) by (unfold P1, fn_ctx, t_collect; destruct out, ta; exact R).
    assert (GN1 : gen_name (cx_ident P1) = true) by (unfold P1, fn_ctx, t_collect; destruct out, ta; exact GN).
    assert (N1 : cx_args P1 <> []) by (unfold P1, fn_ctx, t_collect; destruct out, ta; exact N).
    assert (D : is_dummy P1 = false) by (unfold is_dummy; destruct (cx_args P1); [congruence|reflexivity]).
    rewrite D. intros (_ & b1 & k0 & L & _ & [[(_ & A & _) _]|(b2 & V & E)]); [contradiction|].
    assert (X : Forall2 (treated P1 false) (body_exits q b) (body_exits q b2)).
    { eapply Forall2_comp; [apply same_treated| |].
      - eapply t_last_same; [|exact L]. apply Forall_forall. intros [] _; auto.
        intros e' C. apply split_same_exits. eapply c_expr_same; [exact GN1|exact C].
      - eapply fold_all2; [constructor|intros; apply Forall2_app; assumption| |exact V].
        apply Forall_forall. intros s _ s' S. eapply (xo_vstmt _ G P1 scope0); [apply mode_fit; auto|exact S]. }
    destruct E as [->|(k & _ & ->)]; exact X.
  Qed.

  Lemma fn_top P out b b' q own m : gen_name (cx_ident P) = true -> cx_root P = true -> mode_fits (fn_ctx ta P out b) q -> cx_args P <> [] ->
    cx_ident P = own -> cx_marker P = m -> t_parent_fn ta T P out b b' ->
    Forall2 (match cx_mode (fn_ctx ta P out b) with
             | VDefault => kept2 | VReturn _ => return_wrapped own m | VTry => question_replaced own m
             end) (body_exits q b) (body_exits q b').
  Proof.
    intros GN R M N <- <- H. pose proof (fn_exits P out b b' q GN R M N H) as X. unfold treated in X.
    assert (E1 : cx_ident (fn_ctx ta P out b) = cx_ident P) by (unfold fn_ctx, t_collect; destruct out, ta; reflexivity).
    assert (E2 : cx_marker (fn_ctx ta P out b) = cx_marker P) by (unfold fn_ctx, t_collect; destruct out, ta; reflexivity).
    rewrite E1, E2 in X. exact X.
  Qed.
  Lemma fn_ctx_mode P out b : cx_mode (fn_ctx ta P out b) = t_fn_mode P out b.
  Proof. unfold fn_ctx. rewrite collect_mode. reflexivity. Qed.

  Lemma count_body P b : cx_root P = true ->
    fst (visit_fn_block P b) = questions (cx_marker P) (body_exits false b).
  Proof.
    intros R. destruct (count_exits P R) as (_ & S & _). unfold visit_fn_block, body_exits.
    induction b as [|s b IH]; [reflexivity|]. unfold fold_list in *. cbn [fold_right fc_plus fst].
    rewrite (S s (Place false false) eq_refl), IH. unfold questions. rewrite filter_app, app_length. reflexivity.
  Qed.

  Lemma closure_top P a ps b e1 own m : gen_name (cx_ident P) = true -> cx_root P = true -> cx_args P <> [] -> cx_last P = LDefault -> cx_mode P = VDefault ->
    cx_ident P = own -> cx_marker P = m ->
    t_expand ta T P (EClosure a ps b) e1 ->
    exists b', e1 = EClosure a ps b' /\ if (2 <=? questions m (exits false (Place false false) b))%nat
      then Forall2 (question_replaced own m) (exits true (Place false false) b) (exits true (Place false false) b')
      else Forall2 (return_wrapped own m) (exits false (Place false false) b) (exits false (Place false false) b').
  Proof.
    intros GN R N L MD <- <- H. unfold t_expand, visit_last in H. rewrite L, MD in H. cbn [andb] in H. destruct H as (b' & -> & H).
    exists b'. split; [reflexivity|].
    destruct (count_exits P R) as (E & _). rewrite <- (E b (Place false false) eq_refl).
    unfold closure_mode, visit_fn_expr in H.
    destruct (2 <=? fst (fn_count_expr P b))%nat.
    - exact (body_exits_of (set_mode VTry P) true b b' GN R eq_refl N H).
    - exact (body_exits_of (set_mode (VReturn _) P) false b b' GN R eq_refl N H).
  Qed.
  Lemma bare_closure P a ps b e' : t_build_expr P (EClosure a ps b) e' -> bare e' = EClosure a ps b.
  Proof. intros [->|(k & _ & ->)]; reflexivity. Qed.
End Top.

Section Attribute.
  Variable hash : node -> N.
  Variable ta : bool.
  Variable n : nat.
  Variables (args : list token) (ps : list path) (m : option string).
  Hypothesis parsed : parse_args args = inr (ps, m).
  Hypothesis some : ps <> [].

  Theorem impl_fn_exits a sg ts b i' cx :
    attribute hash ta n args (InStmt (SItem (IFn a sg (Some (TImpl ts)) b))) = ROk (Code i' cx) ->
    exists b', i' = InStmt (SItem (IFn a sg (Some (TImpl ts)) b'))
      /\ Forall2 (return_wrapped (enum_name (hash (NInput (InStmt (SItem (IFn a sg (Some (TImpl ts)) b)))))) (own_marker m))
                 (body_exits false b) (body_exits false b').
  Proof.
    intros H. apply attribute_twin in H. destruct H as (P & E & H).
    destruct (root_facts _ _ _ _ _ parsed E) as (GN & I & M & R & A & _ & L). specialize (GN (gen_enum_name _)).
    cbn in H. destruct H as (s' & -> & b' & -> & H). exists b'. split; [reflexivity|].
    pose proof (fn_ctx_mode ta P (Some (TImpl ts)) b) as MD. unfold t_fn_mode in MD. rewrite L in MD.
    epose proof (fn_top hash ta n P (Some (TImpl ts)) b b' false _ _ GN R) as X.
    unfold mode_fits in X. rewrite MD in X. apply X; auto. congruence.
  Qed.

  Theorem result_fn_exits a sg t b i' cx :
    result_impl t -> 2 <= questions (own_marker m) (body_exits false b) ->
    attribute hash ta n args (InStmt (SItem (IFn a sg (Some t) b))) = ROk (Code i' cx) ->
    exists b', i' = InStmt (SItem (IFn a sg (Some t) b'))
      /\ Forall2 (question_replaced (enum_name (hash (NInput (InStmt (SItem (IFn a sg (Some t) b)))))) (own_marker m))
                 (body_exits true b) (body_exits true b').
  Proof.
    intros RI Q H. apply attribute_twin in H. destruct H as (P & E & H).
    destruct (root_facts _ _ _ _ _ parsed E) as (GN & I & M & R & A & _ & L). specialize (GN (gen_enum_name _)).
    cbn in H. destruct H as (s' & -> & b' & -> & H). exists b'. split; [reflexivity|].
    pose proof (fn_ctx_mode ta P (Some t) b) as MD. unfold t_fn_mode in MD.
    rewrite L, (result_impl_iff t RI), count_body, M in MD by exact R. apply Nat.leb_le in Q. rewrite Q in MD.
    assert (MV : cx_mode (fn_ctx ta P (Some t) b) = VTry) by (destruct RI as (? & ? & ? & ? & ? & -> & _); exact MD).
    epose proof (fn_top hash ta n P (Some t) b b' true _ _ GN R) as X.
    unfold mode_fits in X. rewrite MV in X. apply X; auto. congruence.
  Qed.

  Theorem closure_exits i i' cx b :
    closure_input i = Some b -> attribute hash ta n args i = ROk (Code i' cx) ->
    exists b', closure_output i' = Some b'
      /\ if (2 <=? questions (own_marker m) (exits false (Place false false) b))%nat
         then Forall2 (question_replaced (enum_name (hash (NInput i))) (own_marker m))
                      (exits true (Place false false) b) (exits true (Place false false) b')
         else Forall2 (return_wrapped (enum_name (hash (NInput i))) (own_marker m))
                      (exits false (Place false false) b) (exits false (Place false false) b').
  Proof.
    intros CI H. apply attribute_twin in H. destruct H as (P & E & H).
    destruct (root_facts _ _ _ _ _ parsed E) as (GN & I & M & R & A & MD & L). specialize (GN (gen_enum_name _)).
    assert (N : cx_args P <> []) by congruence.
    assert (D : is_dummy P = false) by (unfold is_dummy; destruct (cx_args P); [congruence|reflexivity]).
    destruct i as [s|e|]; [destruct s as [l|it|e semi|]; try discriminate|destruct e; try discriminate|discriminate].
    - destruct l as [a p t i d]. destruct i as [e|]; [|discriminate]. destruct e as [| | | | | | | | | | | |ca cp cb| | | | | | |]; try discriminate. injection CI as ->.
      cbn [t_input t_parent_stmt t_parent_local] in H. cbv zeta in H.
      destruct H as (s' & -> & l' & -> & j' & d' & -> & H).
      assert (D1 : is_dummy (t_collect ta P t) = false)
        by (unfold is_dummy, t_collect; destruct t, ta; cbn [set_traits cx_args]; destruct (cx_args P); congruence || reflexivity).
      rewrite D1 in H. destruct H as (-> & e & e1 & e' & X & -> & T & B). injection X as <-.
      assert (C0 : gen_name (cx_ident (t_collect ta P t)) = true) by (unfold t_collect; destruct t, ta; exact GN).
      assert (C : cx_root (t_collect ta P t) = true /\ cx_args (t_collect ta P t) <> [] /\ cx_last (t_collect ta P t) = LDefault
        /\ cx_mode (t_collect ta P t) = VDefault /\ cx_ident (t_collect ta P t) = cx_ident P /\ cx_marker (t_collect ta P t) = cx_marker P)
        by (unfold t_collect; destruct t, ta; repeat split; assumption || reflexivity).
      destruct C as (C1 & C2 & C3 & C4 & C5 & C6). rewrite I in C5. rewrite M in C6.
      destruct (closure_top hash ta n _ _ _ _ _ _ _ C0 C1 C2 C3 C4 C5 C6 T) as (b' & -> & F).
      exists b'. cbn [closure_output]. rewrite (bare_closure _ _ _ _ _ B). auto.
    - destruct e; try discriminate. destruct semi; [discriminate|]. injection CI as ->.
      cbn [t_input t_parent_stmt] in H. destruct H as (s' & -> & e' & -> & H). unfold t_parent_expr in H. rewrite D in H.
      destruct H as (e1 & T & B). cbn [semi_ctx] in *.
      destruct (closure_top hash ta n P _ _ _ _ _ _ GN R N L MD I M T) as (b' & -> & F).
      exists b'. cbn [closure_output]. rewrite (bare_closure _ _ _ _ _ B). auto.
    - injection CI as ->.
      cbn [t_input] in H. destruct H as (e' & -> & H). unfold t_parent_expr in H. rewrite D in H.
      destruct H as (e1 & T & B). cbn [semi_ctx] in *.
      destruct (closure_top hash ta n P _ _ _ _ _ _ GN R N L MD I M T) as (b' & -> & F).
      exists b'. cbn [closure_output]. rewrite (bare_closure _ _ _ _ _ B). auto.
  Qed.
End Attribute.

Lemma Forall2_weaken {A B} (R S : A -> B -> Prop) l l' : (forall x y, R x y -> S x y) -> Forall2 R l l' -> Forall2 S l l'.
Proof. intros H. induction 1; constructor; auto. Qed.
