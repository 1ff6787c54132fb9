(** Swap.v for the runs of the macro. *)

Require Import Coq.Strings.String Coq.Lists.List Coq.Bool.Bool Coq.Arith.Arith Coq.NArith.NArith Lia.
Require Import Verif.Syntax Verif.Context Verif.ExprModel Verif.TypeAnalysis Verif.AutoEnum Verif.Edits.
Require Import Verif.AstInd Verif.RunLemmas Verif.Frame Verif.ArgsSpec Verif.ArgsRun Verif.TraitRun Verif.ExitsTop Verif.Retag Verif.Found.
Require Verif.FoundRun.
Require Import Verif.Swap.
Import ListNotations.
Open Scope string_scope.
Open Scope list_scope.

Section Run.
  Variables (hash : node -> N) (ta : bool) (n : nat) (ps0 ps1 : list path).
  Hypotheses (N0 : ps0 <> []) (N1 : ps1 <> []).
  Notation R := (engine hash ta n).

  (** The traits exchanged. *)
  Definition other (a b : list path) : list path * list path := (ps1, []).
  Notation rt := (@Retag.rt other).
  Notation rmap := (@Retag.rmap other _).
  Notation cm := (@Retag.cm other _).

  Definition fixed (cx cx' : ctx) : Prop :=
    cx_ident cx' = cx_ident cx /\ cx_args cx' = cx_args cx /\ cx_traits cx' = cx_traits cx.
  Lemma fixed_refl cx : fixed cx cx.
  Proof. repeat split. Qed.
  Lemma fixed_trans a b c : fixed a b -> fixed b c -> fixed a c.
  Proof. unfold fixed. intuition congruence. Qed.
  Lemma fixed_of cx cx' : same_mode cx cx' -> fixed cx cx'.
  Proof. unfold same_mode, fixed. intuition. Qed.

  (** Contexts of the attribute with [ps0]. *)
  Definition mine (own : string) (cx : ctx) : Prop := cx_ident cx = own /\ cx_args cx = ps0 /\ cx_traits cx = [].
  Lemma mine_fixed own cx cx' : mine own cx -> fixed cx cx' -> mine own cx'.
  Proof. unfold mine, fixed. intuition congruence. Qed.

  Lemma not_early own cx : mine own cx -> ta_dummy ta cx = false.
  Proof.
    intros (_ & A & _). unfold ta_dummy. rewrite A. destruct ps0; [congruence|]. destruct ta; [|reflexivity].
    destruct (cx_mode cx); reflexivity.
  Qed.
  Lemma not_early_rt cx : ta_dummy ta (rt cx) = false.
  Proof.
    unfold ta_dummy. cbn [Retag.rt cx_args other fst cx_mode]. destruct ps1; [congruence|]. destruct ta; [|reflexivity].
    destruct (cx_mode cx); reflexivity.
  Qed.
  Lemma not_dummy own cx : mine own cx -> is_dummy cx = false.
  Proof. intros (_ & A & _). unfold is_dummy. rewrite A. destruct ps0; [congruence|reflexivity]. Qed.
  Lemma not_dummy_rt cx : is_dummy (rt cx) = false.
  Proof. unfold is_dummy. cbn [Retag.rt cx_args other fst]. destruct ps1; [congruence|reflexivity]. Qed.

  (** A run that does the same and keeps what describes the attribute. *)
  Definition goes {A} (own : string) (m : M A) : Prop :=
    forall cx, mine own cx -> m (rt cx) = rmap (m cx) /\ (forall a cx', m cx = ROk (a, cx') -> mine own cx').

  Lemma goes_cm {A} own (m : M A) : cm m -> pres fixed m -> goes own m.
  Proof. intros C P cx X. split; [apply C|]. intros a cx' H. eapply mine_fixed; [exact X|]. eapply P. exact H. Qed.
  Lemma goes_bind {A B} own (m : M A) (k : A -> M B) : goes own m -> (forall a, goes own (k a)) -> goes own (bind m k).
  Proof.
    intros Hm Hk cx X. destruct (Hm cx X) as [E F]. unfold bind. rewrite E.
    destruct (m cx) as [[a c]| |]; cbn [Retag.rmap]; [|split; [reflexivity|discriminate]|split; [reflexivity|discriminate]].
    apply Hk. eapply F. reflexivity.
  Qed.
  Lemma goes_ret {A} own (a : A) : goes own (ret a).
  Proof. apply goes_cm; [apply cm_ret|]. intros cx x cx' H. injection H as <- <-. apply fixed_refl. Qed.
  Lemma goes_gets {A B} own (f : ctx -> A) (k : A -> M B) x : (forall cx, mine own cx -> f cx = x /\ f (rt cx) = x) -> goes own (k x) -> goes own (bind (gets f) k).
  Proof. intros H K cx X. destruct (H cx X) as [E1 E2]. unfold bind, gets. rewrite E1, E2. apply K. exact X. Qed.
  Lemma goes_read {A B} own (f : ctx -> A) (k : A -> M B) : (forall cx, f (rt cx) = f cx) -> (forall x, goes own (k x)) -> goes own (bind (gets f) k).
  Proof. intros H K cx X. unfold bind, gets. rewrite H. apply K. exact X. Qed.
  Lemma goes_error own e : goes own (error e).
  Proof. apply goes_cm; [apply cm_error|]. intros cx x cx' H. injection H as _ <-. repeat split. Qed.
  Lemma goes_mode own md : goes own (modify (set_mode md)).
  Proof. apply goes_cm; [apply cm_modify; reflexivity|]. intros cx x cx' H. injection H as _ <-. repeat split. Qed.
  Lemma goes_last own l : goes own (modify (set_last l)).
  Proof. apply goes_cm; [apply cm_modify; reflexivity|]. intros cx x cx' H. injection H as _ <-. repeat split. Qed.

  Lemma pres_fixed {A} (m : M A) : pres same_mode m -> pres fixed m.
  Proof. intros P cx a cx' H. apply fixed_of. eapply P. exact H. Qed.

  Lemma goes_child own e : goes own (child_expr e).
  Proof. apply goes_cm; [apply child_expr_cm|apply pres_fixed, child_expr_frame]. Qed.
  Lemma goes_visit own sc b e : goes own (r_vexpr R sc b e).
  Proof. apply goes_cm; [apply visitor_cm|apply pres_fixed, visitor_frame]. Qed.
  Lemma goes_visit_stmt own sc s : goes own (r_vstmt R sc s).
  Proof. apply goes_cm; [apply visitor_cm|apply pres_fixed, visitor_frame]. Qed.
  Lemma goes_mapM {A B} own (f : A -> M B) l : (forall x, goes own (f x)) -> goes own (mapM f l).
  Proof.
    intros H. induction l; cbn [mapM]; [apply goes_ret|]. apply goes_bind; [auto|]. intros; apply goes_bind; [auto|]. intros; apply goes_ret.
  Qed.

  Lemma goes_body own e : goes own (expand_body ta R e).
  Proof.
    unfold expand_body. apply goes_bind; [apply goes_child|]. intros e'.
    apply (goes_gets _ _ _ false); [intros cx X; split; [eapply not_early; exact X|apply not_early_rt]|]. apply goes_visit.
  Qed.
  Lemma goes_expr own e : goes own (expand_expr ta R e).
  Proof.
    unfold expand_expr. apply goes_read; [reflexivity|]. intros vl. destruct e; try apply goes_body. destruct vl; [|apply goes_body].
    apply goes_read; [intros; apply rt_count_expr|]. intros c. apply goes_bind; [apply goes_mode|]. intros _.
    apply goes_bind; [apply goes_body|]. intros; apply goes_ret.
  Qed.
  Lemma goes_fn_mode own out b : goes own (fn_mode out b).
  Proof.
    unfold fn_mode. apply goes_read; [reflexivity|]. intros []; [|apply goes_ret]. destruct out as [t|]; [|apply goes_ret].
    assert (X : forall bs : fncount -> M unit, (forall c, goes own (bs c)) -> goes own (bind (gets (fun cx => visit_fn_block cx b)) bs)).
    { intros k K. apply goes_read; [intros; apply rt_count_block|exact K]. }
    destruct t; [apply X; intros; apply goes_mode| |]; (destruct (is_result_impl _); [|apply goes_ret]);
      apply X; intros c; (destruct (2 <=? _)%nat; [apply goes_mode|apply goes_ret]).
  Qed.

  (** The traits that are found: none. *)
  Definition nothing (t : option ty) : Prop :=
    ta = true -> match t with Some t => collect_ty ps0 t = [] /\ collect_ty ps1 t = [] | None => True end.
  Lemma goes_collect own out : nothing out -> goes own (fn_collect ta out).
  Proof.
    intros N. unfold fn_collect. destruct ta eqn:TA; [|apply goes_ret]. destruct out as [t|]; [|apply goes_ret]. destruct (N TA) as [E0 E1].
    intros cx (I & A & T). unfold bind, gets, collect_impl_trait. cbn [Retag.rt cx_args cx_traits other fst snd]. rewrite A, T, E0, E1.
    split; [reflexivity|]. intros a cx' H. injection H as _ <-. repeat split; assumption.
  Qed.
  Lemma goes_local_ty own t : nothing t -> goes own (local_ty ta t).
  Proof.
    intros N. unfold local_ty. destruct ta eqn:TA; [|apply goes_ret]. destruct t as [t|]; [|apply goes_ret]. destruct (N TA) as [E0 E1].
    intros cx (I & A & T). unfold bind, gets, collect_impl_trait. cbn [Retag.rt cx_args cx_traits other fst snd]. rewrite A, T, E0, E1.
    split; [reflexivity|]. intros a cx' H. injection H as _ <-. repeat split; assumption.
  Qed.

  (** ** The enum *)

  (** The result of a run [m] with [ps0] and with [ps1]: [f] puts the enum in. *)
  Definition ends {A} (own : string) (f : genum -> A -> A) (r0 r1 : res (A * ctx)) : Prop :=
    match r0, r1 with
    | ROk (y0, c0), ROk (y1, c1) => cx_errs c0 = cx_errs c1 /\ cx_variants c0 = cx_variants c1
        /\ (cx_errs c0 = [] -> match cx_variants c0 with
                               | [] => y0 = y1
                               | vs => exists x, y0 = f (enum_of own vs ps0) x /\ y1 = f (enum_of own vs ps1) x
                               end)
    | RFuel, RFuel => True
    | RPanic s0, RPanic s1 => s0 = s1
    | _, _ => False
    end.

  Lemma ends_build {A} own (f : genum -> A -> A) x cx : mine own cx -> ends own f (build f x cx) (build f x (rt cx)).
  Proof.
    intros (I & AA & T). unfold build. change (has_error (rt cx)) with (has_error cx).
    destruct (has_error cx) eqn:HE.
    - cbn [ends Retag.rt cx_errs cx_variants]. repeat split. intros E. unfold has_error in HE. rewrite E in HE. discriminate HE.
    - change (cx_variants (rt cx)) with (cx_variants cx). change (cx_has_child (rt cx)) with (cx_has_child cx).
      change (cx_last (rt cx)) with (cx_last cx). change (variant_is_empty (rt cx)) with (variant_is_empty cx).
      assert (F : forall er, ends own f ((error er ;;; ret x) cx) ((error er ;;; ret x) (rt cx))).
      { intros er. cbn. repeat split. intros E. apply app_eq_nil in E. destruct E; discriminate. }
      destruct (length (cx_variants cx)) as [|[|k]] eqn:L; [|apply F|].
      + destruct (cx_has_child cx); [|apply F]. cbn [ends]. repeat split. intros _. destruct (cx_variants cx); [reflexivity|discriminate L].
      + cbn [ends]. repeat split. intros _. destruct (cx_variants cx) as [|v vs] eqn:V; [discriminate L|]. exists x.
        unfold builder_build. cbn [Retag.rt cx_ident cx_variants cx_args cx_traits other fst snd]. rewrite I, AA, T, V, !app_nil_r.
        split; reflexivity.
  Qed.

  Definition ends_run {A} (own : string) (f : genum -> A -> A) (m : M A) : Prop :=
    forall cx, mine own cx -> ends own f (m cx) (m (rt cx)).

  Lemma ends_bind {A B} own (f : genum -> B -> B) (m : M A) (k : A -> M B) :
    goes own m -> (forall a, ends_run own f (k a)) -> ends_run own f (bind m k).
  Proof.
    intros Hm Hk cx X. destruct (Hm cx X) as [E F]. unfold bind. rewrite E.
    destruct (m cx) as [[a c]| |]; cbn [Retag.rmap ends]; auto. apply Hk. eapply F. reflexivity.
  Qed.
  Lemma ends_ret {A B} own (f : genum -> A -> A) (f' : genum -> B -> B) (g : A -> B) (m : M A) :
    (forall e x, f' e (g x) = g (f e x)) -> ends_run own f m -> ends_run own f' (bind m (fun x => ret (g x))).
  Proof.
    intros C H cx X. specialize (H cx X). unfold bind. destruct (m cx) as [[y0 c0]| |], (m (rt cx)) as [[y1 c1]| |]; cbn in *; try contradiction; auto.
    destruct H as (E & V & K). repeat split; auto. intros Z. specialize (K Z).
    destruct (cx_variants c0); [congruence|]. destruct K as (x & -> & ->). exists (g x). rewrite !C. auto.
  Qed.
  Lemma ends_gets {A B} own (f : genum -> B -> B) (r : ctx -> A) (k : A -> M B) x :
    (forall cx, mine own cx -> r cx = x /\ r (rt cx) = x) -> ends_run own f (k x) -> ends_run own f (bind (gets r) k).
  Proof. intros H K cx X. destruct (H cx X) as [E1 E2]. unfold bind, gets. rewrite E1, E2. apply K. exact X. Qed.
  Lemma ends_fail {A} own (f : genum -> A -> A) er x : ends_run own f (error er ;;; ret x).
  Proof. intros cx X. cbn. repeat split. intros E. apply app_eq_nil in E. destruct E; discriminate. Qed.

  Theorem ends_expr own e semi : ends_run own in_front (expand_parent_expr ta R e semi).
  Proof.
    unfold expand_parent_expr. apply ends_bind; [destruct semi; [apply goes_last|apply goes_ret]|]. intros _.
    apply (ends_gets _ _ _ _ false); [intros cx X; split; [eapply not_dummy; exact X|apply not_dummy_rt]|].
    apply ends_bind; [apply goes_expr|]. intros e'. intros cx X. exact (ends_build own build_expr e' cx X).
  Qed.

  (** The enum in a [let] and in a function body. *)
  Definition front_let (g : genum) (l : local) : local :=
    match l with Local a p t (Some e) d => Local a p t (Some (in_front g e)) d | _ => l end.
  Definition front_body (g : genum) (b : list stmt) : list stmt := SItem (IEnum g) :: b.

  Theorem ends_let own a p t i d : nothing t -> ends_run own front_let (expand_parent_local ta R (Local a p t i d)).
  Proof.
    intros N. unfold expand_parent_local. apply ends_bind; [apply goes_local_ty; exact N|]. intros t'.
    apply (ends_gets _ _ _ _ false); [intros cx X; split; [eapply not_dummy; exact X|apply not_dummy_rt]|].
    destruct i as [e|]; [|apply ends_fail]. apply ends_bind; [apply goes_expr|]. intros e'.
    apply (ends_ret own in_front front_let (fun e => Local a p t' (Some e) d)); [reflexivity|].
    intros cx X. exact (ends_build own build_expr e' cx X).
  Qed.

  Theorem ends_fn own out b : nothing out -> ends_run own front_body (expand_parent_item_fn ta R out b).
  Proof.
    intros N. unfold expand_parent_item_fn. apply ends_bind; [apply goes_fn_mode|]. intros _.
    apply ends_bind; [apply goes_collect; exact N|]. intros _.
    apply (ends_gets _ _ _ _ false); [intros cx X; split; [eapply not_dummy; exact X|apply not_dummy_rt]|].
    apply ends_bind.
    - destruct b; [apply goes_bind; [apply goes_error|intros; apply goes_ret]|].
      apply goes_cm; [apply child_block_cm|apply pres_fixed, FoundRun.child_body_frame].
    - intros b'. apply (ends_gets _ _ _ _ false); [intros cx X; split; [eapply not_early; exact X|apply not_early_rt]|].
      apply ends_bind; [apply goes_mapM; intros; apply goes_visit_stmt|]. intros b''. intros cx X. exact (ends_build own build_fn b'' cx X).
  Qed.

  Definition front_stmt (g : genum) (s : stmt) : stmt :=
    match s with
    | SExpr e semi => SExpr (in_front g e) semi
    | SLocal l => SLocal (front_let g l)
    | SItem (IFn a sg out b) => SItem (IFn a sg out (front_body g b))
    | _ => s
    end.
  Lemma front_input g s : with_enum g (InStmt s) = InStmt (front_stmt g s).
  Proof. destruct s as [[a p t [e|] d]|[]| |]; reflexivity. Qed.

  Theorem ends_input own i cx : nothing (annotated_type i) -> mine own cx -> cx_variants cx = [] ->
    ends own with_enum (expand_input ta R i cx) (expand_input ta R i (rt cx)).
  Proof.
    intros N X V. destruct i as [s|e|]; cbn [expand_input].
    - assert (Y : ends own front_stmt (expand_parent_stmt ta R s cx) (expand_parent_stmt ta R s (rt cx))).
      { destruct s as [[a p t i d]|[a sg out b| |]|e semi|a m semi]; cbn [expand_parent_stmt annotated_type] in *.
        - apply (ends_ret own front_let front_stmt SLocal); [reflexivity| |exact X]. apply ends_let. exact N.
        - apply (ends_ret own front_body front_stmt (fun b => SItem (IFn a sg out b))); [reflexivity| |exact X]. apply ends_fn. exact N.
        - apply (ends_fail own front_stmt). exact X.
        - apply (ends_fail own front_stmt). exact X.
        - apply (ends_ret own in_front front_stmt (fun e => SExpr e semi)); [reflexivity| |exact X]. apply ends_expr.
        - cbn. rewrite V. auto. }
      unfold bind. destruct (expand_parent_stmt ta R s cx) as [[y0 c0]| |], (expand_parent_stmt ta R s (rt cx)) as [[y1 c1]| |];
        cbn [ends ret] in *; try contradiction; auto.
      destruct Y as (E & W & K). repeat split; auto. intros Z. specialize (K Z).
      destruct (cx_variants c0); [congruence|]. destruct K as (x & -> & ->). exists (InStmt x). rewrite !front_input. auto.
    - apply (ends_ret own in_front with_enum InExpr); [reflexivity| |exact X]. apply ends_expr.
    - cbn. repeat split. intros E. apply app_eq_nil in E. destruct E; discriminate.
  Qed.
End Run.

Lemma found_none ps i : found ps i = [] -> match annotated_type i with Some t => collect_ty ps t = [] | None => True end.
Proof. rewrite FoundRun.found_collect. destruct (annotated_type i); auto. Qed.

Theorem traits_only hash ta n args0 args1 ps0 ps1 mo i :
  parse_args args0 = inr (ps0, mo) -> parse_args args1 = inr (ps1, mo) -> ps0 <> [] -> ps1 <> [] ->
  (ta = true -> found ps0 i = [] /\ found ps1 i = []) ->
  but_traits (fun x => x) (enum_name (hash (NInput i))) ps0 ps1 (attribute hash ta n args0 i) (attribute hash ta n args1 i).
Proof.
  intros P0 P1 N0 N1 F. unfold attribute. rewrite (FoundRun.root_start _ _ _ _ P0), (FoundRun.root_start _ _ _ _ P1).
  set (own := enum_name (hash (NInput i))). set (cx := FoundRun.start own (own_marker mo) ps0 [] VDefault).
  assert (NT : nothing ta ps0 ps1 (annotated_type i)).
  { intros T. destruct (F T) as [F0 F1]. apply found_none in F0. apply found_none in F1. destruct (annotated_type i); auto. }
  pose proof (ends_input hash ta n ps0 ps1 N0 N1 own i cx NT (conj eq_refl (conj eq_refl eq_refl)) eq_refl) as H.
  change (@Retag.rt (other ps1) cx) with (FoundRun.start own (own_marker mo) ps1 [] VDefault) in H.
  destruct (expand_input ta _ i cx) as [[y0 c0]| |], (expand_input ta _ i (FoundRun.start _ _ ps1 _ _)) as [[y1 c1]| |];
    cbn [ends but_traits] in *; try contradiction; auto.
  destruct H as (E & V & K). rewrite <- E. destruct (cx_errs c0); [|reflexivity]. cbn [but_traits]. split; [exact V|].
  specialize (K eq_refl). unfold code_but_traits. destruct (cx_variants c0); exact K.
Qed.

Theorem traits_only_found hash n args0 args1 ps0 ps1 mo i :
  parse_args args0 = inr (ps0, mo) -> parse_args args1 = inr (ps1, mo) ->
  ps0 ++ found ps0 i <> [] -> ps1 ++ found ps1 i <> [] ->
  (ps0 = [] \/ ps1 = [] -> ~ one_way (enum_name (hash (NInput i))) (own_marker mo) i) ->
  but_traits without_type (enum_name (hash (NInput i))) (ps0 ++ found ps0 i) (ps1 ++ found ps1 i)
    (attribute hash true n args0 i) (attribute hash true n args1 i).
Proof.
  intros P0 P1 N0 N1 OW.
  destruct (FoundRun.can_be_listed _ _ _ i P0) as (l0 & L0). destruct (FoundRun.can_be_listed _ _ _ i P1) as (l1 & L1).
  pose proof (FoundRun.as_listed hash n args0 l0 ps0 mo i P0 L0 (fun X => OW (or_introl (proj1 X)) (proj2 X))) as A0.
  pose proof (FoundRun.as_listed hash n args1 l1 ps1 mo i P1 L1 (fun X => OW (or_intror (proj1 X)) (proj2 X))) as A1.
  assert (NL : forall ps, found (ps ++ found ps i) i = []).
  { intros ps. rewrite !FoundRun.found_collect. destruct (annotated_type i); [apply FoundRun.nothing_left|reflexivity]. }
  pose proof (traits_only hash true n l0 l1 _ _ mo i L0 L1 N0 N1 (fun _ => conj (NL ps0) (NL ps1))) as B.
  set (own := enum_name (hash (NInput i))) in *.
  destruct (attribute hash true n args0 i) as [[]| |], (attribute hash true n l0 i) as [[]| |]; cbn [same_answer] in A0; try contradiction;
  destruct (attribute hash true n args1 i) as [[]| |], (attribute hash true n l1 i) as [[]| |]; cbn [same_answer] in A1; try contradiction;
    cbn [but_traits] in *; try contradiction; try congruence.
  destruct A0 as [A0 V0], A1 as [A1 V1], B as [V B]. split; [congruence|]. rewrite V0.
  assert (W : forall x y (b : bool), x = (if b then without_type y else y) -> without_type x = without_type y).
  { intros x y [] ->; [|reflexivity]. destruct y as [[[]| | |]| |]; reflexivity. }
  rewrite (W _ _ _ A0), (W _ _ _ A1). unfold code_but_traits in *.
  cbv beta in B. clear V0 V1 V. revert B. destruct (cx_variants _); [congruence|]. intros (x & -> & ->). exists (without_type x).
  assert (C : forall g y, without_type (with_enum g y) = with_enum g (without_type y)).
  { intros g [[[? ? ? [] ?]|[]| |]| |]; reflexivity. }
  rewrite !C. auto.
Qed.
