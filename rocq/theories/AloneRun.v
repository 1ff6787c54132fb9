(** An attribute without arguments expands each attribute below it as if that one were alone. *)

Require Import Coq.Strings.String Coq.Lists.List Coq.Bool.Bool Coq.Arith.Arith Coq.NArith.NArith Lia.
Require Import Verif.Syntax Verif.Context Verif.ExprModel Verif.TypeAnalysis Verif.AutoEnum.
Require Import Verif.AstInd Verif.RunLemmas Verif.EditsRun Verif.Frame Verif.VisitRun Verif.EngineRun Verif.HaltRun
  Verif.ArgsSpec Verif.ArgsRun Verif.TraitRun.
Require Import Verif.Tails Verif.Changes Verif.ChangesRun Verif.Outside Verif.OutsideRun Verif.Alike Verif.Alone.
Import ListNotations.
Open Scope string_scope.
Open Scope list_scope.

(** A run without errors keeps the markers, and relates the code if the markers are the default one. *)
Definition seg {A} (Q : A -> A -> Prop) (f : A -> M A) : Prop :=
  forall x cx x' cx', f x cx = ROk (x', cx') -> cx_errs cx' = [] ->
    cx_errs cx = [] /\ cx_markers cx' = cx_markers cx
    /\ (Forall (eq "marker") (cx_markers cx) -> Q x x').

Lemma seg_mapM {A} Q (f : A -> M A) : seg Q f -> seg (Forall2 Q) (mapM f).
Proof.
  intros H l. induction l as [|x l IH]; intros cx l' cx' E N; cbn [mapM] in E.
  - minv. repeat split; auto.
  - apply bind_ok in E. destruct E as (y & c1 & E1 & E). apply bind_ok in E. destruct E as (ys & c2 & E2 & E). minv.
    destruct (IH _ _ _ E2 N) as (N1 & M1 & R1). destruct (H _ _ _ _ E1 N1) as (N2 & M2 & R2).
    split; [exact N2|]. split; [congruence|]. intros D. constructor; [auto|]. apply R1. rewrite M2. exact D.
Qed.

Lemma seg_optM Q (f : expr -> M expr) : seg Q f -> seg (part_opt Q) (optM f).
Proof.
  intros H [e|] cx o cx' E N; cbn [optM] in E.
  - apply bind_ok in E. destruct E as (y & c1 & E1 & E). minv.
    destruct (H _ _ _ _ E1 N) as (N2 & M2 & R2). split; [exact N2|]. split; [exact M2|]. constructor; auto.
  - minv. repeat split; auto. constructor.
Qed.

Ltac segs :=
  repeat match goal with
  | E : ?f ?x ?c = ROk (?y, ?c'), H : seg _ ?f, N : cx_errs ?c' = [] |- _ =>
      let N' := fresh "N" in let M' := fresh "M" in let R' := fresh "R" in
      destruct (H _ _ _ _ E N) as (N' & M' & R'); clear E
  | E : mapM ?f ?x ?c = ROk (?y, ?c'), H : seg _ ?f, N : cx_errs ?c' = [] |- _ =>
      let N' := fresh "N" in let M' := fresh "M" in let R' := fresh "R" in
      destruct (seg_mapM _ _ H _ _ _ _ E N) as (N' & M' & R'); clear E
  | E : optM ?f ?x ?c = ROk (?y, ?c'), H : seg _ ?f, N : cx_errs ?c' = [] |- _ =>
      let N' := fresh "N" in let M' := fresh "M" in let R' := fresh "R" in
      destruct (seg_optM _ _ H _ _ _ _ E N) as (N' & M' & R'); clear E
  end.

Ltac ds := repeat match goal with
  | M : cx_markers ?c' = cx_markers ?c |- _ => rewrite M in *; clear M
  end; auto.

Lemma seg_walk fe fs fa fl Qe Qs Qa : seg Qe fe -> seg Qs fs -> seg Qa fa ->
  seg (kids Qe Qs Qa) (walk_expr (Vis fe fs fa fl)).
Proof.
  intros He Hs Ha e cx e' cx' E N.
  destruct e; cbn [walk_expr on_expr on_stmt on_arm on_local] in E;
    repeat match goal with
    | E : bind _ _ _ = ROk _ |- _ =>
        apply bind_ok in E; let E1 := fresh "E" in destruct E as (? & ? & E1 & E)
    end;
    match goal with E : ret _ _ = ROk _ |- _ => apply ret_ok in E; destruct E as [-> ->] end; segs;
    (split; [assumption|]; split; [congruence|]; intros D; constructor; ds).
Qed.

Lemma seg_arm hash ta f : seg (alone hash ta false) f -> seg (alone_arm hash ta) (walk_arm f).
Proof.
  intros H [a p g b c] cx x' cx' E N. cbn [walk_arm] in E.
  apply bind_ok in E. destruct E as (y & c1 & E1 & E). apply bind_ok in E. destruct E as (ys & c2 & E2 & E). minv.
  segs. split; [assumption|]; split; [congruence|]; intros D; constructor; ds.
Qed.

Lemma seg_local hash ta f : seg (alone hash ta false) f -> seg (alone_let hash ta) (walk_local f).
Proof.
  intros H [a p t i d] cx x' cx' E N. cbn [walk_local] in E.
  apply bind_ok in E. destruct E as (y & c1 & E1 & E). apply bind_ok in E. destruct E as (ys & c2 & E2 & E). minv.
  segs. split; [assumption|]; split; [congruence|]; intros D; constructor; ds.
Qed.

Lemma engine_with_name hash ta x n : engine (with_name hash x) ta n = engine hash ta n.
Proof. induction n as [|n IH]; [reflexivity|]. cbn [engine]. rewrite IH. reflexivity. Qed.

(** The context of an attribute alone, and of the same attribute under one without arguments. *)
Lemma contexts_alike i toks ps ms child :
  parse_args toks = inr (ps, None) -> Forall (eq "marker") ms -> ctx_new i toks false ms [] = inr child ->
  exists cx0, ctx_root i toks = inr cx0 /\ even ["marker"] (ms ++ ["marker"]) /\ lk ["marker"] (ms ++ ["marker"]) cx0 child.
Proof.
  intros P D C. unfold ctx_root, ctx_new in *. rewrite P in *. injection C as <-.
  eexists. split; [reflexivity|]. split.
  - intros f. rewrite existsb_app. cbn. clear - D. induction D as [|y l H _ IH]; [reflexivity|].
    cbn [existsb]. subst y. rewrite <- orb_assoc, <- IH. destruct (f "marker"); reflexivity.
  - exists (ms ++ ["marker"]), false. split; [reflexivity|]. split; [left; auto|]. right.
    split; [reflexivity|]. split; [reflexivity|]. apply Forall_app. split; [exact D|]. repeat constructor.
Qed.

Section Run.
  Variables (hash : node -> N) (ta : bool).
  Local Notation alone := (alone hash ta).
  Local Notation alone_stmt := (alone_stmt hash ta).
  Local Notation alone_arm := (alone_arm hash ta).
  Local Notation alone_let := (alone_let hash ta).

  Lemma frame_ok {A} (cx cx' : ctx) (Q : Prop) : bext (K := A) cx cx' -> cx_errs cx' = [] ->
    Q -> cx_errs cx = [] /\ cx_markers cx' = cx_markers cx /\ Q.
  Proof.
    intros B N H. split; [eapply bext_errs_nil; eassumption|]. split; [|exact H].
    destruct (b_markers _ _ B) as [X|[X Y]]; [exact X|contradiction].
  Qed.

  Lemma makes_expr n x toks ps ms child e1 semi e' child' :
    parse_args toks = inr (ps, None) -> Forall (eq "marker") ms -> ctx_new (enum_name x) toks false ms [] = inr child ->
    expand_parent_expr ta (engine hash ta n) e1 semi child = ROk (e', child') -> cx_errs child' = [] ->
    makes hash ta x toks (if semi then InStmt (SExpr e1 true) else InExpr e1)
      (if semi then InStmt (SExpr e' true) else InExpr e').
  Proof.
    intros P D C H N. destruct (contexts_alike _ _ _ _ _ P D C) as (cx0 & R0 & EV & L).
    pose proof (expand_expr_alike hash ta n _ _ e1 semi EV _ _ L) as S. rewrite H in S.
    destruct (expand_parent_expr ta (engine hash ta n) e1 semi cx0) as [[x0 c0]| |] eqn:X; try contradiction.
    destruct S as [<- L2]. exists n, c0. unfold attribute.
    assert (N0 : cx_errs c0 = []) by (destruct L2 as (? & ? & -> & _); exact N).
    destruct semi; cbn [with_name]; rewrite R0, engine_with_name; cbn [expand_input expand_parent_stmt];
      unfold bind; rewrite X; unfold ret; rewrite N0; reflexivity.
  Qed.

  Lemma makes_let n x toks ps ms child l1 l' child' :
    parse_args toks = inr (ps, None) -> Forall (eq "marker") ms -> ctx_new (enum_name x) toks false ms [] = inr child ->
    expand_parent_stmt ta (engine hash ta n) (SLocal l1) child = ROk (SLocal l', child') -> cx_errs child' = [] ->
    makes hash ta x toks (InStmt (SLocal l1)) (InStmt (SLocal l')).
  Proof.
    intros P D C H N. destruct (contexts_alike _ _ _ _ _ P D C) as (cx0 & R0 & EV & L).
    pose proof (expand_stmt_alike hash ta n _ _ (SLocal l1) EV _ _ L) as S. rewrite H in S.
    destruct (expand_parent_stmt ta (engine hash ta n) (SLocal l1) cx0) as [[x0 c0]| |] eqn:X; try contradiction.
    destruct S as [<- L2]. exists n, c0. unfold attribute.
    assert (N0 : cx_errs c0 = []) by (destruct L2 as (? & ? & -> & _); exact N).
    cbn [with_name]; rewrite R0, engine_with_name; cbn [expand_input];
      unfold bind; rewrite X; unfold ret; rewrite N0; reflexivity.
  Qed.

  (** A nested expansion without errors. *)
  Lemma nested_ok {A} i toks (w : M A) (g : A -> M A) cx y cx' :
    nested_run i toks w g cx = ROk (y, cx') -> cx_errs cx = [] -> cx_errs cx' = [] ->
    exists child x c child', ctx_new i toks false (cx_markers cx) [] = inr child
      /\ w (set_errs [] (set_markers [] cx)) = ROk (x, c) /\ cx_errs c = []
      /\ g x child = ROk (y, child') /\ cx_errs child' = [].
  Proof.
    unfold nested_run. intros H E0 N. apply bind_ok in H. destruct H as (r & c0 & H1 & H).
    rewrite make_child_eq, E0 in H1. destruct (cx_has_child cx); [|discriminate]. inversion H1; subst; clear H1.
    apply bind_ok in H. destruct H as (x & c & H1 & H).
    destruct (ctx_new i toks false (cx_markers cx) []) as [er|child].
    - minv. cbn in N. apply app_eq_nil in N. destruct N. discriminate.
    - unfold in_child in H. destruct (g x child) as [[y0 child']| |] eqn:X; try discriminate.
      unfold join_child in H. minv. cbn in N. apply app_eq_nil in N. destruct N as [N1 N2].
      exists child, x, c, child'. auto.
  Qed.

  Lemma vs_expr n fe fs fl e semi cx e' cx' :
    seg (alone false) fe -> seg alone_stmt fs ->
    vs_visit_expr hash ta (engine hash ta n) (Vis fe fs (walk_arm fe) fl) e semi cx = ROk (e', cx') ->
    cx_errs cx = [] -> cx_errs cx' = [] -> Forall (eq "marker") (cx_markers cx) -> alone semi e e'.
  Proof.
    intros He Hs H E0 N D. unfold vs_visit_expr in H.
    pose proof (seg_walk fe fs (walk_arm fe) fl _ _ _ He Hs (seg_arm _ _ _ He)) as W.
    destruct (find_remove_attr (e_attrs e) NAME) as [[at_ a']|] eqn:F.
    - apply removes_ok in F. destruct at_ as [p|p toks|p v].
      + unfold bind, ret in H. destruct (walk_expr _ _ cx) as [[]| |]; try discriminate.
        cbn in H. inversion H; subst. cbn in N. apply app_eq_nil in N. destruct N; discriminate.
      + apply (nested_ok _ _ (walk_expr (Vis fe fs (walk_arm fe) fl) (set_attrs e a'))
                 (fun x => expand_parent_expr ta (engine hash ta n) x semi)) in H; [|exact E0|exact N].
        destruct H as (child & e1 & c & child' & C & H1 & N1 & H2 & N2).
        destruct (W _ _ _ _ H1 N1) as (_ & _ & K). specialize (K (Forall_nil _)).
        assert (X : exists ps mo, parse_args toks = inr (ps, mo)).
        { unfold ctx_new in C. destruct (parse_args toks) as [|[ps mo]]; [discriminate|eauto]. }
        destruct X as (ps & [m|] & X); [eapply al_own; eassumption|].
        pose proof (makes_expr _ _ _ _ _ _ _ _ _ _ X D C H2 N2) as MK.
        destruct semi; [eapply al_semi; eassumption|eapply al_expr; eassumption].
      + unfold bind, ret in H. destruct (walk_expr _ _ cx) as [[]| |]; try discriminate.
        cbn in H. inversion H; subst. cbn in N. apply app_eq_nil in N. destruct N; discriminate.
    - apply named_none in F. destruct (W _ _ _ _ H N) as (_ & _ & K). apply al_plain; auto.
  Qed.

  Lemma vs_stmt n fe fs s cx s' cx' :
    seg (alone false) fe -> seg alone_stmt fs ->
    vs_visit_stmt hash ta (engine hash ta n) (Vis fe fs (walk_arm fe) (walk_local fe)) s cx = ROk (s', cx') ->
    cx_errs cx = [] -> cx_errs cx' = [] -> Forall (eq "marker") (cx_markers cx) -> alone_stmt s s'.
  Proof.
    intros He Hs H E0 N D. destruct s as [[a p t i d]|it|e semi|a m semi]; cbn [vs_visit_stmt] in H.
    - destruct (find_remove_attr a NAME) as [[at_ a']|] eqn:F.
      + apply removes_ok in F. set (W := walk_stmt fe (walk_local fe) (SLocal (Local a' p t i d))) in *.
        assert (K : forall toks, let_args at_ = Some toks ->
                  nested_run (enum_name (hash (NStmt (SLocal (Local a' p t i d))))) toks W
                    (expand_parent_stmt ta (engine hash ta n)) cx = ROk (s', cx') ->
                  alone_stmt (SLocal (Local a p t i d)) s').
        { intros toks LA HK. apply nested_ok in HK; [|exact E0|exact N].
          destruct HK as (child & s1 & c & child' & C & H1 & N1 & H2 & N2).
          unfold W in H1. cbn [walk_stmt] in H1. apply bind_ok in H1. destruct H1 as (l1 & c1 & H1 & H3).
          apply ret_ok in H3. destruct H3 as [-> ->].
          destruct (seg_local _ _ _ He _ _ _ _ H1 N1) as (_ & _ & K). specialize (K (Forall_nil _)).
          destruct (parent_stmt_local ta _ _ _ _ _ H2) as (l' & ->).
          assert (X : exists ps mo, parse_args toks = inr (ps, mo)).
          { unfold ctx_new in C. destruct (parse_args toks) as [|[ps mo]]; [discriminate|eauto]. }
          destruct X as (ps & [m|] & X); [eapply al_let_own; eassumption|].
          pose proof (makes_let _ _ _ _ _ _ _ _ _ X D C H2 N2) as MK. eapply al_let_with; eassumption. }
        destruct at_ as [q|q toks|q v].
        * apply (K [] eq_refl). exact H.
        * apply (K toks eq_refl). exact H.
        * change (bind W (fun s => error ErrExpectedList ;;; ret s) cx = ROk (s', cx')) in H.
          unfold bind in H. destruct (W cx) as [[]| |]; try discriminate.
          cbn in H. inversion H; subst. cbn in N. apply app_eq_nil in N. destruct N; discriminate.
      + apply named_none in F. cbn [walk_stmt on_local] in H. apply bind_ok in H. destruct H as (l' & c & H & H').
        apply ret_ok in H'. destruct H' as [-> ->].
        destruct (seg_local _ _ _ He _ _ _ _ H N) as (_ & _ & K). apply al_let; auto.
    - minv. constructor.
    - apply bind_ok in H. destruct H as (e' & c & H1 & H). minv. constructor. eapply vs_expr; eassumption.
    - cbn [walk_stmt] in H. minv. constructor.
  Qed.

  Lemma dummy_alone n :
    seg (alone false) (r_dexpr (engine hash ta n)) /\ seg alone_stmt (r_dstmt (engine hash ta n)).
  Proof.
    induction n as [|n [IHe IHs]]; [split; intros x cx x' cx' H; discriminate|].
    pose proof (eng_good hash ta (S n)) as G.
    assert (U : forall A (x : A) (m : M A) cx x' cx', unless_error x m cx = ROk (x', cx') -> cx_errs cx = [] ->
              m cx = ROk (x', cx')).
    { intros A x m cx x' cx' H E. unfold unless_error, bind, gets, has_error in H. rewrite E in H. exact H. }
    assert (NC : forall a c u c', note_child a c = ROk (u, c') -> cx_errs c' = cx_errs c /\ cx_markers c' = cx_markers c).
    { intros a c u c' H. unfold note_child in H. destruct any_attr; minv; auto. }
    split; intros x cx x' cx' H N.
    - destruct (eg_dexpr _ _ G x _ _ _ H eq_refl (nok_any _)) as (t & _ & X).
      eapply frame_ok; [apply X|exact N|]. intros D.
      assert (E0 : cx_errs cx = []) by (eapply bext_errs_nil; [apply X|exact N]).
      cbn [engine step r_dexpr] in H. apply U in H; [|exact E0].
      unfold dummy_expr in H. apply bind_ok in H. destruct H as (u & c & H1 & H). apply NC in H1. destruct H1 as [A B].
      eapply (vs_expr n _ _ _ _ _ _ _ _ IHe IHs H); congruence.
    - destruct (eg_dstmt _ _ G x _ _ _ H eq_refl (nok_any _)) as (t & _ & X).
      eapply frame_ok; [apply X|exact N|]. intros D.
      assert (E0 : cx_errs cx = []) by (eapply bext_errs_nil; [apply X|exact N]).
      cbn [engine step r_dstmt] in H. apply U in H; [|exact E0].
      unfold dummy_stmt in H. apply bind_ok in H. destruct H as (u & c & H1 & H). apply NC in H1. destruct H1 as [A B].
      eapply (vs_stmt n _ _ _ _ _ _ IHe IHs H); congruence.
  Qed.

  Theorem dummy_parts n args i i' cx :
    parse_args args = inr ([], None) -> taken ta [] (annotated_type i) = [] ->
    attribute hash ta n args i = ROk (Code i' cx) -> alone_input hash ta i i'.
  Proof.
    intros P T. unfold attribute. destruct (ctx_root _ args) as [|cx0] eqn:C; [discriminate|].
    destruct (root_fields hash args None i P _ C) as (A & TR & _ & V).
    assert (MS : cx_markers cx0 = ["marker"]).
    { unfold ctx_root, ctx_new in C. rewrite P in C. inversion C. reflexivity. }
    destruct (expand_input ta (engine hash ta n) i cx0) as [[i1 cx1]| |] eqn:X; try discriminate.
    destruct (cx_errs cx1) eqn:E; [|discriminate]. intros H. inversion H; subst. clear H.
    destruct (dummy_shape hash ta n cx0 i A TR T) as (c1 & S & _ & _ & M). rewrite S in X.
    rewrite MS in M. assert (D : Forall (eq "marker") (cx_markers c1)) by (rewrite M; repeat constructor).
    destruct (dummy_alone n) as [De Ds].
    destruct i as [[l|[a sg o b| |]|e semi|a m semi]|e|]; cbn [dummy_input] in X;
      try (minv; cbn in E; apply app_nil_inv in E; destruct E; discriminate);
      try (apply bind_ok in X; destruct X as (y & c & X & X2); apply ret_ok in X2; destruct X2 as [-> ->]).
    - constructor. destruct (seg_local _ _ _ De _ _ _ _ X E) as (_ & _ & K). auto.
    - constructor. destruct (seg_mapM _ _ Ds _ _ _ _ X E) as (_ & _ & K). auto.
    - constructor. destruct (De _ _ _ _ X E) as (_ & _ & K). auto.
    - minv. constructor.
    - constructor. destruct (De _ _ _ _ X E) as (_ & _ & K). auto.
  Qed.
End Run.
