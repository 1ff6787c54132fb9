(** The traits taken from the annotated type, and the type annotation of let statements. *)

Require Import Coq.Strings.String Coq.Lists.List Coq.Bool.Bool Coq.Arith.Arith Coq.NArith.NArith Lia.
Require Import Verif.Syntax Verif.Context Verif.ExprModel Verif.TypeAnalysis Verif.AutoEnum.
Require Import Verif.RunLemmas Verif.Frame Verif.Edits Verif.Scope Verif.AttributeRun Verif.RootRun
  Verif.ArgsSpec Verif.ArgsRun.
Import ListNotations.
Open Scope string_scope.
Open Scope list_scope.

(** The type of the annotated code: of the let statement or the return type of the function. *)
Definition annotated_type (i : input) : option ty :=
  match i with
  | InStmt (SLocal (Local _ _ t _ _)) => t
  | InStmt (SItem (IFn _ _ out _)) => out
  | _ => None
  end.

(** The supported traits of the [impl ..] types in a type that are not arguments, inner types first. *)
Definition taken (ta : bool) (args : list path) (t : option ty) : list path :=
  match t with
  | Some t => if ta then collect_ty args t else []
  | None => []
  end.

(** What does not change between the reading of the type and the end. *)
Definition same_tr (cx cx' : ctx) : Prop := cx_traits cx' = cx_traits cx.

Lemma same_tr_of A (m : M A) : pres same_mode m -> pres same_tr m.
Proof. intros H cx a cx' E. apply H in E. apply E. Qed.

Lemma same_tr_of_dummy A (m : M A) : pres same_dummy m -> pres same_tr m.
Proof. intros H cx a cx' E. apply H in E. apply E. Qed.

Section Run.
  Variables (hash : node -> N) (ta : bool) (n : nat).
  Let R := engine hash ta n.

  Ltac tr := repeat first
    [ match goal with
      | |- pres _ (bind _ _) => apply pres_bind
      | |- pres _ (ret _) => apply pres_ret
      | |- pres _ (gets _) => apply pres_gets
      | |- pres _ (massert _ _) => apply pres_massert
      | |- pres _ (error _) => apply pres_modify; reflexivity
      | |- pres _ (modify _) => apply pres_modify; reflexivity
      | |- pres _ (match ?x with _ => _ end) => destruct x
      | |- pres _ _ => fail 1
      | |- forall _, _ => intro
      end
    | reflexivity | solve [unfold same_tr in *; congruence] ].

  Lemma build_tr {A} f (x : A) : pres same_tr (build f x).
  Proof.
    intros cx x' cx'. unfold build, same_tr. destruct (has_error cx); [intros H; inversion H; reflexivity|].
    destruct (length _) as [|[|]]; [destruct (cx_has_child cx)| |]; intros H;
      try (inversion H; reflexivity); minv; reflexivity.
  Qed.

  Lemma expand_body_tr e : pres same_tr (expand_body ta R e).
  Proof.
    unfold expand_body. tr.
    - apply same_tr_of, child_expr_frame.
    - apply same_tr_of_dummy, (dummy_frame hash ta n).
    - apply same_tr_of, (visitor_frame hash ta n).
  Qed.

  Lemma expand_expr_tr e : pres same_tr (expand_expr ta R e).
  Proof.
    unfold expand_expr. tr; apply expand_body_tr.
  Qed.

  Lemma parent_expr_tr e b : pres same_tr (expand_parent_expr ta R e b).
  Proof.
    unfold expand_parent_expr. tr; try apply expand_expr_tr; try apply build_tr.
    apply same_tr_of_dummy, (dummy_frame hash ta n).
  Qed.

  Lemma local_ty_run t cx t' cx' :
    local_ty ta t cx = ROk (t', cx') ->
    cx' = set_traits (cx_traits cx ++ taken ta (cx_args cx) t) cx
    /\ t' = match taken ta (cx_args cx) t with [] => t | _ => None end.
  Proof.
    assert (N : cx = set_traits (cx_traits cx ++ []) cx).
    { destruct cx. unfold set_traits. cbn. rewrite app_nil_r. reflexivity. }
    unfold local_ty, taken. destruct ta.
    - destruct t as [t|]; intros H; [|minv; auto].
      apply bind_ok in H. destruct H as ([tr fd] & cx1 & H1 & H). apply gets_ok in H1.
      destruct H1 as [E ->]. unfold collect_impl_trait in E. injection E as -> ->. minv.
      split; [reflexivity|]. destruct (collect_ty (cx_args cx) t); reflexivity.
    - intros H. minv. destruct t; auto.
  Qed.

  (** A let statement: the pattern stays, the type as said, and the traits are taken from it. *)
  Theorem parent_local_run a p t i d cx l' cx' :
    expand_parent_local ta R (Local a p t i d) cx = ROk (l', cx') ->
    cx_traits cx' = cx_traits cx ++ taken ta (cx_args cx) t
    /\ exists i' d', l' = Local a p (match taken ta (cx_args cx) t with [] => t | _ => None end) i' d'.
  Proof.
    intros H. unfold expand_parent_local in H.
    apply bind_ok in H. destruct H as (t' & cx1 & H1 & H). apply local_ty_run in H1. destruct H1 as [-> ->].
    apply bind_ok in H. destruct H as (dm & cx1 & H1 & H). apply gets_ok in H1. destruct H1 as [-> ->].
    set (cx1 := set_traits _ _) in *. set (t' := match taken _ _ _ with [] => t | _ => None end) in *.
    change (cx_traits cx ++ taken ta (cx_args cx) t) with (cx_traits cx1).
    clearbody t' cx1. destruct (is_dummy cx1).
    - apply bind_ok in H. destruct H as (u & cx2 & H1 & H). apply massert_ok in H1. destruct H1 as (_ & _ & ->).
      split.
      + revert H. apply (walk_local_pres same_tr); try (unfold same_tr; congruence).
        intros. apply same_tr_of_dummy, (dummy_frame hash ta n).
      + cbn [walk_local] in H. apply bind_ok in H. destruct H as (i' & cx2 & H1 & H).
        apply bind_ok in H. destruct H as (d' & cx3 & H2 & H). minv. eauto.
    - destruct i as [e|]; [|minv; eauto].
      apply bind_ok in H. destruct H as (e1 & cx2 & H1 & H).
      apply bind_ok in H. destruct H as (e2 & cx3 & H2 & H). minv.
      apply expand_expr_tr in H1. apply build_tr in H2. unfold same_tr in *. split; [congruence|eauto].
  Qed.

  Lemma parent_fn_tr out b cx b' cx' :
    expand_parent_item_fn ta R out b cx = ROk (b', cx') ->
    cx_traits cx' = cx_traits cx ++ taken ta (cx_args cx) out.
  Proof.
    intros H. unfold expand_parent_item_fn in H.
    apply bind_ok in H. destruct H as (u1 & cxa & H1 & H).
    apply bind_ok in H. destruct H as (u2 & cxb & H2 & H).
    assert (Aa : cx_args cxa = cx_args cx /\ cx_traits cxa = cx_traits cx).
    { unfold fn_mode in H1. minv. destruct (match cx_last cx with LNever => false | _ => true end); [|minv; auto].
      destruct out as [[| |]|]; try (minv; auto; fail);
        (destruct (is_result_impl _); [|minv; auto]; minv;
         destruct (2 <=? _)%nat; minv; auto). }
    destruct Aa as [A1 A2].
    assert (Ab : cx_traits cxb = cx_traits cx ++ taken ta (cx_args cx) out).
    { unfold fn_collect in H2. unfold taken. destruct ta.
      - destruct out; [|minv; rewrite app_nil_r; assumption].
        apply bind_ok in H2. destruct H2 as ([tr fd] & cxd & Hb & H2). apply gets_ok in Hb.
        destruct Hb as [E ->]. unfold collect_impl_trait in E. injection E as -> ->. minv. cbn. congruence.
      - minv. destruct out; rewrite app_nil_r; assumption. }
    rewrite <- Ab. clear Ab A1 A2 H1 H2.
    assert (P : pres same_tr
       (dummy <- gets is_dummy ;;
        if (dummy : bool) then
          massert (fun cx => match cx_args cx with [] => true | _ => false end) "dummy: args" ;;;
          mapM (r_dstmt R) b
        else
          b <- match b with
               | [] => error ErrEmptyFn ;;; ret []
               | _ => map_last_expr child_expr b
               end ;;
          d <- gets (ta_dummy ta) ;;
          if (d : bool) then mapM (r_dstmt R) b
          else b <- mapM (r_vstmt R scope0) b ;; build build_fn b)).
    { assert (MD : forall l, pres same_tr (mapM (r_dstmt R) l)).
      { intros l. apply pres_mapM_all; try (unfold same_tr; congruence).
        intros. apply same_tr_of_dummy, (dummy_frame hash ta n). }
      tr; try apply MD; try apply build_tr.
      - change (pres same_tr (map_last_expr child_expr (s :: b))).
        apply map_last_pres; try (unfold same_tr; congruence).
        apply Forall_forall. intros [] _; try exact I. apply same_tr_of, child_expr_frame.
      - apply pres_mapM_all; try (unfold same_tr; congruence).
        intros. apply same_tr_of, (visitor_frame hash ta n). }
    apply P in H. exact H.
  Qed.

  Lemma parent_stmt_tr s cx s' cx' :
    expand_parent_stmt ta R s cx = ROk (s', cx') ->
    cx_traits cx' = cx_traits cx ++ taken ta (cx_args cx) (annotated_type (InStmt s)).
  Proof.
    destruct s as [[a p t i d]|[a sg o b| |]|e semi|]; cbn [expand_parent_stmt annotated_type]; intros H.
    - apply bind_ok in H. destruct H as (l & cx1 & H1 & H). minv. apply parent_local_run in H1. apply H1.
    - apply bind_ok in H. destruct H as (l & cx1 & H1 & H). minv. apply parent_fn_tr in H1. exact H1.
    - minv. cbn. rewrite app_nil_r. reflexivity.
    - minv. cbn. rewrite app_nil_r. reflexivity.
    - apply bind_ok in H. destruct H as (l & cx1 & H1 & H). minv. apply parent_expr_tr in H1.
      cbn. rewrite app_nil_r. exact H1.
    - minv. cbn. rewrite app_nil_r. reflexivity.
  Qed.

  (** The traits of the enum of the outermost attribute. *)
  Theorem root_traits args i i' cx ps m :
    attribute hash ta n args i = ROk (Code i' cx) -> parse_args args = inr (ps, m) ->
    cx_args cx = ps /\ cx_traits cx = taken ta ps (annotated_type i).
  Proof.
    intros H HP.
    destruct (attribute_run _ _ _ _ _ _ _ H) as (cx0 & t & C0 & HX & EE & _ & B & _).
    unfold ctx_root, ctx_new in C0. rewrite HP in C0.
    assert (CX : cx_args cx0 = ps /\ cx_traits cx0 = []).
    { destruct m; cbn in C0; inversion C0; subst; auto. }
    destruct CX as [CA CT]. split; [rewrite (b_args _ _ B); assumption|].
    unfold expand_input in HX. destruct i as [s|e|].
    - apply bind_ok in HX. destruct HX as (s' & cx1 & H1 & H2). minv. apply parent_stmt_tr in H1.
      rewrite CT, CA in H1. exact H1.
    - apply bind_ok in HX. destruct HX as (s' & cx1 & H1 & H2). minv. apply parent_expr_tr in H1.
      unfold same_tr in H1. rewrite H1. exact CT.
    - minv. apply app_nil_inv in EE. destruct EE; discriminate.
  Qed.
End Run.
