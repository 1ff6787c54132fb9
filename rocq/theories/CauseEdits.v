(** Proof: edits do not bring new causes of errors. *)

Require Import Coq.Strings.String Coq.Lists.List Coq.Bool.Bool Coq.Arith.Arith.
Require Import Verif.Syntax Verif.Context Verif.ExprModel Verif.Edits Verif.AttrFold Verif.AttributeRun Verif.Causes.
Import ListNotations.
Open Scope string_scope.
Open Scope list_scope.

Section Parts.
  (** The errors that are accounted for, and the marker names. *)
  Variables (J : err -> Prop) (mk : string -> bool).

  (** What is known of each part. *)
  Record part_ok (p : part) : Prop := PartOk {
    po_bare : forall x name, In x (part_attrs p) -> named name x -> name = "never" \/ name = "nested" ->
      (forall q, x <> MPath q) -> J (ErrNotPathOnly name);
    po_rec : annotated "rec" p -> J ErrRec;
    po_else : annotated "nested" p \/ (exists x, auto_attr p x) -> part_ends_well p = false -> J ErrNoElse;
    po_let : forall a q t d x, p = PtLet (Local a q t None d) -> auto_attr p x -> J ErrUninitLet;
    po_mac : forall a q m, p = PtExpr (EMacro a (Mac q None)) -> is_ident q m = true -> mk m = true -> J ErrMarkerExpr;
    po_list : forall x, auto_attr p x -> (forall toks, ~ nested_args p x toks) -> J ErrExpectedList;
    po_args : forall x toks e, auto_attr p x -> nested_args p x toks -> parse_args toks = inl e -> J e;
    po_use : forall l x r toks ps mo, part_attrs p = l ++ x :: r -> auto_attr p x -> nested_args p x toks ->
      parse_args toks = inr (ps, mo) -> asked (names_part (with_attrs p (l ++ r))) (marker_of mo) ->
      J (ErrMarkerInUse (marker_of mo))
  }.

  Definition parts_ok (l : list part) : Prop := Forall part_ok l.

  (** The attributes, or one of them less. *)
  Definition fewer (a a' : list attr) : Prop := a' = a \/ drops_attr a a'.

  Definition same_kind (p p' : part) : Prop :=
    match p, p' with
    | PtExpr _, PtExpr _ | PtArm _, PtArm _ | PtLet _, PtLet _ => True
    | _, _ => False
    end.

  Record part_le (p p' : part) : Prop := PartLe {
    pl_attrs : fewer (part_attrs p) (part_attrs p');
    pl_inner : incl (names_part (with_attrs p' [])) (names_part (with_attrs p []));
    pl_ends : part_ends_well p = true -> part_ends_well p' = true;
    pl_kind : same_kind p p';
    pl_let : forall a q t d, p' = PtLet (Local a q t None d) -> exists a q t d, p = PtLet (Local a q t None d);
    pl_mac : forall a q, p' = PtExpr (EMacro a (Mac q None)) -> exists a, p = PtExpr (EMacro a (Mac q None))
  }.

  Lemma fewer_in a a' x : fewer a a' -> In x a' -> In x a.
  Proof.
    intros [->|(l & y & r & -> & -> & _)]; [auto|]. rewrite !in_app_iff. cbn. tauto.
  Qed.

  Lemma fewer_split a a' l' x r' : fewer a a' -> a' = l' ++ x :: r' ->
    exists l r, a = l ++ x :: r /\ incl (l' ++ r') (l ++ r).
  Proof.
    intros [->|(l & y & r & -> & -> & _)] E.
    - exists l', r'. split; [exact E|apply incl_refl].
    - revert l' E. induction l as [|z l IH]; intros l' E.
      + cbn in E. exists (y :: l'), r'. subst r. split; [reflexivity|]. intros w. cbn. tauto.
      + cbn in E. destruct l' as [|w l']; cbn in E; injection E as <- E.
        * exists [], (l ++ y :: r). subst r'. split; [reflexivity|]. cbn. intros w. rewrite !in_app_iff. cbn. tauto.
        * destruct (IH l' E) as (l1 & r1 & E1 & I1). exists (z :: l1), r1. cbn. rewrite E1. split; [reflexivity|].
          intros w. cbn. intros [H|H]; [auto|]. right. apply I1. exact H.
  Qed.

  Lemma names_with p a : part_attrs p <> [] ->
    names_part (with_attrs p a) = flat_map attr_marker a ++ names_part (with_attrs p []).
  Proof.
    intros H. destruct p as [e|x|l].
    - destruct e; try reflexivity. cbn in H. congruence.
    - destruct x; reflexivity.
    - destruct l; reflexivity.
  Qed.

  Lemma nested_args_le p p' x toks : same_kind p p' -> (nested_args p x toks <-> nested_args p' x toks).
  Proof. destruct p, p'; cbn; try contradiction; destruct x; tauto. Qed.

  Lemma auto_le p p' x : part_le p p' -> auto_attr p' x -> auto_attr p x.
  Proof.
    intros L (I & N & A). split; [eapply fewer_in; [apply L|exact I]|]. split; [exact N|].
    intros y ->. pose proof (pl_kind _ _ L) as K. destruct p' as [|z|]; cbn in K; try contradiction. apply (A z). reflexivity.
  Qed.

  Lemma annotated_le p p' n : part_le p p' -> annotated n p' -> annotated n p.
  Proof. intros L (x & I & N). exists x. split; [eapply fewer_in; [apply L|exact I]|exact N]. Qed.

  Lemma part_ok_le p p' : part_le p p' -> part_ok p -> part_ok p'.
  Proof.
    intros L [h1 h2 h3 h4 h5 h6 h7 h8]. pose proof (pl_kind _ _ L) as K. split.
    - intros x name I. apply h1. eapply fewer_in; [apply L|exact I].
    - intros A. apply h2. eapply annotated_le; eassumption.
    - intros A E. apply h3.
      + destruct A as [A|(x & A)]; [left; eapply annotated_le; eassumption|right; exists x; eapply auto_le; eassumption].
      + destruct (part_ends_well p) eqn:F; [|reflexivity]. pose proof (pl_ends _ _ L F). congruence.
    - intros a q t d x E A. destruct (pl_let _ _ L _ _ _ _ E) as (a0 & q0 & t0 & d0 & E0).
      eapply h4; [exact E0|eapply auto_le; eassumption].
    - intros a q m E I M. destruct (pl_mac _ _ L _ _ E) as (a0 & E0). eapply h5; eassumption.
    - intros x A N. eapply h6; [eapply auto_le; eassumption|]. intros toks T. apply (N toks). apply (nested_args_le p p' x toks K). exact T.
    - intros x toks e A N. eapply h7; [eapply auto_le; eassumption|]. apply (nested_args_le p p' x toks K). exact N.
    - intros l x r toks ps mo E A N P Q. destruct (fewer_split _ _ _ _ _ (pl_attrs _ _ L) E) as (l0 & r0 & E0 & I0).
      eapply h8; [exact E0|eapply auto_le; eassumption|apply (nested_args_le p p' x toks K); exact N|exact P|].
      destruct Q as (qs & Q). exists qs.
      rewrite names_with in Q by (rewrite E; destruct l; discriminate).
      rewrite names_with by (rewrite E0; destruct l0; discriminate).
      apply in_app_iff in Q. apply in_app_iff. destruct Q as [Q|Q]; [left|right].
      + apply in_flat_map in Q. destruct Q as (y & Y & Q). apply in_flat_map. exists y. split; [apply I0; exact Y|exact Q].
      + apply (pl_inner _ _ L). exact Q.
  Qed.

  (** Parts without attributes. *)
  Lemma part_ok_bare p : part_attrs p = [] ->
    (forall a q m, p = PtExpr (EMacro a (Mac q None)) -> is_ident q m = true -> mk m = true -> J ErrMarkerExpr) -> part_ok p.
  Proof.
    intros A M.
    assert (NA : forall x, ~ auto_attr p x) by (intros x (I & _); rewrite A in I; contradiction).
    assert (NN : forall n, ~ annotated n p) by (intros n (x & I & _); rewrite A in I; contradiction).
    split; intros.
    - rewrite A in *. contradiction.
    - exfalso. eapply NN; eassumption.
    - exfalso. destruct H as [H|(x & H)]; [eapply NN|eapply NA]; eassumption.
    - exfalso. eapply NA; eassumption.
    - eapply M; eassumption.
    - exfalso. eapply NA; eassumption.
    - exfalso. eapply NA; eassumption.
    - exfalso. eapply NA; eassumption.
  Qed.

  Lemma part_ok_plain p : part_attrs p = [] -> (forall a q, p <> PtExpr (EMacro a (Mac q None))) -> part_ok p.
  Proof. intros A M. apply part_ok_bare; [exact A|]. intros a q m E. exfalso. eapply M. exact E. Qed.

  Definition ok_e (e : expr) : Prop := parts_ok (parts_of e).
  Definition ok_s (s : stmt) : Prop := parts_ok (parts_of_stmt s).
  Definition ok_a (x : arm) : Prop := parts_ok (parts_of_arm x).
  Definition ok_l (l : local) : Prop := parts_ok (parts_of_let l).
  Definition ok_es (l : list expr) : Prop := parts_ok (fold_list (@app part) [] parts_of l).
  Definition ok_ss (l : list stmt) : Prop := parts_ok (fold_list (@app part) [] parts_of_stmt l).
  Definition ok_as (l : list arm) : Prop := parts_ok (fold_list (@app part) [] parts_of_arm l).
  Definition ok_o (o : option expr) : Prop := parts_ok (fold_opt [] parts_of o).

  Definition is_block (e : expr) : bool := match e with EBlock _ _ _ => true | _ => false end.
  Definition else_ok (o : option expr) : bool :=
    match o with None => false | Some x => is_block x || ends_well x end.
  Definition last_ok (s : stmt) : bool := match s with SExpr x false => ends_well x | _ => true end.
  Definition opt_ok (o : option expr) : bool := match o with Some x => ends_well x | None => true end.

  Lemma ends_if a c b o : ends_well (EIf a c b o) = else_ok o.
  Proof. destruct o as [[]|]; reflexivity. Qed.
  Lemma ends_block a l b : ends_well (EBlock a l b) = on_last last_ok true b.
  Proof. reflexivity. Qed.
  Lemma ends_unsafe a b : ends_well (EBlk KUnsafe a b) = on_last last_ok true b.
  Proof. reflexivity. Qed.

  Ltac okc := cbn [parts_of parts_of_stmt parts_of_arm parts_of_let fold_expr fold_stmt fold_arm fold_local fold_opt fold_list fold_right] in *.

  Lemma ok_app l l' : parts_ok (l ++ l') <-> parts_ok l /\ parts_ok l'.
  Proof. apply Forall_app. Qed.
  Lemma ok_cons p l : parts_ok (p :: l) <-> part_ok p /\ parts_ok l.
  Proof. split; [intros H; inversion H; auto|intros []; constructor; auto]. Qed.

  Lemma head_ok e e' : e_attrs e' = e_attrs e ->
    incl (names_expr (set_attrs e' [])) (names_expr (set_attrs e [])) ->
    (ends_well e = true -> ends_well e' = true) -> (forall a q, e' <> EMacro a (Mac q None)) ->
    part_ok (PtExpr e) -> part_ok (PtExpr e').
  Proof.
    intros A I E M. apply part_ok_le. split; cbn [part_attrs names_part with_attrs part_ends_well same_kind]; auto.
    - left. exact A.
    - discriminate.
    - intros a q F. injection F as F. exfalso. eapply M. exact F.
  Qed.

  Lemma arm_head_ok a p g g' b b' c c' :
    incl (names_arm (Arm [] p g' b' c')) (names_arm (Arm [] p g b c)) ->
    (ends_well b = true -> ends_well b' = true) ->
    part_ok (PtArm (Arm a p g b c)) -> part_ok (PtArm (Arm a p g' b' c')).
  Proof.
    intros I E. apply part_ok_le. split; cbn [part_attrs names_part with_attrs part_ends_well same_kind]; auto; try discriminate.
    left. reflexivity.
  Qed.

  Lemma let_head_ok a p t t' i i' d d' :
    incl (names_local (Local [] p t' i' d')) (names_local (Local [] p t i d)) ->
    (opt_ok i = true -> opt_ok i' = true) -> (i' = None -> i = None) ->
    part_ok (PtLet (Local a p t i d)) -> part_ok (PtLet (Local a p t' i' d')).
  Proof.
    intros I E N. apply part_ok_le. split; cbn [part_attrs names_part with_attrs same_kind]; auto; try discriminate.
    - left. reflexivity.
    - intros a0 q t0 d0 F. injection F as -> -> -> -> ->. rewrite (N eq_refl). eauto.
  Qed.

  Lemma inner_eq e : names_expr (set_attrs e [])
    = match e with EMacro _ (Mac _ (Some x)) => names_expr x | _ => fold_expr (@app nitem) [] names_expr names_stmt names_arm e end.
  Proof. destruct e; reflexivity. Qed.
  Lemma names_wrap i v e : names_expr (wrap i v e) = names_expr e.
  Proof. unfold wrap, names_expr. cbn. rewrite app_nil_r. reflexivity. Qed.
  Lemma names_branch i v b : fold_list (@app nitem) [] names_stmt (wrap_branch i v b) = fold_list (@app nitem) [] names_stmt b.
  Proof.
    unfold wrap_branch. change (names_expr (wrap i v (EBlock [] None b)) ++ [] = fold_list (@app nitem) [] names_stmt b).
    rewrite names_wrap, app_nil_r. reflexivity.
  Qed.
  Lemma names_question i v : fold_list (@app nitem) [] names_arm (question_arms i v) = [].
  Proof. reflexivity. Qed.
  Lemma names_operand o : names_expr (operand o) = fold_opt [] names_expr o.
  Proof. destruct o; reflexivity. Qed.

  Ltac inn := rewrite !inner_eq; cbn [fold_expr fold_opt]; rewrite ?names_branch, ?names_wrap, ?names_question, ?names_operand, ?app_nil_r;
    repeat first [apply incl_refl | assumption | apply incl_app_app]; eauto.

  Lemma attr_le e a' : drops_attr (e_attrs e) a' -> part_le (PtExpr e) (PtExpr (set_attrs e a')).
  Proof.
    intros D. split; cbn [part_attrs names_part with_attrs part_ends_well same_kind].
    - right. destruct e; cbn in *; try exact D. destruct D as (l & x & r & E & _). destruct l; discriminate.
    - destruct e; apply incl_refl.
    - destruct e; auto.
    - exact I.
    - discriminate.
    - intros a q F. destruct e; try discriminate. cbn in F. injection F as -> ->. eauto.
  Qed.

  Ltac spl := repeat match goal with
    | H : parts_ok (_ :: _) |- _ => apply ok_cons in H; destruct H
    | H : parts_ok (_ ++ _) |- _ => apply ok_app in H; destruct H
    | H : _ /\ _ |- _ => destruct H
    end.
  Ltac goals := repeat match goal with
    | |- parts_ok (_ :: _) => apply ok_cons; split
    | |- parts_ok (_ ++ _) => apply ok_app; split
    | |- parts_ok [] => constructor
    end.
  Ltac plain := apply part_ok_plain; [reflexivity|discriminate].
  Ltac un := unfold ok_e, ok_s, ok_a, ok_l, ok_es, ok_ss, ok_as, ok_o in *.

  Theorem edits_ok :
    (forall t e e', ed_expr mk t e e' ->
       (ok_e e -> ok_e e') /\ (ends_well e = true -> ends_well e' = true) /\ (is_block e = true -> is_block e' = true))
    /\ (forall t l l', ed_exprs mk t l l' -> ok_es l -> ok_es l')
    /\ (forall t o o', ed_opt mk t o o' ->
          (ok_o o -> ok_o o') /\ (else_ok o = true -> else_ok o' = true) /\ (opt_ok o = true -> opt_ok o' = true)
          /\ (o' = None -> o = None))
    /\ (forall t s s', ed_stmt mk t s s' -> (ok_s s -> ok_s s') /\ (last_ok s = true -> last_ok s' = true))
    /\ (forall t l l', ed_stmts mk t l l' ->
          (ok_ss l -> ok_ss l') /\ (on_last last_ok true l = true -> on_last last_ok true l' = true) /\ length l = length l')
    /\ (forall t x x', ed_arm mk t x x' -> ok_a x -> ok_a x')
    /\ (forall t l l', ed_arms mk t l l' -> ok_as l -> ok_as l')
    /\ (forall t x x', ed_local mk t x x' -> ok_l x -> ok_l x').
  Proof.
    destruct (names_edit mk) as (Ne & Nes & No & Ns & Nss & Na & Nas & Nl).
    assert (PW : forall i v e, ok_e e -> ok_e (wrap i v e)).
    { intros i v e H. unfold wrap. unfold ok_e. okc. goals; try solve [plain]. exact H. }
    assert (PB : forall i v b, ok_ss b -> ok_ss (wrap_branch i v b)).
    { intros i v b H. unfold wrap_branch, ok_ss. cbn [fold_list fold_right parts_of_stmt fold_stmt]. apply ok_app. split; [|constructor].
      apply PW. unfold ok_e. okc. goals; [plain|exact H]. }
    assert (PQ : forall i v, ok_as (question_arms i v)).
    { intros i v. unfold question_arms, ok_as, wrap. okc. cbn [app]. repeat (apply Forall_cons; [plain|]). constructor. }
    assert (PO : forall o, ok_o o -> ok_e (operand o)).
    { intros [x|] H; [exact H|]. unfold operand, ok_e. okc. goals. plain. }
    apply (ed_ind mk); intros.
    all: un.
    1: auto.
    1: intuition.
    1:{ split; [|split].
      + intros H. pose proof (part_ok_le _ _ (attr_le e a' d)) as L.
        destruct e; okc; cbn [set_attrs] in *; okc; spl; goals; auto.
      + destruct e; auto.
      + destruct e; auto. }
    all: try (split; [intros OK; okc; spl; goals; try assumption; try solve [plain]; auto|split; [|solve [auto]]]).
    all: try (eapply head_ok; [..|eassumption]; [reflexivity|solve [inn]| |discriminate]).
    all: rewrite ?ends_if, ?ends_block, ?ends_unsafe in *.
    all: try (apply PW; solve [auto]). all: try (apply PB; solve [auto]). all: try apply PQ.
    all: try solve [auto | discriminate | reflexivity | spl; auto | destruct k; auto].
    - eapply head_ok; [..|exact H]; [reflexivity| |auto|discriminate].
      rewrite !inner_eq; cbn [fold_expr fold_opt]. apply incl_app_app; [apply incl_refl|]. apply incl_app_app; [apply incl_refl|].
      change (incl (flat_map attr_marker ea ++ fold_list (@app nitem) [] names_stmt (wrap_branch i v b))
                (flat_map attr_marker ea ++ fold_list (@app nitem) [] names_stmt b)).
      rewrite names_branch. apply incl_refl.
    - eapply head_ok; [..|exact H]; [reflexivity| |auto|discriminate].
      rewrite !inner_eq; cbn [fold_expr fold_opt]. change (incl (names_expr e ++ []) (names_expr e)). rewrite app_nil_r. apply incl_refl.
    - split; [|split]; [intros OK; okc; spl; assumption|auto|discriminate].
    - apply part_ok_bare; [reflexivity|]. intros _ _ _ _ _ _. eapply (po_mac _ H); [reflexivity|eassumption|eassumption].
    - destruct k; cbn [ends_well]; auto. apply H.
    - cbn [fold_list fold_right] in *. spl. goals; auto.
    - destruct H as (A & B & C). split; [exact A|]. split; [|split; [exact B|discriminate]].
      cbn [else_ok]. rewrite !orb_true_iff. intuition.
    - destruct H as (A & B & C). split; [exact A|]. cbn [last_ok]. destruct semi; auto.
    - destruct H as [A B], H0 as (C & D & E). split; [|split].
      + cbn [fold_list fold_right] in *. intros F. spl. goals; auto.
      + destruct l, l'; try discriminate E; cbn [on_last] in *; auto.
      + cbn. f_equal. exact E.
    - spl. split; [auto|]. split; [auto|congruence].
    - okc. spl. goals; auto. eapply part_ok_le; [|eassumption].
      split; cbn [part_attrs names_part with_attrs part_ends_well same_kind]; auto; try discriminate; [right; assumption|apply incl_refl].
    - okc. spl. goals; auto. eapply arm_head_ok; [..|eassumption]; [|reflexivity].
      change (incl (fold_opt [] names_expr g ++ names_expr (wrap i v b)) (fold_opt [] names_expr g ++ names_expr b)).
      rewrite names_wrap. apply incl_refl.
    - okc. spl. goals; auto. eapply arm_head_ok; [..|eassumption]; [|assumption].
      change (incl (fold_opt [] names_expr g' ++ names_expr b') (fold_opt [] names_expr g ++ names_expr b)).
      apply incl_app_app; eauto.
    - cbn [fold_list fold_right] in *. spl. goals; auto.
    - okc. spl. goals; auto. eapply part_ok_le; [|eassumption].
      split; cbn [part_attrs names_part with_attrs part_ends_well same_kind]; auto; try discriminate; [right; assumption|apply incl_refl|].
      intros ? ? ? ? F. injection F as -> -> -> -> ->. eauto.
    - okc. spl. goals; auto. eapply let_head_ok; [..|eassumption]; auto. apply incl_refl.
    - okc. spl. goals; auto. eapply let_head_ok; [..|eassumption]; auto.
      change (incl (fold_opt [] names_expr i' ++ fold_opt [] names_expr d') (fold_opt [] names_expr i ++ fold_opt [] names_expr d)).
      apply incl_app_app; eauto.
  Qed.
End Parts.
