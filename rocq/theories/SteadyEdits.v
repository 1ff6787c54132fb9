(** Proof: edits keep the branches that Steady.v counts. *)

Require Import Coq.Strings.String Coq.Lists.List Coq.Bool.Bool Coq.Arith.Arith Lia.
Require Import Verif.Syntax Verif.Context Verif.ExprModel Verif.Edits Verif.AttrFold Verif.Tails Verif.Steady.
Import ListNotations.
Open Scope string_scope.
Open Scope list_scope.

Lemma named_drop n a a' : drops_attr a a' -> Bool.le (attr_named n a') (attr_named n a).
Proof.
  intros (l & x & r & -> & -> & _). unfold attr_named. rewrite !existsb_app. cbn [existsb].
  destruct (existsb _ l), (is_ident _ _), (existsb _ r); reflexivity.
Qed.

Lemma plain_drop n a a' : drops_attr a a' -> Bool.le (attr_plain n a') (attr_plain n a).
Proof.
  intros (l & x & r & -> & -> & _). unfold attr_plain. rewrite !existsb_app. cbn [existsb].
  destruct (existsb _ l), (match x with MPath p => is_ident p n | _ => false end), (existsb _ r); reflexivity.
Qed.

Lemma le_false x y : Bool.le x y -> y = false -> x = false.
Proof. destruct x, y; cbn; congruence. Qed.

Lemma open_drop a a' : drops_attr a a' -> open a = true -> open a' = true.
Proof.
  intros D. unfold open. rewrite !negb_true_iff, !orb_false_iff. intros [A B].
  split; eapply le_false; eauto using plain_drop, named_drop.
Qed.

Lemma nested_edit mk :
    (forall t e e', ed_expr mk t e e' -> Bool.le (nested_below e') (nested_below e))
    /\ (forall t l l', ed_exprs mk t l l' -> Bool.le (fold_list orb false nested_below l') (fold_list orb false nested_below l))
    /\ (forall t o o', ed_opt mk t o o' -> Bool.le (fold_opt false nested_below o') (fold_opt false nested_below o))
    /\ (forall t s s', ed_stmt mk t s s' -> Bool.le (af_stmt orb false (attr_named "nested") s') (af_stmt orb false (attr_named "nested") s))
    /\ (forall t l l', ed_stmts mk t l l' -> Bool.le (nested_below_stmts l') (nested_below_stmts l))
    /\ (forall t x x', ed_arm mk t x x' -> Bool.le (nested_below_arm x') (nested_below_arm x))
    /\ (forall t l l', ed_arms mk t l l' -> Bool.le (fold_list orb false nested_below_arm l') (fold_list orb false nested_below_arm l))
    /\ (forall t x x', ed_local mk t x x' -> Bool.le (af_local orb false (attr_named "nested") x') (af_local orb false (attr_named "nested") x)).
Proof.
  apply (af_edit orb false (attr_named "nested") Bool.le).
  - intros []; reflexivity.
  - intros [] [] []; cbn; congruence.
  - intros [] [] [] []; cbn; congruence.
  - reflexivity.
  - intros []; reflexivity.
  - intros []; reflexivity.
  - reflexivity.
  - intros a a' D. apply named_drop. exact D.
Qed.

Lemma below_wrap i v e : nested_below (wrap i v e) = nested_below e.
Proof. unfold nested_below, wrap. cbn. rewrite orb_false_r. reflexivity. Qed.
Lemma below_branch i v b : nested_below_stmts (wrap_branch i v b) = nested_below_stmts b.
Proof. unfold nested_below_stmts, wrap_branch. cbn. rewrite !orb_false_r. reflexivity. Qed.

(** ** The attributes of a node *)

Lemma filter_drop a a' : drops_attr a a' ->
  (filter is_auto a' = filter is_auto a /\ drops_attr (filter (fun x => negb (is_auto x)) a) (filter (fun x => negb (is_auto x)) a'))
  \/ (exists f1 x f2, filter is_auto a = f1 ++ x :: f2 /\ filter is_auto a' = f1 ++ f2).
Proof.
  intros (l & x & r & -> & -> & H). rewrite !filter_app. cbn [filter]. destruct (is_auto x) eqn:A; cbn [negb].
  - right. do 3 eexists. split; reflexivity.
  - left. split; [reflexivity|]. do 3 eexists. split; [reflexivity|]. split; [reflexivity|exact H].
Qed.

Lemma set_set e a b : set_attrs (set_attrs e a) b = set_attrs e b.
Proof. destruct e; reflexivity. Qed.
Lemma attrs_set e a : e_attrs e <> [] -> e_attrs (set_attrs e a) = a.
Proof. destruct e; try reflexivity. cbn. congruence. Qed.

Lemma two_attrs e a : two (set_attrs e a) = open (e_attrs (set_attrs e a)) && two (set_attrs e []).
Proof. destruct e; try destruct k; reflexivity. Qed.

Lemma own_ready_drop b e a' : drops_attr (e_attrs e) a' -> own_ready b e = true -> own_ready b (set_attrs e a') = true.
Proof.
  intros D. assert (NE : e_attrs e <> []) by (destruct D as (l & x & r & -> & _); destruct l; discriminate).
  unfold own_ready. rewrite (attrs_set e a' NE), set_set.
  destruct (filter_drop _ _ D) as [[-> D']|(f1 & x & f2 & E1 & E2)].
  - destruct (filter is_auto (e_attrs e)) as [|[] [|]]; auto. destruct (parse_args _) as [|[[|] ?]]; auto.
    destruct b; cbn [negb andb]; auto. rewrite two_attrs, (attrs_set e _ NE), (two_attrs e (filter _ a')), (attrs_set e _ NE), !andb_true_iff.
    intros [O T]. split; [eapply open_drop; eassumption|exact T].
  - rewrite E1, E2. destruct f1 as [|y f1]; cbn [app].
    + destruct f2; [reflexivity|]. destruct x; discriminate.
    + destruct (f1 ++ x :: f2) eqn:E; [destruct f1; discriminate|]. destruct y; discriminate.
Qed.

Lemma own_ready_kept b e e' : e_attrs e' = e_attrs e -> (two (set_attrs e []) = true -> two (set_attrs e' []) = true) ->
  (e_attrs e <> [] -> forall a, e_attrs (set_attrs e' a) = a) -> own_ready b e = true -> own_ready b e' = true.
Proof.
  intros EA H HA. unfold own_ready. rewrite EA. destruct (filter is_auto (e_attrs e)) as [|[] [|]] eqn:F; auto.
  destruct (parse_args _) as [|[[|] ?]]; auto. destruct b; cbn [negb andb]; auto.
  assert (NE : e_attrs e <> []) by (intros E; rewrite E in F; discriminate).
  rewrite two_attrs, (attrs_set e _ NE), (two_attrs e'), (HA NE), !andb_true_iff. intros [O T]. auto.
Qed.

Lemma own_ready_plain b e : e_attrs e = [] -> own_ready b e = true.
Proof. intros E. unfold own_ready. rewrite E. reflexivity. Qed.

Lemma own_ready_none b e : attr_named "auto_enum" (e_attrs e) = false -> own_ready b e = true.
Proof.
  intros E. unfold own_ready. replace (filter is_auto (e_attrs e)) with (@nil attr); [reflexivity|].
  revert E. unfold attr_named. induction (e_attrs e) as [|x l IH]; cbn; [reflexivity|]. unfold is_auto at 1. destruct (is_ident _ _); [discriminate|exact IH].
Qed.

Lemma own_ready_semi b e : own_ready b e = true -> own_ready false e = true.
Proof.
  unfold own_ready. destruct (filter _ _) as [|[] [|]]; auto. destruct (parse_args _) as [|[[|] ?]]; auto. destruct b; [discriminate|auto].
Qed.

Ltac sh := repeat match goal with H : _ && _ = true |- _ => apply andb_prop in H; destruct H end.
Ltac sg := repeat match goal with |- _ && _ = true => apply andb_true_intro; split end.

Section Edit.
  Variables (ta : bool) (mk : string -> bool).

  Lemma ready_semi : forall e b, ready ta b e = true -> ready ta false e = true.
  Proof.
    fix IH 1. intros e b H. destruct e; cbn [ready] in *; apply andb_prop in H; destruct H as [AC B]; apply andb_prop in AC; destruct AC as [A C];
      (apply andb_true_intro; split; [apply andb_true_intro; split; [eapply own_ready_semi; exact A|exact C]|]);
      try exact B. destruct m as [q [x|]]; [eapply IH; exact B|exact B].
  Qed.

  Definition two_last (s : stmt) : bool := match s with SExpr x false => two x | _ => false end.

  Lemma let_ready_drop a a' p t o d : drops_attr a a' -> let_ready ta (Local a p t o d) = true -> let_ready ta (Local a' p t o d) = true.
  Proof.
    intros D. unfold let_ready. destruct (filter_drop _ _ D) as [[-> _]|(f1 & x & f2 & E1 & E2)]; [auto|].
    rewrite E1, E2. destruct f1 as [|y f1]; cbn [app].
    - destruct f2; [reflexivity|]. destruct x; discriminate.
    - destruct (f1 ++ x :: f2) eqn:E; [destruct f1; discriminate|]. destruct y; discriminate.
  Qed.

  Lemma let_ready_kept a p p' t t' o o' d d' : (t = None -> t' = None) ->
    (match o with Some e => two e | None => true end = true -> match o' with Some e => two e | None => true end = true) ->
    let_ready ta (Local a p t o d) = true -> let_ready ta (Local a p' t' o' d') = true.
  Proof.
    intros T O. unfold let_ready. destruct (filter is_auto a) as [|x [|]]; auto.
    assert (Q : forall l, match parse_args l with inl _ => true | inr (ps, _) =>
        match ps with [] => negb ta || match t with None => true | _ => false end | _ => false end || match o with Some e => two e | None => true end end = true ->
      match parse_args l with inl _ => true | inr (ps, _) =>
        match ps with [] => negb ta || match t' with None => true | _ => false end | _ => false end || match o' with Some e => two e | None => true end end = true).
    { intros l. destruct (parse_args l) as [|[ps m]]; auto. rewrite !orb_true_iff. intros [X|X]; [left|right; auto].
      destruct ps; [|discriminate]. rewrite orb_true_iff in *. destruct X as [X|X]; [auto|]. destruct t; [discriminate|]. rewrite T; auto. }
    destruct x; auto.
  Qed.

  Definition kept (e e' : expr) : Prop :=
    (sure e = true -> sure e' = true) /\ (two e = true -> two e' = true)
    /\ (sure_else e = true -> sure_else e' = true) /\ (plain_else e = true -> plain_else e' = true) /\ (forall b, ready ta b e = true -> ready ta b e' = true).

  Definition kept_block (l l' : list stmt) : Prop :=
    (on_last sure_last false l = true -> on_last sure_last false l' = true)
    /\ (on_last two_last false l = true -> on_last two_last false l' = true)
    /\ (ready_stmts ta l = true -> ready_stmts ta l' = true) /\ length l = length l'.

  Lemma sure_match a s arms : sure (EMatch a s arms) = open a && existsb sure_arm arms.
  Proof. reflexivity. Qed.
  Lemma sure_blk a l b : sure (EBlock a l b) = open a && on_last sure_last false b.
  Proof. reflexivity. Qed.
  Lemma sure_unsafe a b : sure (EBlk KUnsafe a b) = open a && on_last sure_last false b.
  Proof. reflexivity. Qed.
  Lemma two_blk a l b : two (EBlock a l b) = open a && on_last two_last false b.
  Proof. reflexivity. Qed.
  Lemma two_unsafe a b : two (EBlk KUnsafe a b) = open a && on_last two_last false b.
  Proof. reflexivity. Qed.

  Lemma block_wrap i v b : sure_block b = true -> sure_block (wrap_branch i v b) = true.
  Proof. unfold sure_block. rewrite below_branch, !andb_true_iff. intros [_ H]. split; [reflexivity|exact H]. Qed.

  Lemma else_enum g x : sure x = true -> nested_below x = false -> sure_else (EBlock [] None [SItem (IEnum g); SExpr x false]) = true.
  Proof.
    intros S N. unfold sure_else. rewrite sure_blk. cbn [on_last sure_last open]. rewrite S.
    assert (E : nested_below (EBlock [] None [SItem (IEnum g); SExpr x false]) = false).
    { change (nested_below x || false = false). rewrite N. reflexivity. }
    rewrite E. reflexivity.
  Qed.

  Definition else_shape (x : expr) : bool := match x with EBlock _ _ _ => true | EIf _ _ t _ => sure_block t | _ => false end.
  Definition kids_ready (semi : bool) (e : expr) : bool :=
    match e with EIf _ _ _ (Some x) => plain_else x | _ => true end &&
    match e with
    | EMacro _ (Mac _ (Some x)) => ready ta semi x
    | _ => fold_expr andb true (ready ta false) (ready_stmt ta) (ready_arm ta) e
    end.
  Lemma ready_eq semi e : ready ta semi e = own_ready semi e && kids_ready semi e.
  Proof. destruct e; symmetry; apply andb_assoc. Qed.

  (** An edit that keeps the attributes of the node. *)
  Lemma kept_of t e e' : ed_expr mk t e e' -> e_attrs e' = e_attrs e -> (e_attrs e <> [] -> forall a, e_attrs (set_attrs e' a) = a) ->
    (sure e = true -> sure e' = true) ->
    (forall a, two (set_attrs e a) = true -> two (set_attrs e' a) = true) ->
    (else_shape e = true -> else_shape e' = true) -> (plain_else e = true -> plain_else e' = true) -> (forall b, kids_ready b e = true -> kids_ready b e' = true) -> kept e e'.
  Proof.
    intros R EA SA S T H PL K. split; [exact S|]. split; [|split; [|split; [exact PL|]]].
    - specialize (T (e_attrs e)). rewrite <- EA in T at 2. replace (set_attrs e (e_attrs e)) with e in T by (destruct e; reflexivity).
      replace (set_attrs e' (e_attrs e')) with e' in T by (destruct e'; reflexivity). exact T.
    - unfold sure_else. change (match e with EBlock _ _ _ => true | EIf _ _ t _ => sure_block t | _ => false end) with (else_shape e).
      change (match e' with EBlock _ _ _ => true | EIf _ _ t _ => sure_block t | _ => false end) with (else_shape e').
      rewrite !andb_true_iff, !negb_true_iff. intros [[A B] C]. repeat split; auto.
      eapply le_false; [|exact B]. exact (proj1 (nested_edit mk) _ _ _ R).
    - intros b. rewrite !ready_eq, !andb_true_iff. intros [A B]. split; [|auto]. eapply own_ready_kept; eauto.
  Qed.

  Theorem edits_kept :
    (forall t e e', ed_expr mk t e e' -> kept e e')
    /\ (forall t l l', ed_exprs mk t l l' -> fold_list andb true (ready ta false) l = true -> fold_list andb true (ready ta false) l' = true)
    /\ (forall t o o', ed_opt mk t o o' ->
          (fold_opt true (ready ta false) o = true -> fold_opt true (ready ta false) o' = true)
          /\ match o, o' with Some x, Some x' => kept x x' | None, None => True | _, _ => False end)
    /\ (forall t s s', ed_stmt mk t s s' -> (sure_last s = true -> sure_last s' = true) /\ (two_last s = true -> two_last s' = true)
          /\ (ready_stmt ta s = true -> ready_stmt ta s' = true))
    /\ (forall t l l', ed_stmts mk t l l' -> kept_block l l')
    /\ (forall t x x', ed_arm mk t x x' -> (sure_arm x = true -> sure_arm x' = true) /\ (ready_arm ta x = true -> ready_arm ta x' = true))
    /\ (forall t l l', ed_arms mk t l l' -> length (filter sure_arm l) <= length (filter sure_arm l')
          /\ (existsb sure_arm l = true -> existsb sure_arm l' = true)
          /\ (fold_list andb true (ready_arm ta) l = true -> fold_list andb true (ready_arm ta) l' = true))
    /\ (forall t x x', ed_local mk t x x' -> ready_let ta x = true -> ready_let ta x' = true).
  Proof.
    destruct (nested_edit mk) as (Ne & Nes & No & Ns & Nss & Na & Nas & Nl).
    assert (NB : forall b b', Bool.le (nested_below_stmts b') (nested_below_stmts b) -> (on_last sure_last false b = true -> on_last sure_last false b' = true) -> sure_block b = true -> sure_block b' = true).
    { intros b b' L K. unfold sure_block. rewrite !andb_true_iff, !negb_true_iff. intros [A B]. split; [auto|eapply le_false; eassumption]. }
    assert (RW : forall i v e, ready ta false (wrap i v e) = ready ta false e).
    { intros. unfold wrap. cbn. rewrite !andb_true_r. reflexivity. }
    assert (RB : forall i v b, ready_stmts ta (wrap_branch i v b) = ready_stmts ta b).
    { intros. unfold wrap_branch, ready_stmts. cbn [fold_list fold_right ready_stmt]. rewrite RW, andb_true_r. reflexivity. }
    assert (RO : forall o, ready ta false (operand o) = fold_opt true (ready ta false) o).
    { intros [x|]; reflexivity. }
    apply (ed_ind mk); intros.
    1: unfold kept; auto.
    1: unfold kept in *; intuition.
    1:{ split; [|split; [|split; [|split]]].
      + intros H. destruct e; try exact H; cbn [set_attrs e_attrs sure] in *; apply andb_true_iff in H; destruct H as [O H];
          apply andb_true_iff; (split; [eapply open_drop; eassumption|exact H]).
      + intros H. destruct e; try exact H; cbn [set_attrs e_attrs two] in *; apply andb_true_iff in H; destruct H as [O H];
          apply andb_true_iff; (split; [eapply open_drop; eassumption|exact H]).
      + unfold sure_else. rewrite !andb_true_iff, !negb_true_iff. intros [[A B] C]. repeat split.
        * destruct e; try exact A; cbn [set_attrs e_attrs sure] in *; apply andb_true_iff in A; destruct A as [O H];
          apply andb_true_iff; (split; [eapply open_drop; eassumption|exact H]).
        * eapply le_false; [|exact B]. eapply Ne. apply (ee_attr mk). exact d.
        * destruct e; exact C.
      + destruct e; try (intros; assumption). cbn [plain_else set_attrs e_attrs] in *. rewrite !negb_true_iff. intros H.
        eapply le_false; [apply named_drop; exact d|exact H].
      + intros b0 H. pose proof (own_ready_drop b0 e a' d) as OD. rewrite ready_eq in *. apply andb_true_iff in H. destruct H as [O H].
        apply andb_true_iff. split; [auto|]. destruct e; exact H. }
    all: try (eapply kept_of; [econstructor; eassumption|reflexivity|reflexivity|..]).
    all: try solve [intros; discriminate]. all: try solve [intros ? ?; assumption | intros; assumption].
    all: repeat match goal with H : _ /\ _ |- _ => destruct H | H : kept _ _ |- _ => destruct H as (? & ? & ? & ? & ?)
           | H : kept_block _ _ |- _ => unfold kept_block in H end.
    all: try match goal with |- forall b, kids_ready b _ = true -> kids_ready b _ = true =>
           unfold kids_ready; cbn [fold_expr fold_opt]; intros; repeat rewrite andb_true_iff in *;
           repeat match goal with H : _ /\ _ |- _ => destruct H end; repeat split; solve [auto] end.
    - intros a0. cbn [set_attrs two]. rewrite !andb_true_iff. intros (A & B & C). auto using block_wrap.
    - cbn [else_shape]. apply block_wrap.
    - unfold kids_ready. cbn [fold_expr]. fold (ready_stmts ta b) (ready_stmts ta (wrap_branch i v b)). rewrite RB. auto.
    - intros a0. cbn [set_attrs two]. rewrite !andb_true_iff. intros (A & B & C). repeat split; auto.
      unfold sure_else in *. rewrite !andb_true_iff, sure_blk in *. destruct C as [[C1 C2] _]. apply andb_true_iff in C1. destruct C1 as [C0 C1].
      repeat split; [rewrite C0; reflexivity|]. change (negb (attr_named "nested" ea || nested_below_stmts (wrap_branch i v b)) = true). rewrite below_branch. exact C2.
    - intros b0. unfold kids_ready. cbn [fold_expr fold_opt plain_else]. rewrite !ready_eq. intros X. sh. sg; auto.
      + apply own_ready_none. cbn [e_attrs]. apply negb_true_iff. assumption.
      + unfold kids_ready in *. cbn [fold_expr] in *. sh. sg; auto. change (ready_stmts ta (wrap_branch i v b) = true). rewrite RB. assumption.
    - intros b0. unfold kids_ready. cbn [fold_expr fold_opt andb]. rewrite RW, RO. auto.
    - intros b0. unfold kids_ready. cbn [fold_expr fold_opt andb]. rewrite RW, RO. auto.
    - cbn [sure]. rewrite andb_false_r. discriminate.
    - cbn [sure]. rewrite andb_false_r. discriminate.
    - intros b0. unfold kids_ready. cbn [fold_expr andb fold_list fold_right]. intros X. rewrite (ready_semi _ _ X). reflexivity.
    - unfold kept. cbn [sure two]. rewrite !andb_false_r. unfold sure_else. cbn [sure]. rewrite !andb_false_r. repeat split; try discriminate.
      intros b0. cbn [ready]. intros X. sh. assumption.
    - unfold kept. cbn [sure two]. rewrite !andb_false_r. unfold sure_else. cbn [sure]. rewrite !andb_false_r. repeat split; discriminate.
    - unfold kept. rewrite sure_blk, two_blk. cbn [on_last sure_last two_last open andb]. repeat split; auto.
      + intros X. unfold sure_else in X. sh. apply else_enum; [auto|]. eapply le_false; [eapply Ne; eassumption|]. apply negb_true_iff. assumption.
      + intros b0 X. cbn [ready fold_expr fold_list fold_right ready_stmt andb]. rewrite own_ready_plain by reflexivity.
        erewrite ready_semi by eauto. reflexivity.
    - rewrite !sure_blk. intros X. sh. sg; auto.
    - intros a0. cbn [set_attrs]. rewrite !two_blk. intros X. sh. sg; auto.
    - destruct k; try (intros X; exact X). rewrite !sure_unsafe. intros X. sh. sg; auto.
    - intros a0. destruct k; try (intros X; exact X). cbn [set_attrs]. rewrite !two_unsafe. intros X. sh. sg; auto.
    - rewrite !sure_match. intros X. sh. sg; auto.
    - intros a0. cbn [set_attrs two]. intros X. sh. sg; auto. apply Nat.leb_le. match goal with H : Nat.leb _ _ = true |- _ => apply Nat.leb_le in H end. lia.
    - intros a0. cbn [set_attrs two]. intros X. sh. sg; auto.
      + eapply NB; eauto.
      + destruct els, els'; try contradiction; unfold kept in *; intuition.
    - cbn [else_shape]. apply NB; eauto.
    - intros b0. unfold kids_ready. cbn [fold_expr]. intros X. sh. sg; auto. destruct els, els'; try contradiction; unfold kept in *; intuition.
    - cbn [sure]. intros X. sh. sg; auto.
    - intros a0. cbn [set_attrs two]. intros X. sh. sg; auto.
    - cbn [sure]. intros X. sh. sg; auto.
    - intros a0. cbn [set_attrs two]. intros X. sh. sg; auto.
    - unfold fold_list in *. cbn [fold_right] in *. sh. sg; auto.
    - auto.
    - unfold kept. cbn [fold_opt]. intuition.
    - auto.
    - auto.
    - cbn [sure_last two_last ready_stmt]. auto.
    - cbn [sure_last two_last ready_stmt]. destruct semi; auto.
    - unfold kept_block. auto.
    - unfold kept_block in *.
      destruct l as [|s1 l], l' as [|s1' l']; try discriminate; cbn [on_last length] in *; repeat split; auto;
        unfold ready_stmts, fold_list in *; cbn [fold_right] in *;
        try (intros X; apply andb_prop in X; destruct X; apply andb_true_intro; split; auto).
    - unfold kept_block in *. repeat split; auto. congruence.
    - auto.
    - split.
      + cbn [sure_arm]. intros X. sh. sg; auto.
        * match goal with H : negb (attr_plain _ a || _) = true |- _ => revert H end. rewrite !negb_true_iff, !orb_false_iff. intros [X Y].
          split; eapply le_false; eauto using plain_drop, named_drop.
        * apply negb_true_iff. match goal with H : negb (nested_below_arm _) = true |- _ => apply negb_true_iff in H end.
          eapply le_false; [|eassumption]. eapply Na. eapply ea_attr. eassumption.
      + auto.
    - split.
      + cbn [sure_arm]. intros X. sh. sg; auto.
        match goal with H : negb (nested_below_arm _) = true |- _ => apply negb_true_iff in H end. apply negb_true_iff.
        eapply le_false; [|eassumption]. eapply Na. eapply ea_wrap.
      + cbn [ready_arm fold_arm]. rewrite RW. auto.
    - split.
      + cbn [sure_arm]. intros X. sh. sg; auto.
        match goal with H : negb (nested_below_arm _) = true |- _ => apply negb_true_iff in H end. apply negb_true_iff.
        eapply le_false; [|eassumption]. eapply Na. eapply ea_parts; eassumption.
      + cbn [ready_arm fold_arm]. intros X. sh. sg; auto.
    - auto.
    - cbn [filter existsb]. unfold fold_list in *. cbn [fold_right]. repeat split.
      + destruct (sure_arm x) eqn:E; [rewrite H by reflexivity; cbn [length]; lia|]. destruct (sure_arm x'); cbn [length]; lia.
      + rewrite !orb_true_iff. intuition.
      + intros X. sh. sg; auto.
    - auto.
    - unfold ready_let in *. sh. sg; auto. eapply let_ready_drop; eassumption.
    - unfold ready_let in *. sh. sg; auto. eapply let_ready_kept; [| |eassumption]; auto.
    - unfold ready_let in *. cbn [fold_local] in *. sh. sg; auto. eapply let_ready_kept; [| |eassumption]; auto.
      destruct i, i'; try contradiction; unfold kept in *; intuition.
  Qed.
End Edit.
