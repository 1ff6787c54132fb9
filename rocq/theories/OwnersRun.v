(** Proof: no owned marker is left (Owners.v). *)

Require Import Coq.Strings.String Coq.Lists.List Coq.Bool.Bool.
Require Import Verif.Syntax Verif.Context Verif.ExprModel Verif.Edits Verif.NoValueSpec Verif.Tails Verif.TwinEdits Verif.ArgsSpec Verif.ArgsRun.
Require Import Verif.AstInd Verif.Changes Verif.ChangesInd Verif.ChangesTop Verif.LoopsRun Verif.Branches Verif.BranchesRun Verif.Nodes Verif.Annotations.
Require Import Verif.AnnotRun Verif.GoneRun Verif.Owners.
Import ListNotations.
Open Scope string_scope.
Open Scope list_scope.

Section Names.
  Variable M : list string.
  Notation T := (owned_macros M).
  Notation L := (left_over M).

  (** ** Names *)

  Lemma in_path c p : named_in c p = true <-> exists s, In s c /\ is_ident p s = true.
  Proof. unfold named_in. apply existsb_exists. Qed.
  Lemma only_more c d e : incl c d -> only_of M c e = true -> only_of M d e = true.
  Proof.
    intros I. destruct e; auto. cbn. destruct m as [p x]. rewrite !orb_true_iff. intros [H|H]; [auto|]. right. apply in_path in H. apply in_path.
    destruct H as (s & H1 & H2). eauto.
  Qed.
  Lemma L_more c d e : incl c d -> all L c e = true -> all L d e = true.
  Proof.
    intros I. apply (proj1 (all_impl L L (fun c d => incl c d)
      ltac:(intros x y z K; cbn; rewrite !andb_true_iff; intuition eauto using only_more) ltac:(auto) ltac:(auto) ltac:(auto) ltac:(auto) ltac:(auto)) e c d I).
  Qed.
  Lemma below_more c d e : incl c d -> below L c e = true -> below L d e = true.
  Proof.
    pose proof (all_impl L L (fun c d => incl c d)
      ltac:(intros x y z K; cbn; rewrite !andb_true_iff; intuition eauto using only_more) ltac:(auto) ltac:(auto) ltac:(auto) ltac:(auto) ltac:(auto)) as (H1 & H2 & H3 & _).
    intros I. eapply (below_impl L L (fun c d => incl c d)); [|exact I]. apply kids_all; assumption.
  Qed.
  Lemma inner_none c a : attr_named "auto_enum" a = false -> inner c a = c.
  Proof. intros N. unfold inner. rewrite filter_none by exact N. reflexivity. Qed.
  Lemma inner_one c a x a' : removes "auto_enum" a x a' -> inner c a = chosen c ++ name_of x.
  Proof.
    intros (l & r & -> & -> & I & N). unfold inner. rewrite filter_app, filter_none by exact N. cbn [filter app]. rewrite I. reflexivity.
  Qed.
  Lemma owners_none c a : attr_named "auto_enum" a = false -> owners c a = c.
  Proof. intros N. unfold owners. rewrite filter_none by exact N. reflexivity. Qed.
  Lemma owners_one c a x a' : removes "auto_enum" a x a' -> owners c a = name_of x.
  Proof.
    intros (l & r & -> & -> & I & N). unfold owners. rewrite filter_app, filter_none by exact N. cbn [filter app]. rewrite I. reflexivity.
  Qed.
  Lemma L_T c e : all L c e = true -> all T c e = true.
  Proof.
    apply (proj1 (all_impl L T (fun c d => c = d)
      ltac:(intros x y z <-; cbn; rewrite !andb_true_iff, negb_true_iff; intros ((N & H1) & H2); rewrite owners_none by exact N; auto using once_none)
      ltac:(intros x y z <-; cbn; rewrite !andb_true_iff, negb_true_iff; intros ((N & H1) & H2); rewrite inner_none by exact N; reflexivity)
      ltac:(auto)
      ltac:(intros x y a v _; cbn; rewrite negb_true_iff; apply once_none)
      ltac:(intros x y a v z <-; cbn; rewrite negb_true_iff; intros N; rewrite inner_none by exact N; reflexivity)
      ltac:(intros x y a v <-; cbn; rewrite negb_true_iff; intros ->; reflexivity)) e c c eq_refl).
  Qed.
  Lemma XU y : unused_arguments M (node_of y) = unused_arguments M y. Proof. destruct y; reflexivity. Qed.
  Lemma XO c y : only_of M c (node_of y) = only_of M c y. Proof. destruct y; reflexivity. Qed.
  Lemma L_eq c e : all L c e = negb (attr_named "auto_enum" (e_attrs e)) && unused_arguments M e && only_of M c e && below L c e.
  Proof. rewrite all_below. cbn [r_expr r_in left_over]. rewrite XA, XU, XO. reflexivity. Qed.
  Lemma T_eq c e : all T c e = once_of "auto_enum" (e_attrs e) && unused_arguments M e && only_of M (owners c (e_attrs e)) e && below T (inner c (e_attrs e)) e.
  Proof. rewrite all_below. cbn [r_expr r_in owned_macros]. rewrite XA, XU, XO. reflexivity. Qed.
  Lemma T_un c e : attr_named "auto_enum" (e_attrs e) = false -> all T c e = unused_arguments M e && only_of M c e && below T c e.
  Proof. intros N. rewrite T_eq, inner_none, owners_none, once_none by exact N. reflexivity. Qed.

  Lemma L_arm_eq c a p g b x : all_arm L c (Arm a p g b x) = negb (attr_named "auto_enum" a) && (fold_opt true (all L c) g && all L c b).
  Proof. reflexivity. Qed.
  Lemma L_local_eq c a p t i d : all_local L c (Local a p t i d) = negb (attr_named "auto_enum" a) && (fold_opt true (all L c) i && fold_opt true (all L c) d).
  Proof. reflexivity. Qed.
  Lemma unused_eq e : unused M e = negb (attr_named "auto_enum" (e_attrs e))
    && (match e with EMacro _ (Mac p _) => negb (named_in M p) | _ => true end && (fold_expr andb true (unused M) (unused_stmt M) (unused_arm M) e && unused_arguments M e)).
  Proof. destruct e; reflexivity. Qed.
  Lemma unused_L c :
    (forall e, unused M e = true -> all L c e = true) /\ (forall e, unused_stmt M e = true -> all_stmt L c e = true)
    /\ (forall e, unused_arm M e = true -> all_arm L c e = true) /\ (forall e, unused_local M e = true -> all_local L c e = true).
  Proof.
    assert (X : forall e, kids (fun e => unused M e = true -> all L c e = true) (fun e => unused_stmt M e = true -> all_stmt L c e = true)
       (fun e => unused_arm M e = true -> all_arm L c e = true) e -> unused M e = true -> all L c e = true).
    { intros e K. rewrite unused_eq, L_eq. intros E. apply andb_true_iff in E. destruct E as [-> E]. apply andb_true_iff in E. destruct E as [EM E].
      apply andb_true_iff in E. destruct E as [E ->]. cbn [andb]. apply andb_true_iff. split; [destruct e; try reflexivity; destruct m; cbn; rewrite EM; reflexivity|].
      clear EM. unfold below. destruct e; cbn [kids fold_expr] in *; repeat match goal with H : _ /\ _ |- _ => destruct H end;
        repeat match goal with H : _ && _ = true |- _ => apply andb_true_iff in H; destruct H end; rewrite ?andb_true_iff; repeat split;
        eauto using list_to, opt_to. }
    apply ast_ind; intros; try (apply X; cbn [kids]; auto; fail); try reflexivity.
    - exact (H H0).
    - exact (H H0).
    - rewrite L_local_eq. change (negb (attr_named "auto_enum" a) && (fold_opt true (unused M) i && fold_opt true (unused M) d) = true) in H1.
      rewrite !andb_true_iff in *. destruct H1 as (H1 & H2 & H3). eauto using opt_to.
    - rewrite L_arm_eq. change (negb (attr_named "auto_enum" a) && (fold_opt true (unused M) g && unused M b) = true) in H1.
      rewrite !andb_true_iff in *. destruct H1 as (H1 & H2 & H3). eauto using opt_to.
  Qed.
  Lemma T_added c e : added e -> r_expr T c e = true /\ r_in T c e = c.
  Proof. intros [->|[(p & ->)|[->|[->| ->]]]]; cbn; auto. Qed.
  Lemma T_arm c : r_arm T c [] = true. Proof. reflexivity. Qed.
  Lemma L_added c e : added e -> r_expr L c e = true /\ r_in L c e = c.
  Proof. intros [->|[(p & ->)|[->|[->| ->]]]]; cbn; auto. Qed.

  (** ** Steps *)

  (** The names left after the visit by [w]. *)
  Definition without (m : string) (c : list string) : list string := filter (fun s => negb (s =? m)) c.
  Definition rest (w : who) (c : list string) : list string := if w_foreign w && (w_marker w =? "marker") then c else without (w_marker w) c.
  Lemma in_without m c s : In s (without m c) <-> In s c /\ s <> m.
  Proof. unfold without. rewrite filter_In, negb_true_iff, String.eqb_neq. tauto. Qed.
  Lemma rest_incl w c : incl (rest w c) c.
  Proof. unfold rest. destruct (_ && _); [apply incl_refl|]. intros s H. apply in_without in H. tauto. Qed.
  Lemma without_in m c s : In s c -> s <> m -> In s (without m c).
  Proof. intros. apply in_without. auto. Qed.

  Lemma marker_only w c e e1 : marker_step w e e1 -> unused_arguments M e = true -> only_of M c e = true ->
    unused_arguments M e1 = true /\ only_of M (without (w_marker w) c) e1 = true.
  Proof.
    destruct 1 as [v a p x I|e N]; [auto|]. intros U O. split; [exact U|]. destruct e; try reflexivity. destruct m as [p x]. cbn in *.
    apply orb_true_iff in O. apply orb_true_iff. destruct O as [O|O]; [auto|]. right. apply in_path in O. destruct O as (s & O1 & O2). apply in_path.
    exists s. split; [|exact O2]. apply without_in; [exact O1|]. intros ->. rewrite (N _ _ _ eq_refl) in O2. discriminate.
  Qed.
  Lemma marker_below w c e e1 : marker_step w e e1 -> unused_arguments M e = true -> below L c e = true -> below L c e1 = true.
  Proof.
    destruct 1 as [v a p x I|e N]; [|auto]. intros U _. unfold below. cbn [fold_expr fold_list fold_right]. rewrite (all_ctor L L_added).
    cbn in U. rewrite (proj1 (unused_L c) _ U). reflexivity.
  Qed.
  Lemma marker_L w c e e1 : marker_step w e e1 -> all L c e = true -> all L c e1 = true.
  Proof.
    intros MS. rewrite !L_eq, (proj1 (marker_same _ _ _ MS)). intros E. ands. destruct (marker_only _ _ _ _ MS H2 H1) as [U O].
    rewrite H, U, (marker_below _ _ _ _ MS H2 H0), !andb_true_r. cbn. eapply only_more; [|exact O]. intros s K. apply in_without in K. tauto.
  Qed.
  Lemma attrs_unnamed w a a' : attrs_step w a a' -> attr_named "auto_enum" a = false -> attr_named "auto_enum" a' = false.
  Proof. destruct 1 as [| |p a a' _ R]; auto. rewrite (named_other _ "auto_enum" _ _ _ R) by discriminate. auto. Qed.
  Definition given_rest (w : who) (c : list string) : list string := if w_given w then without (w_marker w) c else c.
  Lemma child_name w x toks c : x = MPath (attr_path x) /\ toks = [] \/ x = MList (attr_path x) toks -> child w toks c ->
    name_of x = if w_given c then [w_marker c] else [].
  Proof.
    intros X CH. pose proof (gives_of _ _ _ _ X CH) as GO. destruct CH as (_ & _ & _ & _ & _ & _ & l & AL & _ & MK).
    assert (P : parse_args toks = inr (traits_of l, match markers_of l with [m] => Some m | _ => None end)).
    { destruct (markers_of l) as [|m [|]] eqn:E; [| |contradiction]; apply parse_args_grammar; exists l; auto. }
    destruct X as [[X ->]|X]; rewrite X in GO |- *; cbn in GO; [rewrite GO; reflexivity|]. unfold name_of. unfold gives in GO. rewrite P in *. rewrite GO.
    destruct (traits_of l); [reflexivity|]. destruct (markers_of l) as [|m [|]]; [rewrite MK; reflexivity|destruct MK as [-> _]; reflexivity|contradiction].
  Qed.
  Lemma child_rest (c : who) (A N : list string) : N = (if w_given c then [w_marker c] else []) -> incl (given_rest c (A ++ N)) A.
  Proof.
    intros ->. unfold given_rest. destruct (w_given c); [|rewrite app_nil_r; apply incl_refl]. intros s H. apply in_without in H. destruct H as [H1 H2].
    apply in_app_iff in H1. destruct H1 as [H1|[H1|[]]]; [exact H1|congruence].
  Qed.
  Lemma rest_chosen w w' c : w_marker w' = w_marker w -> incl (rest w' (chosen c)) (rest w c).
  Proof.
    intros E s H. unfold rest in *. rewrite E in H.
    assert (X : In s (chosen c) -> In s c /\ s <> "marker") by (unfold chosen; rewrite filter_In, negb_true_iff, String.eqb_neq; tauto).
    assert (Y : In s c /\ (s <> w_marker w \/ w_foreign w && (w_marker w =? "marker") = true)).
    { destruct (w_foreign w' && (w_marker w =? "marker")) eqn:Z.
      - apply andb_true_iff in Z. destruct Z as [_ Z]. apply String.eqb_eq in Z. rewrite Z. destruct (X H). auto.
      - apply in_without in H. destruct H as [H1 H2]. destruct (X H1). auto. }
    destruct Y as [Y1 Y2]. destruct (w_foreign w && (w_marker w =? "marker")); [exact Y1|]. apply without_in; [exact Y1|]. destruct Y2; [assumption|discriminate].
  Qed.
  Lemma rest_app w a b : rest w (a ++ b) = rest w a ++ rest w b.
  Proof. unfold rest. destruct (_ && _); [reflexivity|apply filter_app]. Qed.
  Lemma in_rest w c d : incl (rest w (c ++ d)) (rest w c ++ d).
  Proof. rewrite rest_app. apply incl_app; [apply incl_appl, incl_refl|apply incl_appr, rest_incl]. Qed.

  Definition fw (w : who) (f g : list string -> bool) : Prop := forall c, f c = true -> g (rest w c) = true.
  Section Parts.
    Variables (Re : list string -> expr -> expr -> Prop) (Rs : list string -> stmt -> stmt -> Prop) (Ra : list string -> arm -> arm -> Prop) (w : who).
    Hypothesis He : forall t x x', Re t x x' -> fw w (fun c => all T c x) (fun c => all L c x').
    Hypothesis Hs : forall t x x', Rs t x x' -> fw w (fun c => all_stmt T c x) (fun c => all_stmt L c x').
    Hypothesis Ha : forall t x x', Ra t x x' -> fw w (fun c => all_arm T c x) (fun c => all_arm L c x').
    Lemma parts_fw t e e' : parts Re Rs Ra t e e' -> fw w (fun c => below T c e) (fun c => below L c e').
    Proof.
      intros H c. apply (parts_fold andb true andb true (fun _ a b => a = true -> b = true) (fun _ => eq_refl) forth_and _ _ _ _ _ _ Re Rs Ra t e e'); [|exact H].
      apply kids_all; intros x ? x' K; [apply He in K|apply Hs in K|apply Ha in K]; exact (K c).
    Qed.
  End Parts.
  Lemma maybe_fw (Re : list string -> expr -> expr -> Prop) w t o o' :
    (forall t x x', Re t x x' -> fw w (fun c => all T c x) (fun c => all L c x')) -> maybe2 Re t o o' ->
    fw w (fun c => fold_opt true (all T c) o) (fun c => fold_opt true (all L c) o').
  Proof. intros H K. destruct K as [|t x x' K]; [intros ? ?; reflexivity|exact (H _ _ _ K)]. Qed.
  Definition let_fw (w : who) (x x' : local) : Prop :=
    match x, x' with
    | Local a _ _ i d, Local a' _ _ i' d' =>
        fw w (fun c => fold_opt true (all T c) i) (fun c => fold_opt true (all L c) i')
        /\ fw w (fun c => fold_opt true (all T c) d) (fun c => fold_opt true (all L c) d')
        /\ (attr_named "auto_enum" a = false -> attr_named "auto_enum" a' = false)
    end.
  Lemma T_local c a p t i d : attr_named "auto_enum" a = false -> all_local T c (Local a p t i d) = fold_opt true (all T c) i && fold_opt true (all T c) d.
  Proof. intros N. rewrite all_local_eq. cbn [r_let r_value r_else owned_macros]. rewrite N, inner_none, once_none by exact N. reflexivity. Qed.
  Lemma T_local_named c a x a' p t i d : removes "auto_enum" a x a' -> all_local T c (Local a p t i d) = true -> attr_named "auto_enum" a' = false
    /\ fold_opt true (all T (chosen c ++ name_of x)) i = true /\ fold_opt true (all T (chosen c)) d = true.
  Proof.
    intros R. rewrite all_local_eq. cbn [r_let r_value r_else owned_macros]. rewrite (removes_named _ _ _ _ R), (inner_one _ _ _ _ R). intros E. ands.
    split; [eapply once_removed; eassumption|]. split; assumption.
  Qed.
  Lemma let_stmt_fw w a p t i d l' : attr_named "auto_enum" a = false -> let_fw w (Local a p t i d) l' ->
    fw w (fun z => all_stmt T z (SLocal (Local a p t i d))) (fun z => all_stmt L z (SLocal l')).
  Proof.
    intros N H c. destruct l' as [a' p' t' i' d']. destruct H as (I & D & A). rewrite !all_let_eq, T_local, L_local_eq by exact N. intros E. ands.
    rewrite (A N), (I _ H), (D _ H0). reflexivity.
  Qed.
  Lemma arm_fw w a0 p g b0 c a g' b b' a' : nested_arm w (Arm a0 p g b0 c) (Arm a p g b c) ->
    fw w (fun d => fold_opt true (all T d) g) (fun d => fold_opt true (all L d) g') ->
    fw w (fun d => all T d b) (fun d => all L d b') -> attrs_step w a a' ->
    fw w (fun d => all_arm T d (Arm a0 p g b0 c)) (fun d => all_arm L d (Arm a' p g' b' c)).
  Proof.
    intros NA G1 B1 AS d. rewrite all_arm_eq, L_arm_eq. cbn [r_arm owned_macros].
    assert (BA : forall d, all T d b0 = all T d b).
    { intros z. inversion NA as [|? ? ? ? ? ? ? ? n k F R BR]; subst; [reflexivity|]. symmetry. exact (branches_all T T_added _ _ _ _ BR z). }
    rewrite BA. intros E. ands. rewrite (G1 _ H0), (B1 _ H1). apply negb_true_iff in H. rewrite (attrs_unnamed _ _ _ AS); [reflexivity|].
    inversion NA as [|q ? ? ? ? ? ? ? n k _ R BR]; subst; [exact H|]. rewrite (named_other _ "auto_enum" _ _ _ R) by discriminate. exact H.
  Qed.
  Lemma local_fw w x a p t i d i' d' a' : nested_local w x (Local a p t i d) ->
    fw w (fun c => fold_opt true (all T c) i) (fun c => fold_opt true (all L c) i') ->
    fw w (fun c => fold_opt true (all T c) d) (fun c => fold_opt true (all L c) d') ->
    attrs_step w a a' -> let_fw w x (Local a' p t i' d').
  Proof.
    intros NL I D AS. inversion NL as [? ? ? ? ? Z|y ? ? ? ? ? _ R|q ? ? ? ? j ? ? n k _ R BR]; subst; cbn [let_fw].
    - split; [exact I|]. split; [exact D|]. eapply attrs_unnamed; exact AS.
    - split; [exact I|]. split; [exact D|]. rewrite <- (named_other _ "auto_enum" _ _ _ R) by discriminate. eapply attrs_unnamed; exact AS.
    - split; [|split; [exact D|rewrite <- (named_other _ "auto_enum" _ _ _ R) by discriminate; eapply attrs_unnamed; exact AS]].
      intros c. cbn [fold_opt]. rewrite <- (branches_all T T_added _ _ _ _ BR). apply I.
  Qed.
  Lemma child_L c e x a' e1 w : removes "auto_enum" (e_attrs e) x a' ->
    fw w (fun z => below T z (set_attrs e a')) (fun z => below L z e1) -> node_of e1 = node_of (set_attrs e a') ->
    all T c e = true -> all L (rest w (chosen c) ++ name_of x) e1 = true.
  Proof.
    intros R B N. rewrite T_eq, (inner_one _ _ _ _ R), (owners_one _ _ _ _ R). intros E. ands.
    assert (EA : e_attrs e1 = a').
    { rewrite <- XA, N, XA. destruct (set_attrs_attrs e a') as [E|E]; [|exact E]. rewrite E in R. destruct R as ([|] & r & E1 & _); discriminate. }
    assert (EO : forall z, only_of M z e1 = only_of M z e) by (intros; rewrite <- XO, N, XO; destruct e; reflexivity).
    assert (EB : unused_arguments M e1 = unused_arguments M e) by (rewrite <- XU, N, XU; destruct e; reflexivity).
    rewrite L_eq, EA, EO, EB, H2, (once_removed _ _ _ _ R H). cbn [negb andb]. apply andb_true_iff. split.
    - eapply only_more; [|exact H1]. apply incl_appr, incl_refl.
    - assert (B1 : below T (chosen c ++ name_of x) (set_attrs e a') = true) by (destruct e; exact H0). apply B in B1.
      eapply below_more; [apply in_rest|exact B1].
  Qed.

  (** ** The visit *)

  Definition silent : who := Who "" "marker" [] false false false TakesNone true.
  Theorem visited_owned :
    (forall w semi e e', done w semi e e' -> fw w (fun c => all T c e) (fun c => all L c e'))
    /\ (forall w s s', done_stmt w s s' -> fw w (fun c => all_stmt T c s) (fun c => all_stmt L c s'))
    /\ (forall w e e', body w e e' -> w_foreign w = false -> forall c, all T c e = true -> all L (given_rest w c) e' = true).
  Proof.
    pose (Pd (w : who) (semi : bool) e e' := fw w (fun c => all T c e) (fun c => all L c e')).
    pose (Pu (w : who) (semi : bool) e e' :=
      if attr_named "auto_enum" (e_attrs e) then forall c, all T c e = true -> all L (rest w (chosen c)) e' = true
      else fw w (fun c => below T c e) (fun c => below L c e') /\ node_of e' = node_of e).
    pose (Ps (w : who) s s' := fw w (fun c => all_stmt T c s) (fun c => all_stmt L c s')).
    pose (Pa (w : who) s s' := fw w (fun c => all_arm T c s) (fun c => all_arm L c s')).
    pose (Pq (w : who) := Pd silent false).
    pose (Pqs (w : who) := Ps silent).
    pose (Pqa (w : who) := Pa silent).
    pose (Pql (w : who) := let_fw silent).
    pose (Pb (w : who) e (e' : expr) := w_foreign w = false -> forall c, all T c e = true -> all L (given_rest w c) e' = true).
    pose (Px (w : who) e (e' : expr) := w_foreign w = false -> forall c, all L c e = true -> all L (given_rest w c) e' = true).
    pose (Pxl (w : who) l (l' : local) := w_foreign w = false -> match l, l' with Local a p t i d, Local a2 _ _ i2 d2 =>
       a2 = a /\ (forall c, fold_opt true (all L c) d = true -> fold_opt true (all L c) d2 = true)
       /\ (forall c, fold_opt true (all L c) i = true -> fold_opt true (all L (given_rest w c)) i2 = true) end).
    assert (OM : forall c d o, incl c d -> fold_opt true (all L c) o = true -> fold_opt true (all L d) o = true).
    { intros c d [y|] I; [apply L_more; exact I|auto]. }
    assert (LC : forall w w0 c a x toks a' p t i d l1 l', w_marker w = w_marker w0 -> removes "auto_enum" a x a' ->
      let_fw w (Local a' p t i d) l1 -> x = MPath (attr_path x) /\ toks = [] \/ x = MList (attr_path x) toks ->
      (exists w2, child w2 toks c) -> w_foreign c = false -> Pxl c l1 l' ->
      Ps w0 (SLocal (Local a p t i d)) (SLocal l')).
    { intros w w0 c a x toks a' p t i d [a1 p1 t1 i1 d1] [a2 p2 t2 i2 d2] WM R (I & D & K) X (w2 & CH) FC XL z. rewrite !all_let_eq. intros E.
      destruct (T_local_named _ _ _ _ _ _ _ _ R E) as (A & EI & ED). destruct (XL FC) as (-> & XD & XI).
      rewrite L_local_eq, (K A). cbn [negb andb]. apply andb_true_iff. split.
      - eapply OM; [|apply XI; eapply OM; [apply in_rest|exact (I _ EI)]].
        eapply incl_tran; [apply child_rest; eapply child_name; eassumption|apply rest_chosen; exact WM].
      - eapply OM; [|apply XD; exact (D _ ED)]. apply rest_chosen. exact WM. }
    assert (C : cases Pd Pu Ps Pqs Pa Pqa let_fw Pql Pxl Pq Px Px Pb).
    { constructor.
      - (* an expression *)
        intros w semi e e1 e2 e3 e' H1 H2 HU0 HU H4. unfold Pu in HU. clear HU0.
        pose proof (enter_foreign e w) as EF.
        assert (EM : w_marker (enter e w) = w_marker w) by (unfold enter; destruct e; try reflexivity; destruct k; try reflexivity; destruct (w_exits w); reflexivity).
        set (w1 := enter e w) in *. clearbody w1.
        destruct (exit_below T T_added T_arm _ _ _ H1) as [A1 B1].
        assert (BA : unused_arguments M e1 = unused_arguments M e) by (inversion H1; reflexivity).
        assert (C1 : forall c, only_of M c e1 = only_of M c e) by (inversion H1; reflexivity).
        assert (T1 : forall d, all T d e1 = all T d e) by (intros; rewrite !T_eq, A1, BA, C1, B1; reflexivity).
        intros c K. destruct (attr_named "auto_enum" (e_attrs e)) eqn:NA.
        + rewrite orb_true_r in EF. assert (e2 = e1) as -> by (inversion H2; subst; congruence). rewrite A1, NA in HU.
          rewrite <- T1 in K. pose proof (HU c K) as K3. eapply L_more; [apply (rest_chosen w w1 c EM)|].
          inversion H4 as [? _ MD|? e4 a' _ MS AS]; subst; [exact K3|].
          assert (a' = e_attrs e4) as -> by (inversion AS; subst; congruence). rewrite set_attrs_same. eapply marker_L; eassumption.
        + rewrite orb_false_r in EF. rewrite T_un in K by exact NA. ands.
          assert (Q : attr_named "auto_enum" (e_attrs e2) = false /\ unused_arguments M e2 = true /\ only_of M c e2 = true /\ below T c e2 = true).
          { inversion H2 as [? K|? p a' n k ? K1 K2 K3]; subst.
            - rewrite A1, BA, C1, B1. auto.
            - destruct (branches_below T T_added _ _ _ _ K3) as [N1 N2].
              assert (E2 : e_attrs e2 = a').
              { rewrite <- XA, N1, XA. destruct (set_attrs_attrs e1 a') as [E|E]; [|exact E]. rewrite E in K2. destruct K2 as ([|] & r & E1 & _); discriminate. }
              rewrite A1 in K2. rewrite E2, (named_other _ "auto_enum" _ _ _ K2) by discriminate. split; [exact NA|]. split; [|split].
              + rewrite <- XU, N1, XU. transitivity (unused_arguments M e1); [destruct e1; reflexivity|]. rewrite BA. exact H.
              + rewrite <- XO, N1, XO. transitivity (only_of M c e1); [destruct e1; reflexivity|]. rewrite C1. exact H3.
              + rewrite N2. transitivity (below T c e1); [destruct e1; reflexivity|]. rewrite B1. exact H0. }
          destruct Q as (Q1 & Q2 & Q3 & Q4). rewrite Q1 in HU. destruct HU as [U1 U2]. specialize (U1 c Q4).
          assert (E3 : e_attrs e3 = e_attrs e2) by (rewrite <- XA, U2, XA; reflexivity).
          assert (B3 : unused_arguments M e3 = true) by (rewrite <- XU, U2, XU; exact Q2).
          assert (O3 : only_of M c e3 = true) by (rewrite <- XO, U2, XO; exact Q3).
          assert (RE : rest w1 c = rest w c) by (unfold rest; rewrite EF, EM; reflexivity). rewrite RE in U1.
          inversion H4 as [? F MD|? e4 a' F MS AS]; subst.
          -- rewrite L_eq, E3, Q1, B3, U1. unfold rest. rewrite <- EF, F, <- EM, MD. cbn. rewrite O3. reflexivity.
          -- destruct (marker_only _ _ _ _ MS B3 O3) as [B4 O4]. pose proof (marker_below _ _ _ _ MS B3 U1) as U4.
             assert (E4 : e_attrs e4 = e_attrs e3) by (inversion MS; reflexivity). rewrite E4, E3 in AS.
             rewrite L_eq. rewrite !andb_true_iff. repeat split.
             ++ destruct (set_attrs_attrs e4 a') as [E|E]; [rewrite E; reflexivity|rewrite E, (attrs_unnamed _ _ _ AS Q1); reflexivity].
             ++ transitivity (unused_arguments M e4); [destruct e4; reflexivity|exact B4].
             ++ transitivity (only_of M (rest w c) e4); [destruct e4; reflexivity|]. unfold rest. rewrite <- EF, <- EM.
                destruct (w_foreign w1 && (w_marker w1 =? "marker")) eqn:Z; [|exact O4].
                apply andb_true_iff in Z. destruct Z as [Z1 Z2]. apply String.eqb_eq in Z2. destruct F; congruence.
             ++ transitivity (below L (rest w c) e4); [destruct e4; reflexivity|exact U4].
      - intros w semi e e' N H. unfold Pu. rewrite N. split; [|eapply node_parts; exact H].
        eapply parts_fw; [| | |exact H]; intros t x x' [_ K]; exact K.
      - (* a nested attribute *)
        intros w semi e p toks a' e1 c e' R H CH _ X. unfold Pu. rewrite (removes_named _ _ _ _ R). intros z K.
        pose proof (node_parts _ _ _ _ _ _ H) as NO.
        apply parts_fw with (w := lent w) in H; [|intros t x x' [_ J]; exact J..].
        destruct (child_given _ _ _ semi CH) as [GC F']. pose proof (child_L z e _ a' e1 (lent w) R H NO K) as K1. specialize (X F' _ K1).
        eapply L_more; [|exact X]. assert (GS : forall y, given_rest (if semi then set_branches false c else c) y = given_rest c y) by (intros; destruct semi; reflexivity).
        rewrite GS. apply child_rest. eapply child_name; [right; reflexivity|exact CH].
      - intros w e e' semi _ H. exact H.
      - intros w i c _. reflexivity.
      - intros w a m semi c _. reflexivity.
      - intros w a p t i d l' N _ H. apply let_stmt_fw; assumption.
      - (* let with an attribute *)
        intros w a x toks a' p t i d l1 c l' R X _ H CH _ HX. destruct (child_gives _ _ _ CH) as [_ F].
        eapply (LC (lent (past a w)) w); eauto.
      - (* arm *)
        intros w x a p g b c g' b' a' NA GG _ B AS. assert (X : exists a0 b0, x = Arm a0 p g b0 c) by (inversion NA; eauto). destruct X as (a0 & b0 & ->).
        eapply arm_fw; [exact NA| |exact B|exact AS]. eapply maybe_fw; [|exact GG]. intros t y y' [_ K]. exact K.
      - (* parts of a let *)
        intros w x a p t i d i' d' a' NA I D AS. eapply local_fw; [exact NA| | |exact AS].
        + eapply maybe_fw; [|exact I]. intros t0 y y' [_ K]. exact K.
        + eapply maybe_fw; [|exact D]. intros t0 y y' [_ K]. exact K.
      - (* quiet *)
        intros w e e' N H. pose proof (node_parts _ _ _ _ _ _ H) as NO.
        apply parts_fw with (w := silent) in H; [|intros t x x' [_ J]; exact J..].
        intros c K. rewrite T_un in K by exact N. ands. rewrite L_eq, (H _ H1).
        assert (E3 : e_attrs e' = e_attrs e) by (rewrite <- XA, NO, XA; reflexivity).
        assert (B3 : unused_arguments M e' = unused_arguments M e) by (rewrite <- XU, NO, XU; reflexivity).
        assert (O3 : only_of M c e' = only_of M c e) by (rewrite <- XO, NO, XO; reflexivity).
        change (rest silent c) with c. rewrite E3, N, B3, O3, H0, H2. reflexivity.
      - intros w e p toks a' e1 c e' R H CH _ X z K. pose proof (node_parts _ _ _ _ _ _ H) as NO.
        apply parts_fw with (w := silent) in H; [|intros t x x' [_ J]; exact J..].
        destruct (child_gives _ _ _ CH) as [GC F']. pose proof (child_L z e _ a' e1 silent R H NO K) as K1. specialize (X F' _ K1).
        eapply L_more; [|exact X]. eapply incl_tran; [apply child_rest; eapply child_name; [right; reflexivity|exact CH]|]. apply rest_chosen. reflexivity.
      - intros w e e' semi _ _ H. exact H.
      - intros w e p toks a' e1 c e' semi R H CH _ X z K. pose proof (node_parts _ _ _ _ _ _ H) as NO.
        apply parts_fw with (w := silent) in H; [|intros t x x' [_ J]; exact J..].
        destruct (child_given _ _ _ semi CH) as [GC F']. rewrite !all_stmt_eq in *. pose proof (child_L z e _ a' e1 silent R H NO K) as K1. specialize (X F' _ K1).
        assert (GS : forall y, given_rest (if semi then set_branches false c else c) y = given_rest c y) by (intros; destruct semi; reflexivity).
        rewrite GS in X. eapply L_more; [|exact X]. eapply incl_tran; [apply child_rest; eapply child_name; [right; reflexivity|exact CH]|]. apply rest_chosen. reflexivity.
      - intros w i c _. reflexivity.
      - intros w a m semi c _. reflexivity.
      - intros w a p t i d l' N _ H. apply let_stmt_fw; assumption.
      - intros w a x toks a' p t i d l1 c l' R X _ H CH _ HX. destruct (child_gives _ _ _ CH) as [_ F]. eapply (LC silent silent); eauto.
      - intros w a p g b c g' b' GG _ B. eapply (arm_fw silent); [apply na_none; left; reflexivity| |exact B|apply at_foreign; reflexivity].
        eapply maybe_fw; [|exact GG]. intros t y y' [_ K]. exact K.
      - intros w a p t i d i' d' I D. eapply (local_fw silent); [apply nl_none; left; reflexivity| | |apply at_foreign; reflexivity].
        + eapply maybe_fw; [|exact I]. intros t0 y y' [_ K]. exact K.
        + eapply maybe_fw; [|exact D]. intros t0 y y' [_ K]. exact K.
      - (* the attribute itself *)
        intros w e e' GW _ H F c K. unfold given_rest. rewrite GW. exact (H c (L_T _ _ K)).
      - intros w e e1 e' GW _ H D F c K. rewrite (all_declared L L_added _ _ _ _ D). exact (H F c K).
      - intros w a p t t' i d i' d' GW _ I D F. split; [reflexivity|]. unfold given_rest. rewrite GW. split; intros c.
        + destruct D as [|t0 y y' [_ K]]; [auto|]. cbn [fold_opt]. intros J. exact (K c (L_T _ _ J)).
        + destruct I as [|t0 y y' [_ K]]; [auto|]. cbn [fold_opt]. intros J. exact (K c (L_T _ _ J)).
      - intros w a p t t' e e1 e' d _ _ H D F. split; [reflexivity|]. split; [auto|]. intros c J. cbn [fold_opt] in *.
        rewrite (all_declared L L_added _ _ _ _ D). exact (H F c J).
      - intros w a ps b b' x _ _ _ H F c K. rewrite L_eq in K |- *. ands. cbn [e_attrs unused_arguments only_of] in *. rewrite H0. cbn [andb].
        exact (H F c (L_T _ _ H1)).
      - intros w e e' _ _ H F c K. exact (H F c (L_T _ _ K)).
      - intros w e e1 k e' B _ H F c K. rewrite <- (branches_all T T_added _ _ _ _ B) in K. apply H in K. eapply L_more; [|exact K].
        unfold rest, given_rest. rewrite F. cbn [andb]. destruct (w_given w); [apply incl_refl|]. intros s I. apply in_without in I. tauto.
      - intros w e e1 e' GW _ B _ H F c K. rewrite <- (branches_all T T_added _ _ _ _ B) in K. unfold given_rest. rewrite GW. exact (H c K). }
    split; [|split]; intros w.
    - intros semi e e' H. apply (ind_done _ _ _ _ _ _ _ _ _ _ _ _ _ C w semi e e' H).
    - exact (ind_stmt _ _ _ _ _ _ _ _ _ _ _ _ _ C w).
    - exact (ind_body _ _ _ _ _ _ _ _ _ _ _ _ _ C w).
  Qed.

  (** ** The outermost attribute *)

  Lemma stmts_owned w t b b' c : seq2 (fun _ => done_stmt w) t b b' -> all_block T c b = true -> all_block L (rest w c) b' = true.
  Proof.
    intros H. induction H as [|t1 t2 s s' b b' H1 H2 IH]; [reflexivity|]. cbn. fold (all_block T c b) (all_block L (rest w c) b').
    rewrite !andb_true_iff. intros [K1 K2]. split; [exact (proj1 (proj2 visited_owned) _ _ _ H1 c K1)|exact (IH K2)].
  Qed.
  Lemma root_rest own m x : given_rest (outermost own m x) [m] = [].
  Proof. cbn. rewrite String.eqb_refl. reflexivity. Qed.
  Lemma code_owned own m e e' : code own m e e' -> all T [m] e = true -> closure_node e = false \/ attr_named "auto_enum" (e_attrs e) = false -> all L [] e' = true.
  Proof.
    destruct 1 as [a ps b b' B|e e' N B]; intros K CL; pose proof (proj2 (proj2 visited_owned) _ _ _ B eq_refl [m]) as Z; rewrite root_rest in Z.
    - destruct CL as [CL|CL]; [discriminate|]. cbn [e_attrs] in CL. rewrite T_un in K by exact CL. ands. rewrite L_eq. cbn [e_attrs unused_arguments only_of].
      rewrite CL. exact (Z H0).
    - exact (Z K).
  Qed.
  Theorem expanded_owned own m i i' : expanded own m i i' -> owned_code M m i = true -> none_left M i' = true.
  Proof.
    unfold owned_code, none_left.
    assert (X : forall e e1 e', code own m e e1 -> declared own e1 e' ->
      all T [m] e && (negb (closure_node e) || negb (attr_named "auto_enum" (e_attrs e))) = true -> all L [] e' = true).
    { intros e e1 e' H D K. ands. rewrite (all_declared L L_added _ _ _ _ D). eapply code_owned; [exact H|assumption|].
      rewrite orb_true_iff, !negb_true_iff in H1. exact H1. }
    destruct 1; cbn [in_input]; try (eapply X; eassumption); try (intros; reflexivity).
    - intros K. rewrite (all_declared L L_added _ _ _ _ H0). pose proof (proj2 (proj2 visited_owned) _ _ _ H eq_refl [m] K) as Z.
      cbn in Z. rewrite String.eqb_refl in Z. exact Z.
    - rewrite <- (body_all T T_added _ _ _ _ H1), (all_declared_in L _ _ _ _ H3). intros K. pose proof (stmts_owned _ _ _ _ _ H2 K) as Z.
      cbn in Z. rewrite String.eqb_refl in Z. exact Z.
  Qed.
End Names.
