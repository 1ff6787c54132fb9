(** Proof: in code where it finds nothing to wrap an attribute with traits does what it does without traits. *)

Require Import Coq.Strings.String Coq.Lists.List Coq.Bool.Bool Coq.Arith.Arith Coq.NArith.NArith Lia.
Require Import Verif.Syntax Verif.Context Verif.ExprModel Verif.TypeAnalysis Verif.AutoEnum.
Require Import Verif.AstInd Verif.Edits Verif.RunLemmas Verif.EditsRun Verif.Frame Verif.VisitRun Verif.EngineRun Verif.HaltRun.
Require Import Verif.Tails Verif.Changes Verif.ChangesRun Verif.Outside Verif.OutsideRun Verif.Alike Verif.Alone Verif.AloneErr
  Verif.Deeper Verif.BranchesRun Verif.Spare Verif.SpareEdits.
Import ListNotations.
Open Scope string_scope.
Open Scope list_scope.

Section Sim.
  Variable md : visit_mode.

  (** The visitor with traits has made no variants; the run without traits has the same errors and markers. *)
  Definition rel (cx c : ctx) : Prop :=
    cx_markers c = cx_markers cx /\ cx_has_child c = cx_has_child cx /\ cx_errs c = cx_errs cx
    /\ cx_variants cx = [] /\ cx_marker cx = "marker" /\ cx_mode cx = md.
  Definition sim {A} (m m' : M A) : Prop :=
    forall cx c a cx', rel cx c -> m cx = ROk (a, cx') -> exists c', m' c = ROk (a, c') /\ rel cx' c'.

  Lemma sim_ret {A} (a : A) : sim (ret a) (ret a).
  Proof. intros cx c x cx' R H. minv. exists c. split; [reflexivity|exact R]. Qed.

  Lemma sim_bind {A B} (m m' : M A) (k k' : A -> M B) : sim m m' -> (forall a, sim (k a) (k' a)) -> sim (bind m k) (bind m' k').
  Proof.
    intros H K cx c b cx' R X. apply bind_ok in X. destruct X as (a & cx1 & X1 & X).
    destruct (H _ _ _ _ R X1) as (c1 & Y1 & R1). destruct (K _ _ _ _ _ R1 X) as (c2 & Y2 & R2).
    exists c2. split; [unfold bind; rewrite Y1; exact Y2|exact R2].
  Qed.

  Lemma sim_error e : sim (error e) (error e).
  Proof.
    intros cx c a cx' R H. minv. eexists. split; [reflexivity|]. destruct R as (A & B & C & D & E & F).
    repeat split; cbn; congruence.
  Qed.

  Lemma sim_note a : sim (note_child a) (note_child a).
  Proof.
    intros cx c u cx' R H. unfold note_child in *. destruct (any_attr a NAME); minv; eexists; (split; [reflexivity|]);
      [|exact R]. destruct R as (A & B & C & D & E & F). repeat split; cbn; congruence.
  Qed.

  Lemma sim_mapM {A B} (P : A -> bool) (f f' : A -> M B) l :
    (forall x, P x = true -> sim (f x) (f' x)) -> fold_list andb true P l = true -> sim (mapM f l) (mapM f' l).
  Proof.
    intros H. induction l as [|x l IH]; cbn; intros W; [apply sim_ret|]. apply andb_prop in W. destruct W as [W1 W2].
    apply sim_bind; [auto|]. intros. apply sim_bind; [auto|intros; apply sim_ret].
  Qed.
  Lemma sim_optM {A B} (P : A -> bool) (f f' : A -> M B) o :
    (forall x, P x = true -> sim (f x) (f' x)) -> fold_opt true P o = true -> sim (optM f o) (optM f' o).
  Proof. destruct o; cbn; intros H W; [apply sim_bind; [auto|intros]|]; apply sim_ret. Qed.

  Lemma sim_deeper {A} (m m' m'' : M A) : sim m m' -> deeper m' m'' -> sim m m''.
  Proof.
    intros H D cx c a cx' R X. destruct (H _ _ _ _ R X) as (c' & Y & R'). exists c'. split; [|exact R'].
    rewrite D by (rewrite Y; discriminate). exact Y.
  Qed.

  Lemma sim_unless {A} (x : A) (m m' : M A) : sim m m' -> sim (unless_error x m) (unless_error x m').
  Proof.
    intros H cx c a cx' R X. unfold unless_error, bind, gets, has_error in *. destruct R as (A1 & B & C & D).
    rewrite C. destruct (cx_errs cx) eqn:E.
    - eapply H; [|exact X]. unfold rel. rewrite E. auto.
    - unfold ret in X. inversion X; subst. exists c. split; [reflexivity|]. unfold rel. rewrite E. auto.
  Qed.

  (** The child contexts are the same. *)
  Lemma sim_nested {A} i toks (w w' : M A) (g : A -> M A) :
    sim w w' -> sim (nested_run i toks w g) (nested_run i toks w' g).
  Proof.
    intros W cx c a cx' R X. unfold nested_run in *. apply bind_ok in X. destruct X as (r & cx1 & X1 & X).
    rewrite make_child_eq in X1. destruct (cx_has_child cx) eqn:HC; [|discriminate]. inversion X1; subst r cx1; clear X1.
    apply bind_ok in X. destruct X as (x & cx2 & X2 & X).
    assert (R1 : rel (set_errs [] (set_markers [] cx)) (set_errs [] (set_markers [] c))).
    { destruct R as (A1 & B & C & D & E & F). repeat split; cbn; congruence. }
    destruct (W _ _ _ _ R1 X2) as (c2 & Y2 & R2).
    assert (K : make_child i toks c = ROk (ctx_new i toks false (cx_markers cx) (cx_errs cx), set_errs [] (set_markers [] c))).
    { rewrite make_child_eq. destruct R as (A1 & B & C & _). rewrite B, HC, A1, C. reflexivity. }
    unfold bind. rewrite K, Y2.
    destruct (ctx_new i toks false (cx_markers cx) (cx_errs cx)) as [er|child].
    - exact (sim_bind _ _ (fun _ => ret x) (fun _ => ret x) (sim_error er) (fun _ => sim_ret x) _ _ _ _ R2 X).
    - unfold in_child in *. destruct (g x child) as [[y child']| |]; try discriminate.
      unfold join_child in *. minv. destruct R2 as (RA & RB & RC & RD & RE & RF). unfold bind, massert, modify, ret.
      cbn [set_markers set_errs cx_markers]. rewrite RA.
      match goal with H : match cx_markers ?z with _ => _ end = true |- _ => destruct (cx_markers z); [|discriminate H] end.
      eexists. split; [reflexivity|]. repeat split; cbn; congruence.
  Qed.

  Section Walks.
    Variable k : bool.
    Variables (fe fe' : expr -> M expr) (fs fs' : stmt -> M stmt) (fa fa' : arm -> M arm) (fl fl' : local -> M local).
    Hypothesis He : forall e, spare k e = true -> sim (fe e) (fe' e).
    Hypothesis Hs : forall s, spare_stmt k s = true -> sim (fs s) (fs' s).
    Hypothesis Ha : forall x, spare_arm k x = true -> sim (fa x) (fa' x).

    Lemma sim_arm x : spare_arm k x = true -> sim (walk_arm fe x) (walk_arm fe' x).
    Proof.
      destruct x as [a p g b c]. intros W. cbn in W. apply andb_prop in W. destruct W as [_ W]. apply andb_prop in W. destruct W as [W1 W2].
      cbn [walk_arm]. apply sim_bind; [apply (sim_optM (spare k)); assumption|]. intros. apply sim_bind; [auto|intros; apply sim_ret].
    Qed.
    Lemma sim_local l : fold_local andb true (spare k) l = true -> sim (walk_local fe l) (walk_local fe' l).
    Proof.
      destruct l as [a p t i d]. intros W. cbn in W. apply andb_prop in W. destruct W as [W1 W2].
      cbn [walk_local]. apply sim_bind; [apply (sim_optM (spare k)); assumption|]. intros.
      apply sim_bind; [apply (sim_optM (spare k)); assumption|intros; apply sim_ret].
    Qed.
    Lemma sim_walk e : match e with EMacro _ _ => true | _ => fold_expr andb true (spare k) (spare_stmt k) (spare_arm k) e end = true ->
      sim (walk_expr (Vis fe fs fa fl) e) (walk_expr (Vis fe' fs' fa' fl') e).
    Proof.
      intros W.
      assert (LS : forall b, fold_list andb true (spare_stmt k) b = true -> sim (mapM fs b) (mapM fs' b))
        by (intros; apply (sim_mapM (spare_stmt k)); assumption).
      assert (LE : forall b, fold_list andb true (spare k) b = true -> sim (mapM fe b) (mapM fe' b))
        by (intros; apply (sim_mapM (spare k)); assumption).
      assert (LA : forall b, fold_list andb true (spare_arm k) b = true -> sim (mapM fa b) (mapM fa' b))
        by (intros; apply (sim_mapM (spare_arm k)); assumption).
      assert (OE : forall b, fold_opt true (spare k) b = true -> sim (optM fe b) (optM fe' b))
        by (intros; apply (sim_optM (spare k)); assumption).
      destruct e; cbn [walk_expr on_expr on_stmt on_arm on_local fold_expr] in *;
        rewrite ?andb_true_iff in W; repeat match goal with W : _ /\ _ |- _ => destruct W end;
        repeat first [ apply sim_ret | apply LS; assumption | apply LE; assumption | apply LA; assumption
                     | apply OE; assumption | apply He; assumption | apply sim_bind; [|intros] ].
    Qed.
  End Walks.

  Section Run.
    Variables (hash : node -> N) (ta : bool) (k : bool).
    Hypothesis mode_ok : k = true -> md = VDefault.

    Let K0 : Cfg := MkCfg (fun _ => True) True.
    Local Existing Instance K0.
    Let mk0 : string -> bool := fun _ => true.

    Lemma any_names l : @nok K0 mk0 l.
    Proof. unfold nok. apply Forall_forall. intros [x o] _. split; [exact I|]. split; [exact I|]. cbn. destruct o; reflexivity || exact I. Qed.

    Lemma removed_none a name : attr_named name a = false -> find_remove_attr a name = None.
    Proof.
      unfold find_remove_attr, attr_named. induction a as [|x a IH]; cbn; [reflexivity|].
      destruct (is_ident (attr_path x) name); [discriminate|]. intros H. rewrite (IH H). reflexivity.
    Qed.
    Lemma notes_none a : no_notes a = true ->
      find_remove_attr a NESTED = None /\ find_remove_attr a NEVER = None /\ find_remove_attr a REC = None.
    Proof.
      unfold no_notes. rewrite negb_true_iff, !orb_false_iff. intros (A & B & C). repeat split; apply removed_none; assumption.
    Qed.
    Lemma notes_removed sc a cx : no_notes a = true -> find_remove_attrs sc a cx = ROk (a, cx).
    Proof.
      intros H. apply notes_none in H. destruct H as (_ & B & C). unfold find_remove_attrs. destruct (sc_foreign sc); [reflexivity|].
      unfold bind, ret. rewrite B, C. reflexivity.
    Qed.

    Lemma sim_vs_expr R V V' e b :
      spare k e = true ->
      (forall x, match x with EMacro _ _ => true | _ => fold_expr andb true (spare k) (spare_stmt k) (spare_arm k) x end = true ->
         sim (walk_expr V x) (walk_expr V' x)) ->
      sim (vs_visit_expr hash ta R V e b) (vs_visit_expr hash ta R V' e b).
    Proof.
      intros S W. unfold vs_visit_expr. destruct (find_remove_attr (e_attrs e) NAME) as [[at_ a']|] eqn:F.
      - assert (S1 : spare k (set_attrs e a') = true).
        { apply spare_set; [|exact S]. eapply notes_drop; [|eapply spare_attrs; exact S].
          eapply find_remove_drops; [exact helper_name|exact F]. }
        assert (W1 : sim (walk_expr V (set_attrs e a')) (walk_expr V' (set_attrs e a'))) by (apply W, spare_below; exact S1).
        destruct at_ as [p|p toks|p v].
        + exact (sim_bind _ _ _ _ W1 (fun x => sim_bind _ _ _ _ (sim_error ErrExpectedList) (fun _ => sim_ret x))).
        + exact (sim_nested _ toks _ _ (fun x => expand_parent_expr ta R x b) W1).
        + exact (sim_bind _ _ _ _ W1 (fun x => sim_bind _ _ _ _ (sim_error ErrExpectedList) (fun _ => sim_ret x))).
      - apply W, spare_below. exact S.
    Qed.

    Lemma sim_vs_let R V V' l :
      spare_let k l = true ->
      (forall x, spare_let k x = true -> sim (on_local V x) (on_local V' x)) ->
      sim (vs_visit_stmt hash ta R V (SLocal l)) (vs_visit_stmt hash ta R V' (SLocal l)).
    Proof.
      intros S W. destruct l as [a p t i d]. cbn [vs_visit_stmt].
      assert (W1 : forall x, spare_let k x = true ->
                 sim (walk_stmt (on_expr V) (on_local V) (SLocal x)) (walk_stmt (on_expr V') (on_local V') (SLocal x))).
      { intros x H. cbn [walk_stmt]. apply sim_bind; [auto|intros; apply sim_ret]. }
      destruct (find_remove_attr a NAME) as [[at_ a']|] eqn:F; [|apply W1; exact S].
      assert (S1 : spare_let k (Local a' p t i d) = true).
      { apply andb_prop in S. destruct S as [S1 S2]. apply andb_true_intro. split; [|exact S2].
        eapply notes_drop; [|exact S1]. eapply find_remove_drops; [exact helper_name|exact F]. }
      specialize (W1 _ S1). destruct at_ as [q|q toks|q v].
      - exact (sim_nested _ [] _ _ (expand_parent_stmt ta R) W1).
      - exact (sim_nested _ toks _ _ (expand_parent_stmt ta R) W1).
      - exact (sim_bind _ _ _ _ W1 (fun x => sim_bind _ _ _ _ (sim_error ErrExpectedList) (fun _ => sim_ret x))).
    Qed.

    (** The run without traits, with the semicolon of a statement. *)
    Definition dex (n : nat) (b : bool) (e : expr) : M expr :=
      match n with
      | 0 => out_of_fuel
      | S m => unless_error e (note_child (e_attrs e) ;;; vs_visit_expr hash ta (engine hash ta m) (d_vis (engine hash ta m)) e b)
      end.
    Lemma dex_plain n e : dex n false e = r_dexpr (engine hash ta n) e.
    Proof. destruct n; reflexivity. Qed.

    Definition sims (n : nat) : Prop :=
      (forall sc b e, spare k e = true -> sim (r_vexpr (engine hash ta n) sc b e) (dex n b e))
      /\ (forall sc s, spare_stmt k s = true -> sim (r_vstmt (engine hash ta n) sc s) (r_dstmt (engine hash ta n) s))
      /\ (forall sc x, spare_arm k x = true -> sim (r_varm (engine hash ta n) sc x) (walk_arm (r_dexpr (engine hash ta n)) x))
      /\ (forall sc x, spare_let k x = true -> sim (r_vlocal (engine hash ta n) sc x) (walk_local (r_dexpr (engine hash ta n)) x)).

    Lemma rel_ok cx c : rel cx c -> cx_marker cx = "marker" /\ cx_mode cx = md /\ cx_errs c = cx_errs cx.
    Proof. unfold rel. tauto. Qed.

    Lemma mode_quiet sc e cx : spare k e = true -> cx_mode cx = md ->
      (match cx_mode cx with VReturn _ => visit_return sc e | VTry => visit_try sc e | VDefault => ret e end) cx = ROk (e, cx).
    Proof.
      intros S M. rewrite M. destruct md eqn:D; [reflexivity| |].
      all: assert (KF : k = false) by (destruct k; [specialize (mode_ok eq_refl); congruence|reflexivity]); rewrite KF in S.
      - unfold visit_return. destruct (_ && _); [|reflexivity]. destruct e; try reflexivity.
        cbn in S. rewrite andb_false_r in S. discriminate.
      - unfold visit_try. destruct (_ && _); [|reflexivity]. destruct e; try reflexivity.
        cbn in S. rewrite andb_false_r in S. discriminate.
    Qed.

    Lemma visit_expr_sim n sc b e : sims n -> spare k e = true ->
      sim (visit_expr hash ta (engine hash ta n) sc b e)
          (note_child (e_attrs e) ;;; vs_visit_expr hash ta (engine hash ta n) (d_vis (engine hash ta n)) e b).
    Proof.
      intros (IE & IS & IA & IL) S cx c e' cx' R H. unfold visit_expr in H.
      apply bind_ok in H. destruct H as (u0 & cx0 & HA & H). unfold massert in HA.
      destruct (negb (has_error cx)) eqn:NE; [|discriminate]. inversion HA; subst u0 cx0; clear HA.
      apply bind_ok in H. destruct H as (u1 & cx1 & HN & H).
      assert (E1 : cx_errs cx1 = []).
      { assert (cx_errs cx1 = cx_errs cx) as ->.
        { unfold note_child in HN. destruct (any_attr (e_attrs e) NAME); minv; reflexivity. }
        unfold has_error in NE. destruct (cx_errs cx); [reflexivity|discriminate]. }
      destruct (sim_note _ _ _ _ _ R HN) as (c1 & HN' & R1).
      set (sc1 := check_expr (scope_below sc (e_attrs e)) e) in *.
      destruct (rel_ok _ _ R1) as (MK1 & MD1 & _).
      unfold bind at 1 in H. unfold gets at 1 in H. unfold bind at 1 in H. rewrite (mode_quiet sc1 e cx1 S MD1) in H.
      destruct (notes_none _ (spare_attrs _ _ S)) as (NN & _ & _). rewrite NN in H.
      unfold bind at 1 in H. replace ((if sc_foreign sc1 then ret e else ret e) cx1) with (ROk (e, cx1)) in H
        by (destruct (sc_foreign sc1); reflexivity).
      apply bind_ok in H. destruct H as (e2 & cx2 & HV & H).
      assert (SV : sim (vs_visit_expr hash ta (engine hash ta n) (v_vis (engine hash ta n) sc1) e b)
                       (vs_visit_expr hash ta (engine hash ta n) (d_vis (engine hash ta n)) e b)).
      { apply sim_vs_expr; [exact S|]. intros x W. apply (sim_walk k); auto.
        intros y Y. unfold v_expr. rewrite <- dex_plain. auto. }
      destruct (SV _ _ _ _ R1 HV) as (c2 & HV' & R2).
      assert (S2 : spare k e2 = true).
      { pose proof (engine_is_good mk0 hash ta eq_refl n) as G.
        destruct (vs_visit_expr_good mk0 hash ta eq_refl (engine hash ta n) G (v_vis (engine hash ta n) sc1) b e cx1 e2 cx2) as (t & ED & _).
        - intros. apply (eg_vexpr _ _ G).
        - intros. apply (eg_vstmt _ _ G).
        - intros. apply (eg_varm _ _ G).
        - exact HV.
        - reflexivity.
        - apply any_names.
        - intros _. exact E1.
        - exact (proj1 (spare_edit k mk0) _ _ _ ED S). }
      destruct (rel_ok _ _ R2) as (MK2 & _ & _).
      assert (X : (e', cx') = (e2, cx2)).
      { unfold bind at 1 in H. unfold gets in H. destruct (negb (sc_foreign sc1) || _) eqn:C; [|unfold ret in H; congruence].
        apply bind_ok in H. destruct H as (e3 & cx3 & HM & H). unfold visit_marker_macro in HM.
        apply bind_ok in HM. destruct HM as (u3 & cx4 & HA & HM). unfold massert in HA.
        destruct (negb (sc_foreign sc1) || negb (cx_marker cx2 =? DEFAULT_MARKER)); [|discriminate]. inversion HA; subst u3 cx4; clear HA.
        assert (HM' : ROk (e2, cx2) = ROk (e3, cx3)).
        { rewrite <- HM. unfold bind, gets. destruct e2; try reflexivity. destruct m as [q x].
          assert (Q : is_marker_macro_exact cx2 (Mac q x) = false).
          { unfold is_marker_macro_exact. cbn. rewrite MK2. cbn in S2. destruct x; rewrite ?andb_true_iff in S2.
            - destruct S2 as (_ & S2 & _). apply negb_true_iff in S2. exact S2.
            - destruct S2 as (_ & S2). apply negb_true_iff in S2. exact S2. }
          rewrite Q. reflexivity. }
        inversion HM'; subst e3 cx3. unfold find_remove_attrs_expr in H.
        unfold bind in H. rewrite (notes_removed _ _ _ (spare_attrs _ _ S2)) in H. unfold ret in H.
        rewrite set_attrs_same in H. congruence. }
      injection X as -> ->. exists c2. split; [unfold bind; rewrite HN'; exact HV'|exact R2].
    Qed.

    (** With an error nothing more is done. *)
    Lemma dex_bad n c e : cx_errs c <> [] -> r_dexpr (engine hash ta (S n)) e c = ROk (e, c).
    Proof.
      intros H. cbn [engine step r_dexpr]. unfold unless_error, bind, gets, has_error. destruct (cx_errs c); [congruence|reflexivity].
    Qed.
    Lemma arm_bad n c x : cx_errs c <> [] -> walk_arm (r_dexpr (engine hash ta (S n))) x c = ROk (x, c).
    Proof.
      intros H. destruct x as [a p [g|] b z]; cbn [walk_arm optM]; unfold bind, ret; rewrite ?(dex_bad n c _ H); reflexivity.
    Qed.
    Lemma local_bad n c x : cx_errs c <> [] -> walk_local (r_dexpr (engine hash ta (S n))) x c = ROk (x, c).
    Proof.
      intros H. destruct x as [a p t [i|] [d|]]; cbn [walk_local optM]; unfold bind, ret; rewrite ?(dex_bad n c _ H);
        rewrite ?(dex_bad n c _ H); reflexivity.
    Qed.

    Lemma unless_cases {A} (x : A) m cx a cx' : unless_error x m cx = ROk (a, cx') ->
      (cx_errs cx <> [] /\ a = x /\ cx' = cx) \/ (cx_errs cx = [] /\ m cx = ROk (a, cx')).
    Proof.
      unfold unless_error, bind, gets, has_error. destruct (cx_errs cx) eqn:E; intros H; [right; auto|left].
      unfold ret in H. inversion H; subst. repeat split. congruence.
    Qed.
    Lemma unless_run {A} (x : A) m cx : cx_errs cx = [] -> unless_error x m cx = m cx.
    Proof. intros E. unfold unless_error, bind, gets, has_error. rewrite E. reflexivity. Qed.

    Theorem sims_all n : sims n.
    Proof.
      induction n as [|n IH]; [repeat split; intros sc; intros; intros cx c z cx' R X; discriminate|].
      pose proof IH as (IE & IS & IA & IL). pose proof (engine_deeper hash ta n) as D.
      split; [intros sc b e H|split; [intros sc s H|split; intros sc x H]].
      - cbn [engine step r_vexpr dex]. apply sim_unless. apply visit_expr_sim; assumption.
      - destruct s as [l|it|e semi|a m semi]; cbn [engine step r_vstmt r_dstmt].
        + apply sim_unless. unfold visit_stmt, dummy_stmt. apply sim_bind; [apply sim_note|intros _].
          apply sim_vs_let; [exact H|]. intros x X. cbn [v_vis d_vis on_local]. auto.
        + apply sim_unless. unfold visit_stmt, dummy_stmt. apply sim_bind; [apply sim_note|intros _]. apply sim_ret.
        + intros cx c a cx' R X. apply unless_cases in X. destruct X as [(NE & -> & ->)|(E & X)].
          * exists c. split; [|exact R]. destruct (rel_ok _ _ R) as (_ & _ & EQ). unfold unless_error, bind, gets, has_error.
            rewrite EQ. destruct (cx_errs cx); [congruence|reflexivity].
          * cbn [visit_stmt] in X. apply bind_ok in X. destruct X as (e' & cx1 & X1 & X). apply ret_ok in X. destruct X as [-> ->].
            destruct (IE sc semi e H _ _ _ _ R X1) as (c' & Y & R'). exists c'. split; [|exact R'].
            destruct (rel_ok _ _ R) as (_ & _ & EQ). rewrite E in EQ. rewrite unless_run by exact EQ.
            destruct n as [|m]; [discriminate|]. unfold dex in Y. rewrite unless_run in Y by exact EQ.
            unfold dummy_stmt. cbn [s_attrs vs_visit_stmt]. unfold bind in *. destruct (note_child (e_attrs e) c) as [[u c1]| |]; try discriminate.
            pose proof (engine_deeper hash ta m) as Dm.
            destruct (d_vis_deeper _ _ Dm) as (d1 & d2 & d3 & d4).
            pose proof (vs_expr_deeper hash ta _ _ Dm _ _ e semi d1 d2 d3 c1) as Q. rewrite Q by (rewrite Y; discriminate).
            rewrite Y. reflexivity.
        + apply sim_unless. unfold visit_stmt, dummy_stmt. apply sim_bind; [apply sim_note|intros _]. cbn [vs_visit_stmt walk_stmt]. apply sim_ret.
      - intros cx c y cx' R X. cbn [engine step r_varm] in X. apply unless_cases in X. destruct (rel_ok _ _ R) as (_ & _ & EQ).
        destruct X as [(NE & -> & ->)|(E & X)].
        + exists c. split; [apply arm_bad; congruence|exact R].
        + destruct x as [a p g b z]. unfold visit_arm in X. pose proof H as SP. apply andb_prop in SP. destruct SP as [NA SP].
          destruct (notes_none _ NA) as (NN & _ & _). rewrite NN in X. unfold bind at 1 in X.
          replace ((if sc_foreign sc then ret (Arm a p g b z) else ret (Arm a p g b z)) cx) with (ROk (Arm a p g b z, cx)) in X
            by (destruct (sc_foreign sc); reflexivity).
          apply bind_ok in X. destruct X as (x' & cx1 & X1 & X).
          assert (SA : sim (walk_arm (v_expr (engine hash ta n) sc) (Arm a p g b z)) (walk_arm (r_dexpr (engine hash ta n)) (Arm a p g b z))).
          { apply (sim_arm k); [|exact H]. intros e W. unfold v_expr. rewrite <- dex_plain. auto. }
          destruct (SA _ _ _ _ R X1) as (c' & Y & R').
          assert (Z : exists g' b', x' = Arm a p g' b' z).
          { cbn [walk_arm] in X1. minv. eauto. }
          destruct Z as (g' & b' & ->). unfold bind in X. rewrite (notes_removed _ _ _ NA) in X. unfold ret in X. inversion X; subst y cx'.
          exists c'. split; [|exact R']. rewrite (walk_arm_deeper _ (r_dexpr (engine hash ta (S n))) (Arm a p g b z) (dp_dexpr _ _ D)) by (rewrite Y; discriminate).
          exact Y.
      - intros cx c y cx' R X. cbn [engine step r_vlocal] in X. apply unless_cases in X. destruct (rel_ok _ _ R) as (_ & _ & EQ).
        destruct X as [(NE & -> & ->)|(E & X)].
        + exists c. split; [apply local_bad; congruence|exact R].
        + destruct x as [a p t i d]. unfold visit_local in X. pose proof H as SP. apply andb_prop in SP. destruct SP as [NA SP].
          destruct (notes_none _ NA) as (NN & _ & _). rewrite NN in X. unfold bind at 1 in X.
          replace ((if sc_foreign sc then ret (Local a p t i d) else ret (Local a p t i d)) cx) with (ROk (Local a p t i d, cx)) in X
            by (destruct (sc_foreign sc); reflexivity).
          apply bind_ok in X. destruct X as (x' & cx1 & X1 & X).
          assert (SA : sim (walk_local (v_expr (engine hash ta n) sc) (Local a p t i d)) (walk_local (r_dexpr (engine hash ta n)) (Local a p t i d))).
          { apply (sim_local k); [|exact SP]. intros e W. unfold v_expr. rewrite <- dex_plain. auto. }
          destruct (SA _ _ _ _ R X1) as (c' & Y & R').
          assert (Z : exists i' d', x' = Local a p t i' d').
          { cbn [walk_local] in X1. minv. eauto. }
          destruct Z as (i' & d' & ->). unfold bind in X. rewrite (notes_removed _ _ _ NA) in X. unfold ret in X. inversion X; subst y cx'.
          exists c'. split; [|exact R']. rewrite (walk_local_deeper _ (r_dexpr (engine hash ta (S n))) (Local a p t i d) (dp_dexpr _ _ D)) by (rewrite Y; discriminate).
          exact Y.
    Qed.
  End Run.
End Sim.
