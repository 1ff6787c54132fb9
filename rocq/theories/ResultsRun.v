(** Executions of a function that passes errors on with [?], and of the expanded function. *)

Require Import Coq.Strings.String Coq.Lists.List Coq.Bool.Bool Coq.Arith.Arith Lia.
Require Import Verif.Syntax Verif.AstInd Verif.ExprModel Verif.Edits Verif.NoValueSpec Verif.Tails Verif.TwinEdits Verif.Loops Verif.Changes Verif.Branches Verif.BranchesRun Verif.ChangesInd Verif.ChangesTop Verif.CleanRun Verif.BranchesClean
  Verif.Excused Verif.Values Verif.Eval Verif.EvalRun Verif.NoValueEval Verif.ValuesRun Verif.Results.
Import ListNotations.
Open Scope string_scope.
Open Scope list_scope.

(** Closures, [async] and [try] blocks. *)
Definition walled (e : expr) : bool := match e with EClosure _ _ _ | EBlk KAsync _ _ | EBlk KTry _ _ => true | _ => false end.
Lemma strict_walled e : walled e = true -> strict e = e.
Proof. destruct e; try discriminate; [destruct k; try discriminate|]; reflexivity. Qed.

Section Passing.
  Variable m : string.
  Lemma passing_walled e : walled e = true -> passing m e = clean m TakesQuestions e.
  Proof. destruct e; try discriminate; [destruct k; try discriminate|]; reflexivity. Qed.
  Lemma passing_help e : passing m e = true -> no_help (e_attrs e) = true.
  Proof.
    intros H. destruct (walled e) eqn:A.
    - rewrite (passing_walled _ A) in H. apply clean_split in H. destruct H as [H _]. apply andb_true_iff in H. tauto.
    - destruct e; try discriminate; try (destruct k; try discriminate); apply andb_true_iff in H; destruct H as [H _]; apply andb_true_iff in H; tauto.
  Qed.
  Lemma passing_kids e : passing m e = true -> walled e = false ->
    match e with EReturn _ (Some x) => ok_call x = true | EReturn _ None => False | EMacro _ (Mac p _) => is_ident p m = false | _ => True end
     /\ kids (fun e => passing m e = true) (fun s => passing_stmt m s = true) (fun y => passing_arm m y = true) e.
  Proof.
    intros H A. assert (X : fold_expr andb true (passing m) (passing_stmt m) (passing_arm m) e = true).
    { destruct e; try discriminate; try (destruct k; try discriminate); apply andb_true_iff in H; destruct H as [_ H]; exact H. }
    split; [|apply kids_true; exact X]. destruct e; try exact I; apply andb_true_iff in H; destruct H as [H _]; apply andb_true_iff in H; destruct H as [_ H].
    - destruct e; [exact H|discriminate].
    - destruct m0. destruct (is_ident p m); [discriminate|reflexivity].
  Qed.
End Passing.

Lemma parts_impl (Re Re' : list string -> expr -> expr -> Prop) (Rs Rs' : list string -> stmt -> stmt -> Prop) (Ra Ra' : list string -> arm -> arm -> Prop) t e e' :
  (forall t y y', Re t y y' -> Re' t y y') -> (forall t y y', Rs t y y' -> Rs' t y y') -> (forall t y y', Ra t y y' -> Ra' t y y') ->
  parts Re Rs Ra t e e' -> parts Re' Rs' Ra' t e e'.
Proof.
  intros H1 H2 H3 H.
  assert (LE : forall t b b', seq2 Re t b b' -> seq2 Re' t b b') by (induction 1; constructor; auto).
  assert (LS : forall t b b', seq2 Rs t b b' -> seq2 Rs' t b b') by (induction 1; constructor; auto).
  assert (LA : forall t b b', seq2 Ra t b b' -> seq2 Ra' t b b') by (induction 1; constructor; auto).
  assert (LO : forall t b b', maybe2 Re t b b' -> maybe2 Re' t b b') by (destruct 1; constructor; auto).
  destruct H; constructor; auto.
Qed.

(** Parts with the first one checked. *)
Lemma parts_strict (Re : list string -> expr -> expr -> Prop) (Rs : list string -> stmt -> stmt -> Prop) (Ra : list string -> arm -> arm -> Prop) t e e' :
  parts (fun t y y' => Re t (strict y) y') (fun t y y' => Rs t (strict_stmt y) y') (fun t y y' => Ra t (strict_arm y) y') t e e' ->
  walled e = false -> match e with ETry _ _ => False | _ => True end -> parts Re Rs Ra t (strict e) e'.
Proof.
  intros H A N.
  assert (LE : forall t b b', seq2 (fun t y y' => Re t (strict y) y') t b b' -> seq2 Re t (map strict b) b') by (induction 1; constructor; auto).
  assert (LS : forall t b b', seq2 (fun t y y' => Rs t (strict_stmt y) y') t b b' -> seq2 Rs t (map strict_stmt b) b') by (induction 1; constructor; auto).
  assert (LA : forall t b b', seq2 (fun t y y' => Ra t (strict_arm y) y') t b b' -> seq2 Ra t (map strict_arm b) b') by (induction 1; constructor; auto).
  assert (LO : forall t b b', maybe2 (fun t y y' => Re t (strict y) y') t b b' -> maybe2 Re t (option_map strict b) b') by (destruct 1; constructor; auto).
  destruct H; cbn [walled] in A; try discriminate; try contradiction; cbn [strict]; try (constructor; auto; fail).
  destruct k; try discriminate; constructor; auto.
Qed.

Section Run.
  Context {W : Type} (O : ops W) (mk : string -> bool) (k : nat) (self : expr -> env -> W -> result W).
  Variables own m : string.
  Hypothesis GEN : gen_name own = true.
  Hypothesis MK : forall s, mk s = true -> s = m.

  Notation ev := (ev W O mk k self).
  Notation ev_stmt := (ev_stmt W O mk k self).
  Notation ev_arm := (ev_arm W O mk k self).
  Notation ev_stmts := (ev_stmts W ev_stmt).
  Notation ev_arms := (ev_arms W ev_arm).
  Notation lifts := (lifts own false none Errs).
  Notation SE := (SE O mk k self own false none Errs).
  Notation SS := (SS O mk k self own false none Errs).
  Notation SA := (SA O mk k self own false none Errs).
  Notation SL := (SL O mk k self own none Errs).
  Notation SO := (SO O mk k self own none Errs).
  Notation fit := (fit own m TakesQuestions).

  Lemma walled_same e : walled e = true -> SE e e.
  Proof. intros A pl en w. destruct e; try discriminate; [destruct k0; try discriminate|]; constructor; reflexivity. Qed.

  Lemma fit_enter_q e w : fit w -> walled e = false -> no_help (e_attrs e) = true -> fit (enter e w).
  Proof.
    intros (F & M & R & X & E) A N. destruct (no_help_named _ N) as (NA & _). unfold enter. rewrite past_same by exact NA.
    destruct e; try discriminate; try (repeat split; assumption). destruct k0; try discriminate; repeat split; assumption.
  Qed.

  (** [Ok(x)] *)
  Lemma ok_call_eval e pl en w : ok_call e = true ->
    match ev pl e en w with (ONorm x, _) => exists y, x = VCon "Ok" y | _ => True end.
  Proof.
    destruct e; try discriminate. destruct e; try discriminate. destruct args as [|e [|]]; try discriminate. cbn [ok_call].
    destruct (con_of p) eqn:E; [|discriminate]. intros H. apply String.eqb_eq in H. subst s.
    rewrite (ev_call mk O k self). cbn [Eval.ev bnd ev_list]. rewrite E. cbn [bnd all]. unfold all.
    destruct (ev (values (length (@nil value))) e en w) as [[] u]; cbn [bnd]; try exact I. cbn. eauto.
  Qed.
  Lemma ok_call_strict e : ok_call e = true -> ok_call (strict e) = true.
  Proof. destruct e; try discriminate. destruct e; try discriminate. destruct args as [|e [|]]; try discriminate. auto. Qed.

  Lemma pmatch_con q c n d y w : con_of q = Some c ->
    pmatch W O (PCtor q [PBind n]) (VCon d y) w = if c =? d then (PYes [(n, (false, y))], w) else (PNo, w).
  Proof. intros E. cbn [pmatch]. rewrite E. destruct (c =? d); reflexivity. Qed.
  Lemma con_call q c n y en w : con_of q = Some c -> con_of (plain_path [n]) = None -> none_of (plain_path [n]) = false -> variant_of (plain_path [n]) = None ->
    ev false (ECall [] (EPath [] false q) [EPath [] false (plain_path [n])]) ((n, (false, y)) :: en) w = (ONorm (VCon c y), w).
  Proof.
    intros E N1 N2 N3. rewrite (ev_call mk O k self). cbn [Eval.ev bnd ev_list]. rewrite E. cbn [bnd]. unfold all. rewrite N1, N2, N3. cbn [bnd ev_list app].
    change (var_of (plain_path [n])) with (Some n). cbn [lookup]. rewrite String.eqb_refl. reflexivity.
  Qed.

  Definition back (c : string) : arm :=
    Arm [] (PCtor (plain_path [c]) [PBind "v"]) None (ECall [] (EPath [] false (plain_path [c])) [EPath [] false (plain_path ["v"])]) true.
  Lemma checked_arms c y en w : ev_arms (VCon c y) [back "Ok"; back "Err"] en w =
    if "Ok" =? c then (ONorm (VCon "Ok" y), w) else if "Err" =? c then (ONorm (VCon "Err" y), w) else (OStuck, w).
  Proof.
    rewrite (ev_arms_cons mk O k self). unfold back. rewrite (ev_arm_eq mk O k self).
    rewrite (pmatch_con (plain_path ["Ok"]) "Ok") by reflexivity. destruct ("Ok" =? c); [cbn [app]; apply con_call; reflexivity|].
    rewrite (ev_arms_cons mk O k self), (ev_arm_eq mk O k self), (pmatch_con (plain_path ["Err"]) "Err") by reflexivity. destruct ("Err" =? c); [cbn [app]; apply con_call; reflexivity|]. reflexivity.
  Qed.
  Lemma asked_arms c v y en w : ev_arms (VCon c y) (question_arms own v) en w =
    if "Ok" =? c then (ONorm y, w) else if "Err" =? c then (ORet (VCon "Err" (VWrap own v y)), w) else (OStuck, w).
  Proof.
    unfold question_arms. rewrite (ev_arms_cons mk O k self), (ev_arm_eq mk O k self).
    rewrite (pmatch_con (result_ctor "Ok") "Ok") by reflexivity. destruct ("Ok" =? c); [reflexivity|].
    rewrite (ev_arms_cons mk O k self), (ev_arm_eq mk O k self), (pmatch_con (result_ctor "Err") "Err") by reflexivity. destruct ("Err" =? c); [|reflexivity].
    cbn [app]. rewrite (ev_block mk O k self), (ev_stmts_cons mk O k self), (ev_sexpr mk O k self). cbn [andb negb Eval.ev bnd].
    assert (V : ev false (wrap own v (EPath [] false (plain_path ["err"]))) (("err", (false, y)) :: en) w = (ONorm (VWrap own v y), w)).
    { rewrite (wrap_eval O mk k self own GEN). reflexivity. }
    cbn [ev_list]. unfold all. cbn [bnd]. change (con_of (result_ctor "Err")) with (Some "Err"). cbn [bnd]. change (values (length (@nil value))) with false.
    rewrite V. reflexivity.
  Qed.

  (** [x?] with a checked operand and what takes its place. *)
  Lemma question_lifts a a' x x' v : SE x x' -> SE (ETry a (checked x)) (EMatch a' x' (question_arms own v)).
  Proof.
    intros H pl en w. rewrite (ev_match mk O k self).
    assert (L : ev pl (ETry a (checked x)) en w = bnd W (bnd W (ev false x en w) (fun v w1 => ev_arms v [back "Ok"; back "Err"] en w1)) (fun v w1 =>
              match v with
              | VCon c y => if c =? "Err" then (ORet v, w1) else (ONorm y, w1)
              | VNone => (ORet VNone, w1)
              | _ => (OStuck, w1)
              end)) by (rewrite <- (ev_match mk O k self false []); reflexivity).
    rewrite L. clear L.
    destruct (H false en w) as [y y' u E|? ? ? ? E|? ?|? ? ? E|?|?|?]; cbn [bnd]; try (constructor; assumption).
    cbn in E. subst y'. destruct y; try (constructor; fail). rewrite checked_arms, asked_arms.
    destruct ("Ok" =? c) eqn:E1; [constructor; reflexivity|]. destruct ("Err" =? c) eqn:E2; [|constructor].
    constructor. right. eauto.
  Qed.

  Theorem done_passing :
    (forall w semi e e', done w semi e e' -> fit w -> passing m e = true -> SE (strict e) e')
    /\ (forall w s s', done_stmt w s s' -> fit w -> passing_stmt m s = true -> SS (strict_stmt s) s').
  Proof.
    pose (Te e := passing m e = true). pose (Ts e := passing_stmt m e = true). pose (Ta e := passing_arm m e = true). pose (Tl e := passing_local m e = true).
    pose (Pd w (semi : bool) e e' := fit w -> Te e -> SE (strict e) e').
    pose (Pu w (semi : bool) e e' := fit w -> attr_named "auto_enum" (e_attrs e) = false ->
      parts (fun _ y y' => Te y -> SE (strict y) y') (fun _ y y' => Ts y -> SS (strict_stmt y) y') (fun _ y y' => done_arm w y y' /\ (Ta y -> SA (strict_arm y) y')) [] e e').
    pose (Ps w s s' := fit w -> Ts s -> SS (strict_stmt s) s').
    pose (Pa w s s' := fit w -> Ta s -> SA (strict_arm s) s').
    pose (Pl w s s' := fit w -> Tl s -> SL (strict_local s) s').
    assert (OP : forall w o o', maybe2 (fun _ e e' => done w false e e' /\ Pd w false e e') [] o o' -> fit w -> fold_opt true (passing m) o = true -> SO (option_map strict o) o').
    { intros w o o' M F. destruct M as [|t e e' [_ M]]; cbn; [auto|]. intros T. exact (M F T). }
    assert (C : cases Pd Pu Ps (fun _ _ _ => True) Pa (fun _ _ _ => True) Pl (fun _ _ _ => True) (fun _ _ _ => True)
                  (fun _ _ _ => True) (fun _ _ _ => True) (fun _ _ _ => True) (fun _ _ _ => True)).
    { constructor; try (intros; exact I).
      - intros w semi e e1 e2 e3 e' H1 H2 HU0 HU H4 F T. unfold Pu in HU. unfold Te in T. pose proof (passing_help _ _ T) as N.
        destruct (walled e) eqn:A.
        { rewrite (strict_walled _ A). assert (e' = e) as ->; [|apply walled_same; exact A]. destruct F as (F & M & R & X & E).
          apply (proj1 done_clean_all w semi e e' (dn w semi e e1 e2 e3 e' H1 H2 HU0 H4) F). rewrite M, X, <- (passing_walled _ _ A). exact T. }
        pose proof (fit_enter_q e w F A N) as FE. destruct (passing_kids _ _ T A) as (T1 & T2).
        destruct (no_help_named _ N) as (NA & NB & NC & _).
        destruct (match e with ETry _ _ => true | _ => false end) eqn:TRY.
        + destruct e; try discriminate.
          assert (TK : taken_exit (enter (ETry a e) w) (ETry a e)).
          { destruct FE as (FF & FM & FR & FX & FO). split; [exact (never_not _ N)|]. rewrite FX. intros (y0 & p & s & o & -> & [S|[S _]] & IM); [|congruence].
            cbn [kids] in T2. destruct (passing_kids _ _ T2 eq_refl) as (T3 & _). cbn in T3. rewrite FM in S. congruence. }
          inversion H1 as [|v a0 o0 _ E1 E2|e0 NT E1 E2]; subst; [|contradiction].
          apply nested_step_none in H2; [|exact NB]. subst e2.
          specialize (HU FE NA). inversion HU as [| |t1 t2 b0 s s' y y' SY AY E1 E2 E3| | | | | | | | | | | | | | | | |]; subst.
          destruct FE as (FF & FM & FR & FX & FO). assert (y' = question_arms (w_enum (enter (ETry a e) w)) v) as ->.
          { destruct done_clean_all as (_ & _ & DA). assert (CL : Forall (fun y => clean_arm (w_marker (enter (ETry a e) w)) TakesQuestions y = true) (question_arms (w_enum (enter (ETry a e) w)) v)) by (repeat constructor; reflexivity).
            clear -AY CL DA FF FX. set (q := question_arms _ _) in *. clearbody q. induction AY as [|? ? ? ? ? ? [AY _] AYS IH]; [reflexivity|]. inversion CL; subst. f_equal; [|auto].
            eapply DA; [exact AY|exact FF|]. rewrite FX. assumption. }
          apply close_none in H4; [|exact N|intros; discriminate]. subst e'. cbn [strict]. rewrite FO. apply question_lifts. apply SY. exact T2.
        + apply exit_step_none in H1.
          2: { intros [_ TK]. destruct FE as (_ & _ & _ & FX & _). rewrite FX in TK. destruct e; try contradiction; discriminate. }
          subst e1. apply nested_step_none in H2; [|exact NB]. subst e2. specialize (HU FE NA).
          assert (e' = e3) as ->.
          { apply close_none in H4; [exact H4|rewrite (parts_attrs _ _ _ _ _ _ HU); exact N|]. intros a p y ->. apply parts_macro in HU. subst e.
            destruct FE as (_ & FM & _). rewrite FM. exact T1. }
          assert (HV : parts (fun _ y y' => SE (strict y) y') (fun _ y y' => SS (strict_stmt y) y') (fun _ y y' => SA (strict_arm y) y') [] e e3).
          { eapply parts_with; [| | |exact T2|exact HU]; cbn; intros t y y' R Q; [exact (R Q)|exact (R Q)|exact (proj2 R Q)]. }
          destruct (match e with EReturn _ _ => true | _ => false end) eqn:RET.
          { destruct e as [| | | | | | | | | |a [e|]| | | | | | | | |]; try discriminate; [|contradiction]. cbn [strict option_map]. apply ok_call_strict in T1.
            inversion HV as [| | | | | | | | | |t b0 o0 o' MB E1 E2| | | | | | | | |]; subst. inversion MB as [|t y y' SY E1 E2]; subst. intros pl en u. cbn [Eval.ev].
            pose proof (ok_call_eval (strict e) false en u T1) as OK. destruct (SY false en u) as [y0 y0' u0 E|? ? ? ? E|? ?|? ? ? E|?|?|?]; cbn [bnd]; try (constructor; assumption).
            cbn in E. subst y0'. constructor. left. destruct OK as [z ->]. eauto. }
          apply (parts_strict (fun _ => SE) (fun _ => SS) (fun _ => SA)) in HV; [|exact A|destruct e; try exact I; discriminate].
          destruct (is_loop e) eqn:L.
          * eapply loop_lifts; [exact HV|destruct e; try discriminate; reflexivity| |].
            -- destruct e; try discriminate; (split; reflexivity).
            -- destruct HV; try exact I. assumption.
          * eapply parts_lifts; [exact HV|]. destruct e; try discriminate; try exact I; try reflexivity.
            -- destruct lbl; [reflexivity|exact I].
            -- destruct k0; try exact I; discriminate.
            -- destruct m0. eapply unmarked; [exact MK|exact T1].
      - intros w semi e e' _ H F A. unfold Pd, Ps, Pa in H. eapply parts_impl; [| | |exact H]; cbn; intros t y y' [R1 R2]; [exact (R2 F)|exact (R2 F)|exact (conj R1 (R2 F))].
      - intros w semi e p toks a' e1 c e' R _ _ _ _ F A. apply removes_named in R. congruence.
      - intros w e e' semi _ H F T. apply sexpr_lifts. exact (H F T).
      - intros w i _ _ pl en u. constructor. reflexivity.
      - intros w a [p o] semi _ T. eapply smacro_same; [exact MK|]. unfold Ts in T. cbn [passing_stmt] in T. apply negb_true_iff in T. exact T.
      - intros w a p t i d l' _ _ H F T pl en u. exact (H F T en u).
      - intros w a y toks a' p t i d l1 c l' R _ _ _ _ _ _ F T. unfold Tl in T. cbn in T. apply andb_true_iff in T. destruct T as [N _].
        destruct (no_help_named _ N) as (A & _). apply removes_named in R. congruence.
      - intros w y a p g b c g' b' a' NA G _ B AS F T. unfold Ta in T.
        assert (Y : y = Arm a p g b c /\ no_help a = true).
        { inversion NA; subst; cbn in T; apply andb_true_iff in T; destruct T as [N T];
            [auto|match goal with R : removes _ _ _ _ |- _ => apply removes_named in R end; destruct (no_help_named _ N) as (_ & E & _); congruence]. }
        destruct Y as [-> N]. cbn in T. apply andb_true_iff in T. destruct T as [_ T]. apply andb_true_iff in T. destruct T as [T1 T2].
        apply arm_lifts; [eapply OP; eassumption|]. exact (B F T2 false).
      - intros w y a p t i d i' d' a' NA G1 G2 AS F T. unfold Tl in T.
        assert (Y : y = Local a p t i d /\ no_help a = true).
        { inversion NA; subst; cbn in T; apply andb_true_iff in T; destruct T as [N T];
            [auto|match goal with R : removes _ _ _ _ |- _ => apply removes_named in R end; destruct (no_help_named _ N) as (_ & E & _); congruence..]. }
        destruct Y as [-> N]. cbn in T. apply andb_true_iff in T. destruct T as [_ T]. apply andb_true_iff in T. destruct T as [T1 T2].
        rewrite (attrs_step_same _ _ _ N AS). apply local_lifts; eapply OP; eassumption. }
    split; intros w.
    - exact (ind_done _ _ _ _ _ _ _ _ _ _ _ _ _ C w).
    - exact (ind_stmt _ _ _ _ _ _ _ _ _ _ _ _ _ C w).
  Qed.
End Run.
