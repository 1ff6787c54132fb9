(** Executions of code with nested attributes. *)

Require Import Coq.Strings.String Coq.Lists.List Coq.Bool.Bool Coq.Arith.Arith Lia.
Require Import Verif.Syntax Verif.AstInd Verif.ExprModel Verif.Edits Verif.NoValueSpec Verif.Tails Verif.TwinEdits Verif.Loops Verif.LoopsRun Verif.Changes Verif.Branches Verif.BranchesRun Verif.ChangesInd Verif.ChangesTop Verif.CleanRun Verif.BranchesClean
  Verif.Excused Verif.Values Verif.Eval Verif.EvalRun Verif.NoValueEval Verif.ValuesRun Verif.Exits Verif.Annotated Verif.AnnotatedRun Verif.Inner Verif.InnerLoop Verif.InnerBreak.
Import ListNotations.
Open Scope string_scope.
Open Scope list_scope.

Section Run.
  Context {W : Type} (O : ops W) (mk : string -> bool) (k : nat) (self : expr -> env -> W -> result W).
  Variable own : string.
  Hypothesis GEN : gen_name own = true.

  Notation ev := (ev W O mk k self).
  Notation ev_stmt := (ev_stmt W O mk k self).
  Notation ev_local := (ev_local W O mk k self).
  Notation ev_arm := (ev_arm W O mk k self).
  Notation ev_stmts := (ev_stmts W ev_stmt).
  Notation ev_arms := (ev_arms W ev_arm).

  Definition mine (y : value) : Prop := exists v z, y = VWrap own v z.

  (** ** [return] *)

  (** The value of a [return] is in a variant. *)
  Definition fine (o : out) : Prop := match o with ORet y => mine y | _ => True end.
  Definition safe (r : result W) : Prop := fine (fst r).
  Definition safe_stmt (r : sres W) : Prop := match r with SOut _ o _ => fine o | _ => True end.
  Definition safe_arm (r : ares W) : Prop := match r with ATake _ r => safe r | _ => True end.

  Lemma safe_bnd r f : safe r -> (forall x w, safe (f x w)) -> safe (bnd _ r f).
  Proof. destruct r as [[] w]; cbn; auto. Qed.
  Lemma safe_iterate n l f w : (forall w1, safe (f w1)) -> safe (iterate _ n l f w).
  Proof.
    intros H. revert w. induction n as [|n IH]; intros w; cbn [iterate]; [exact I|].
    pose proof (H w) as S. destruct (f w) as [[] u]; try exact S; try apply IH; destruct (catches l l0); try exact I. apply IH.
  Qed.
  Lemma safe_labelled l r : safe r -> safe (labelled _ l r).
  Proof. destruct l as [y|]; [|auto]. destruct r as [[] w]; cbn; auto. destruct l; auto. destruct (s =? y); exact (fun _ => I). Qed.
  Lemma safe_apply f xs w : safe (apply_fn _ O self f xs w).
  Proof.
    unfold apply_fn. destruct (peel f); try exact I.
    - destruct xs as [|x [|]]; exact I.
    - destruct xs as [|x [|]]; exact I.
    - destruct (pmatches _ (pmatch _ O) ps xs w) as [[] u]; try exact I.
      destruct (self body (bs ++ env) u) as [[] u']; exact I.
  Qed.
  Lemma safe_act a : forall w, safe (act_in _ O self w a).
  Proof.
    induction a as [x w|w| |f xs w g IH]; intros w0; cbn; try exact I.
    pose proof (safe_apply f xs w) as S. destruct (apply_fn _ O self f xs w) as [[] u]; try exact S. apply IH.
  Qed.
  Lemma safe_list mode more es f :
    Forall (fun e => forall pl en w, safe (ev pl e en w)) es -> (forall xs w, safe (f xs w)) ->
    forall got en w, safe (ev_list _ ev mode more es got en w f).
  Proof.
    intros H F. induction H as [|e r E _ IH]; intros got en w; cbn [ev_list]; [apply F|].
    destruct (more got w); [|apply F]. apply safe_bnd; [apply E|]. intros. apply IH.
  Qed.
  Lemma safe_stmts b : Forall (fun s => forall pl en w, safe_stmt (ev_stmt pl s en w)) b -> forall pl en w, safe (ev_stmts pl b en w).
  Proof.
    intros H. induction H as [|s r S _ IH]; intros pl en w; [exact I|].
    rewrite (ev_stmts_cons mk O k self). pose proof (S (pl && match r with [] => true | _ => false end) en w) as X.
    destruct (ev_stmt (pl && match r with [] => true | _ => false end) s en w); [|exact X].
    destruct r; [exact I|]. apply IH.
  Qed.
  Lemma safe_arms x arms : Forall (fun s => forall en w, safe_arm (ev_arm x s en w)) arms -> forall en w, safe (ev_arms x arms en w).
  Proof.
    intros H. induction H as [|s r S _ IH]; intros en w; [exact I|].
    rewrite (ev_arms_cons mk O k self). pose proof (S en w) as X. destruct (ev_arm x s en w); [exact X|apply IH].
  Qed.

  (** Each exit is a [return] of a variant. *)
  Definition good (y : place * Exits.exit) : Prop := exists a v z, snd y = XRet a (Some (wrap own v z)).
  Definition Pe (e : expr) : Prop := forall pl, Forall good (exits false pl e) -> forall p en w, safe (ev p e en w).
  Definition Ps (s : stmt) : Prop := forall pl, Forall good (exits_stmt false pl s) -> forall p en w, safe_stmt (ev_stmt p s en w).
  Definition Pa (s : arm) : Prop := forall pl, Forall good (exits_arm false pl s) -> forall y en w, safe_arm (ev_arm y s en w).
  Definition Pl (s : local) : Prop := forall pl, Forall good (exits_local false pl s) -> forall en w, safe_stmt (ev_local s en w).

  Lemma good_list {A} (f : A -> list (place * Exits.exit)) (P : A -> Prop) l :
    Forall good (fold_list (@app _) [] f l) -> Forall (fun y => Forall good (f y) -> P y) l -> Forall P l.
  Proof.
    intros G H. induction H as [|y r Y _ IH]; [constructor|]. change (Forall good (f y ++ fold_list (@app _) [] f r)) in G.
    apply Forall_app in G. destruct G. constructor; auto.
  Qed.
  Lemma good_spec {A} (Q : place -> A -> Prop) (f : place -> A -> list (place * Exits.exit)) pl l :
    Forall (fun y => forall pl, Forall good (f pl y) -> Q pl y) l -> Forall (fun y => Forall good (f pl y) -> Q pl y) l.
  Proof. apply Forall_impl. auto. Qed.

  Lemma exits_eq pl e : exits false pl e =
    (match e with
     | EClosure _ _ _ => []
     | EMacro _ (Mac _ (Some x)) => exits false (below pl e) x
     | EMatch _ x arms => exits false (below pl e) x ++ fold_list (@app _) [] (exits_arm false (below pl e)) arms
     | _ => fold_expr (@app _) [] (exits false (below pl e)) (exits_stmt false (below pl e)) (exits_arm false (below pl e)) e
     end) ++ own_exit false pl e.
  Proof. destruct e; reflexivity. Qed.

  Lemma safe_all : (forall e, Pe e) /\ (forall s, Ps s) /\ (forall s, Pa s) /\ (forall s, Pl s).
  Proof.
    assert (BL : forall b pl, Forall good (fold_list (@app _) [] (exits_stmt false pl) b) -> Forall Ps b -> forall p en w, safe (ev_stmts p b en w)).
    { intros b pl G H. apply safe_stmts. eapply good_list; [exact G|]. revert H. apply Forall_impl. intros s S. apply S. }
    assert (LI : forall es pl, Forall good (fold_list (@app _) [] (exits false pl) es) -> Forall Pe es -> forall mode more got en w f,
               (forall xs w, safe (f xs w)) -> safe (ev_list _ ev mode more es got en w f)).
    { intros es pl G H mode more got en w f F. apply safe_list; [|exact F]. eapply good_list; [exact G|]. revert H. apply Forall_impl. intros s S. apply S. }
    assert (OP : forall o pl, Forall good (fold_opt [] (exits false pl) o) -> opt_all Pe o -> match o with Some e => forall p en w, safe (ev p e en w) | None => True end).
    { intros [e|] pl G H; [|exact I]. exact (H pl G). }
    apply (ast_ind Pe Ps Pa Pl); intros;
      try match goal with |- Pe ?e => intros pl G pp en w; rewrite exits_eq in G; apply Forall_app in G; destruct G as [G G0]; cbn [fold_expr andb] in G end;
      try match goal with |- Ps _ => intros pl G pp en w | |- Pa _ => intros pl G y en w | |- Pl _ => intros pl G en w end;
      repeat match goal with G : Forall good (_ ++ _) |- _ => apply Forall_app in G; destruct G end.
    - rewrite (ev_block mk O k self). apply safe_labelled. eauto.
    - destruct k0; try exact I; eapply BL; eassumption.
    - rewrite (ev_match mk O k self). apply safe_bnd; [eauto|]. intros. apply safe_arms.
      eapply good_list; [eassumption|]. match goal with H : Forall Pa _ |- _ => revert H end. apply Forall_impl. intros r R Q en1 w1. eapply R; eassumption.
    - rewrite (ev_if mk O k self). apply safe_bnd; [eauto|]. intros x w1. destruct (cond x); [eauto| |exact I].
      match goal with G : Forall good (fold_opt _ _ _), H : opt_all Pe _ |- _ => pose proof (OP _ _ G H) as X end. destruct els; [apply X|exact I].
    - cbn [Eval.ev]. apply safe_bnd; [eauto|]. intros x w1. destruct (pmatch _ O p x w1) as [[] w2]; exact I.
    - rewrite (ev_loop mk O k self). apply safe_iterate. eauto.
    - rewrite (ev_while mk O k self). apply safe_iterate. intros. apply safe_bnd; [eauto|]. intros x w2.
      destruct (cond x); [eauto|exact I|exact I].
    - rewrite (ev_for mk O k self). apply safe_bnd; [eauto|]. intros. apply safe_bnd; [apply safe_act|]. intros.
      apply safe_iterate. intros. apply safe_bnd; [apply safe_act|]. intros y w4. destruct y; try exact I.
      destruct (pmatch _ O p y w4) as [[] w5]; try exact I. eauto.
    - cbn [Eval.ev]. match goal with G : Forall good (fold_opt _ _ _), H : opt_all Pe _ |- _ => pose proof (OP _ _ G H) as X end. destruct e; [|exact I]. apply safe_bnd; [apply X|]. exact (fun _ _ => I).
    - exact I.
    - inversion G0 as [|? ? (a0 & v & z & E) _]; subst. cbn in E. injection E as _ ->. cbn [Eval.ev].
      match goal with G : Forall good (fold_opt _ _ _), H : opt_all Pe _ |- _ => pose proof (OP _ _ G H false en w) as X end. revert X. rewrite (wrap_eval O mk k self own GEN).
      destruct (ev false z en w) as [[] u]; cbn; auto. intros _. exists v. eexists. reflexivity.
    - inversion G0 as [|? ? (a0 & v & z & E) _]; subst. discriminate E.
    - exact I.
    - cbn [Eval.ev]. destruct (is_marker mk p); [destruct e; [eapply H; exact G|exact I]|]. destruct (panic_of p); [exact I|apply safe_act].
    - cbn [Eval.ev]. apply safe_bnd; [eauto|]. intros. eapply LI; try eassumption. intros. apply safe_act.
    - cbn [Eval.ev]. eauto.
    - rewrite (ev_call mk O k self). apply safe_bnd; [eauto|]. intros. eapply LI; try eassumption. intros.
      destruct (is_fn x); [apply safe_apply|apply safe_act].
    - cbn [Eval.ev]. destruct (con_of p); [exact I|]. destruct (none_of p); [exact I|]. destruct (variant_of p) as [[]|]; [exact I|].
      destruct (match var_of p with Some x => lookup x en | None => None end) as [[[] ?]|]; exact I.
    - cbn [Eval.ev]. destruct es; [destruct (k0 =? "Tuple"); [exact I|apply safe_act]|].
      eapply LI; try eassumption. intros. apply safe_act.
    - cbn [Eval.ev]. apply safe_act.
    - exact (H _ G en w).
    - exact I.
    - rewrite (ev_sexpr mk O k self). pose proof (H _ G (pp && negb semi) en w) as S. destruct (ev (pp && negb semi) e en w) as [[] u]; cbn; auto.
    - cbn [Eval.ev_stmt]. destruct (is_marker mk p).
      + destruct e; [|exact I]. cbn in H. pose proof (H _ G false en w) as S.
        change (safe_stmt (as_stmt W [] (fun x => if semi then VUnit else x) (ev false e en w))).
        destruct (ev false e en w) as [[] u]; cbn; auto.
      + destruct (panic_of p); [exact I|]. pose proof (safe_act (o_macro W O p e en w) w) as S.
        destruct (act_in _ O self w (o_macro W O p e en w)) as [[] u]; cbn; auto.
    - cbn [exits_local fold_local] in G. apply Forall_app in G. destruct G as [G1 G2]. pose proof (OP _ _ G1 H) as X1. pose proof (OP _ _ G2 H0) as X2. destruct i as [x|].
      + rewrite (ev_local_some mk O k self). pose proof (X1 false en w) as S. destruct (ev false x en w) as [[] u]; try exact S.
        destruct (pmatch _ O p x0 u) as [[] v]; try exact I.
        destruct d; [|exact I]. pose proof (X2 false en v) as S2. destruct (ev false e en v) as [[] z]; try exact I; exact S2.
      + cbn [Eval.ev_local]. destruct (o_decl W O w). destruct p; exact I.
    - cbn [exits_arm fold_arm] in G. apply Forall_app in G. destruct G as [G1 G2]. pose proof (OP _ _ G1 H) as X1. pose proof (H0 _ G2) as X2.
      rewrite (ev_arm_eq mk O k self). destruct (pmatch _ O p y w) as [[] u]; try exact I.
      destruct g as [z|]; [|apply X2]. pose proof (X1 false (bs ++ en) u) as S.
      destruct (ev false z (bs ++ en) u) as [[] v]; try exact S. destruct (cond x); try exact I. apply X2.
  Qed.

  (** ** The end *)

  Variables (m : string) (x : Changes.takes) (halts : expr -> Prop).
  Hypothesis XQ : x <> TakesQuestions.
  Hypothesis HALT : forall e, halts e -> forall en w y u, ev false e en w <> (ONorm y, u).
  Let marker (s : string) : Prop := s = m.
  Notation fits := (fits own m x).
  Notation marks := (marks m).

  Definition owned (e : expr) : Prop := forall en w y u, ev false e en w = (ONorm y, u) -> mine y.
  Definition owned_block (b : list stmt) : Prop := forall en w y u, ev_stmts false b en w = (ONorm y, u) -> mine y.
  Definition owned_arm (a : arm) : Prop := forall z en w y u, ev_arm z a en w = ATake _ (ONorm y, u) -> mine y.
  Definition never_gives (e : expr) : Prop := forall en w y u, ev false e en w <> (ONorm y, u).

  Lemma never_owned e : never_gives e -> owned e.
  Proof. intros N en w y u E. destruct (N _ _ _ _ E). Qed.
  Lemma wrap_owned v e : owned (wrap own v e).
  Proof. intros en w y u. rewrite (wrap_eval O mk k self own GEN). destruct (ev false e en w) as [[] u1]; cbn; try discriminate. intros E. injection E as <- _. exists v. eexists. reflexivity. Qed.
  Lemma given_owned e e' : given O mk k self own x e e' -> owned e'.
  Proof. intros G en w y u E. specialize (G en w). rewrite E in G. inversion G as [? ? ? X| | | | | |]; subst. destruct X as (v & ->). exists v. eexists. reflexivity. Qed.
  Lemma last_owned b e : owned e -> owned_block (b ++ [SExpr e false]).
  Proof.
    intros H. induction b as [|s b IH]; intros en w y u; cbn [app].
    - rewrite (one_eval O mk k self). apply H.
    - rewrite (ev_stmts_cons mk O k self). destruct (b ++ [SExpr e false]) eqn:E; [destruct b; discriminate|]. pose proof (out_not_norm O mk k self (false && false) s en w) as Y.
      destruct (ev_stmt _ s en w); [apply IH|]. intros K. injection K as -> _. contradiction.
  Qed.
  Lemma arm_owned a p g b c : owned b -> owned_arm (Arm a p g b c).
  Proof.
    intros A z en w y u. rewrite (ev_arm_eq mk O k self). destruct (pmatch _ O p z w) as [[] u1]; try discriminate.
    destruct g as [g|]; [|intros E; injection E as E; exact (A _ _ _ _ E)].
    destruct (ev false g (bs ++ en) u1) as [[] u2]; try discriminate. destruct (cond x0); try discriminate. intros E. injection E as E. exact (A _ _ _ _ E).
  Qed.
  Lemma arms_owned l : Forall owned_arm l -> forall z en w y u, ev_arms z l en w = (ONorm y, u) -> mine y.
  Proof.
    intros H. induction H as [|a r A _ IH]; intros z en w y u; [discriminate|]. rewrite (ev_arms_cons mk O k self).
    destruct (ev_arm z a en w) as [r0|w1] eqn:E; [|apply IH]. intros ->. exact (A _ _ _ _ _ E).
  Qed.

  (** What is wrapped stays so. *)
  Lemma done_path w semi p q e' : no_help [] = true -> done w semi (EPath [] p q) e' -> e' = EPath [] p q.
  Proof. intros N D. apply done_plain in D; [|reflexivity..]. inversion D; reflexivity. Qed.
  Lemma done_wrap w semi v e e' : done w semi (wrap own v e) e' -> exists e2, e' = wrap own v e2.
  Proof.
    intros D. apply done_plain in D; [|reflexivity..]. inversion D as [| | | | | | | | | | | | | | | |? ? ? ? f' ? l' DF DL| | |]; subst.
    apply done_path in DF; [|reflexivity]. subst f'. inversion DL as [|? ? ? e2 ? ? _ D2]; subst. inversion D2; subst. eexists. reflexivity.
  Qed.
  Lemma done_wrap_owned w semi v e e' : done w semi (wrap own v e) e' -> owned e'.
  Proof. intros D. destruct (done_wrap _ _ _ _ _ D) as (e2 & ->). apply wrap_owned. Qed.

  (** Code that leaves still does. *)
  Definition leaves_stmt (s : stmt) : Prop := forall pl en w, match ev_stmt pl s en w with SGo _ _ _ _ => False | _ => True end.
  Definition leaves_all (e : expr) : Prop := forall pl en w y u, ev pl e en w <> (ONorm y, u).
  Lemma leaving_done :
    (forall e, leaving mk m e -> forall w semi e', fits w -> done w semi e e' -> leaves_all e')
    /\ (forall s, leaving_stmt mk m s -> forall w s', fits w -> done_stmt w s s' -> leaves_stmt s').
  Proof.
    assert (PAN : forall y, panic_mac mk m y = true -> match y with Mac p o => is_marker mk p = false /\ panic_of p = true /\ is_ident p m = false end).
    { intros [p o] H. cbn in H. apply andb_true_iff in H. destruct H as [H H3]. apply andb_true_iff in H. destruct H as [H1 H2]. apply negb_true_iff in H2, H3. auto. }
    apply (leaving_ind2 mk m).
    - intros a o N w semi e' F D. assert (E : exists a' o', e' = EReturn a' o').
      { destruct (no_help_named _ N) as (NA & NB & _). inversion D as [? ? ? e1 e2 e3 ? H1 H2 H3 H4]; subst.
        assert (E1 : exists o1, e1 = EReturn a o1) by (inversion H1; subst; eauto). destruct E1 as (o1 & ->).
        apply nested_step_none in H2; [|exact NB]. subst e2. apply under_none in H3; [|exact NA]. inversion H3; subst.
        inversion H4 as [? G|? e1 a' G M A]; subst; [eauto|]. apply marker_step_none in M; [|discriminate]. subst e1. cbn [set_attrs]. eauto. }
      destruct E as (a' & o' & ->). intros pl en u y u1. cbn [Eval.ev]. destruct o'; [|discriminate]. destruct (ev false e en u) as [[] ?]; discriminate.
    - intros a l o N w semi e' F D. apply done_plain in D; [|exact N|reflexivity]. inversion D; subst.
      intros pl en u y u1. cbn [Eval.ev]. destruct o'; [|discriminate]. destruct (ev false e en u) as [[] ?]; discriminate.
    - intros a l N w semi e' F D. apply done_plain in D; [|exact N|reflexivity]. inversion D; subst. intros pl en u y u1. discriminate.
    - intros a [p o] N P w semi e' F D. destruct (PAN _ P) as (P1 & P2 & P3). assert (E : exists a', e' = EMacro a' (Mac p o)).
      { destruct (no_help_named _ N) as (NA & NB & _). inversion D as [? ? ? e1 e2 e3 ? H1 H2 H3 H4]; subst.
        apply exit_step_none in H1; [|intros [_ K]; exact K]. subst e1. apply nested_step_none in H2; [|exact NB]. subst e2. apply under_none in H3; [|exact NA]. inversion H3; subst.
        unfold enter in H4. cbn [e_attrs] in H4. rewrite past_same in H4 by exact NA.
        inversion H4 as [? G|? e1 a' G M A]; subst; [eauto|]. apply marker_step_none in M; [subst e1; cbn; eauto|].
        intros a0 p0 x0 E. injection E as <- <- <-. rewrite (proj1 (proj2 (proj1 F))). exact P3. }
      destruct E as (a' & ->). intros pl en u y u1. cbn [Eval.ev]. rewrite P1, P2. discriminate.
    - intros a b s N _ IH w semi e' F D. apply done_plain in D; [|exact N|reflexivity]. inversion D as [? ? ? ? b' DS| | | | | | | | | | | | | | | | | | |]; subst.
      apply seq2_in in DS. apply Forall2_app_inv_l in DS. destruct DS as (r' & s' & _ & D2 & ->). inversion D2 as [|? s2 ? ? DE DN]; subst. inversion DN; subst.
      intros pl en u y u1 E. rewrite (ev_block mk O k self) in E. cbn [labelled] in E. apply (stmts_nv O mk k self r' s2 (IH _ _ F DE) pl en u). rewrite E. exact I.
    - intros e semi _ IH w s' F D. inversion D as [? ? e' ? DD| | | |]; subst. intros pl en u. rewrite (ev_sexpr mk O k self).
      pose proof (IH _ _ _ F DD (pl && negb semi) en u) as H. destruct (ev _ e' en u) as [[] u1]; try exact I. exact (H _ _ eq_refl).
    - intros a [p o] semi P w s' F D. destruct (PAN _ P) as (P1 & P2 & P3). inversion D; subst. intros pl en u. cbn [Eval.ev_stmt]. rewrite P1, P2. exact I.
  Qed.
  Lemma leaving_tail mp t e e1 : leaving mk m e -> tail own mp t e e1 -> leaving mk m e1.
  Proof.
    intros L. revert t e1. induction L as [| | | | |e semi L IH|] using leaving_mut with
      (P0 := fun s => forall e, s = SExpr e false -> forall t e1, tail own mp t e e1 -> leaving mk m e1); intros; try discriminate.
    1-4: match goal with H : tail _ _ _ _ _ |- _ => inversion H; subst; constructor; assumption end.
    - match goal with H : tail _ _ _ _ _ |- _ => inversion H as [? NV|? BL| | | |? ? ? r e0 e2 NV HT E| | |]; subst end; try (constructor; assumption).
      match goal with E : _ ++ [_] = _ ++ [_] |- _ => apply app_inj_tail in E; destruct E as [-> <-] end. constructor; [assumption|]. constructor. eauto.
    - match goal with E : SExpr _ _ = SExpr _ _ |- _ => injection E as <- -> end. eauto.
  Qed.

  Lemma mark_owned w semi a p y e' : fits w -> no_help a = true -> is_ident p m = true -> done w semi (EMacro a (Mac p (Some y))) e' -> owned e'.
  Proof.
    intros F N I D. destruct (no_help_named _ N) as (NA & NB & _). inversion D as [? ? ? e1 e2 e3 ? H1 H2 H3 H4]; subst.
    apply exit_step_none in H1; [|intros [_ K]; exact K]. subst e1. apply nested_step_none in H2; [|exact NB]. subst e2.
    apply under_none in H3; [|exact NA]. inversion H3; subst.
    unfold enter in H4. cbn [e_attrs] in H4. rewrite past_same in H4 by exact NA.
    inversion H4 as [? G|? e1 a' G M A]; subst; [rewrite (proj1 (proj1 F)) in G; discriminate|].
    inversion M as [v ? ? ? J|? J]; subst; [|specialize (J _ _ _ eq_refl); rewrite (proj1 (proj2 (proj1 F))) in J; congruence].
    change (set_attrs (ECall a (EPath [] false (ctor (w_enum w) v)) [y]) a') with (set_attrs (wrap (w_enum w) v y) a').
    rewrite (proj2 (proj2 (proj2 (proj2 (proj1 F))))). intros en u z u1. rewrite (set_attrs_eval mk O k self). apply wrap_owned.
  Qed.

  Lemma leaving_owned w semi e e' : fits w -> leaving mk m e -> done w semi e e' -> owned e'.
  Proof. intros F L D. apply never_owned. intros en u y u1. exact (proj1 leaving_done e L w semi e' F D false en u y u1). Qed.
  Lemma arm_done w a p g b c y' : fits w -> no_help a = true -> done_arm w (Arm a p g b c) y' -> exists a' g' b', y' = Arm a' p g' b' c /\ done w false b b'.
  Proof.
    intros F N D. destruct (no_help_named _ N) as (_ & NB & _). inversion D as [? ? a0 q g0 b0 c0 g' b' a' NN DG DB AS]; subst.
    inversion NN as [|? ? ? ? ? ? ? ? ? ? ? R]; subst; [|apply removes_named in R; congruence]. eauto 8.
  Qed.
  Lemma snoc_done w t r s b' : seq2 (fun _ => done_stmt w) t (r ++ [s]) b' -> exists r' s', b' = r' ++ [s'] /\ done_stmt w s s'.
  Proof.
    intros D. apply seq2_all in D. apply Forall2_app_inv_l in D. destruct D as (r' & l' & _ & D2 & ->). inversion D2 as [|? s2 ? ? DE DN]; subst. inversion DN; subst. eauto.
  Qed.
  Lemma last_done w t r e b' : seq2 (fun _ => done_stmt w) t (r ++ [SExpr e false]) b' -> exists r' e', b' = r' ++ [SExpr e' false] /\ done w false e e'.
  Proof. intros D. apply snoc_done in D. destruct D as (r' & s' & -> & D). inversion D; subst. eauto. Qed.

  Theorem ends_owned :
    (forall e, ends mk m x halts e -> forall mp, marks mp -> forall w t e1 semi e', fits w -> tail own mp t e e1 -> done w semi e1 e' -> owned e')
    /\ (forall l, ends_arms mk m x halts l -> forall mp, marks mp -> forall w t l1 t' l', fits w -> seq2 (arm_wrapped own mp) t l l1 ->
          seq2 (fun _ => done_arm w) t' l1 l' -> Forall owned_arm l')
    /\ (forall y, ends_arm mk m x halts y -> forall mp, marks mp -> forall w t y1 y', fits w ->
          arm_wrapped own mp t y y1 -> done_arm w y1 y' -> owned_arm y')
    /\ (forall b, ends_branch mk m x halts b -> forall mp, marks mp -> forall w t b1 t' b', fits w -> branch_wrapped own mp t b b1 ->
          seq2 (fun _ => done_stmt w) t' b1 b' -> owned_block b')
    /\ (forall e, ends_else mk m x halts e -> forall mp, marks mp -> forall w t e1 e', fits w ->
          (exists a l b b1, e = EBlock a l b /\ e1 = EBlock a l b1 /\ branch_wrapped own mp t b b1) \/ if_wrapped own mp t e e1 ->
          done w false e1 e' -> owned e')
    /\ (forall e, inside mk m x halts e -> forall w semi e', fits w -> done w semi e e' -> owned e').
  Proof.
    apply (ends_ind6 mk m x halts).
    - (* code without nested attributes *)
      intros e AL S mp MP w t e1 semi e' F TL D. eapply given_owned.
      exact (proj1 (spread_given O mk k self own GEN m x AL XQ halts HALT) e S mp MP w t e1 semi e' F TL D).
    - intros e L mp MP w t e1 semi e' F TL D. eapply leaving_owned; [exact F|eapply leaving_tail; eassumption|exact D].
    - (* match *)
      intros a s arms N _ IH mp MP w t e1 semi e' F TL D. destruct (tidy_plain _ N) as (P1 & P2 & P3).
      assert (E : exists arms1 t1, e1 = EMatch a s arms1 /\ seq2 (arm_wrapped own mp) t1 arms arms1).
      { inversion TL as [? NV|? BL|? ? ? ? x' NV SQ| | | | | |]; subst; [|discriminate BL|eauto].
        exists arms, []. split; [reflexivity|]. assert (NA : no_value_arms mp arms) by (inversion NV; subst; try contradiction; assumption).
        clear -NA. induction NA as [|a0 p g b c l H _ IH|a0 p g b c l H _ IH]; [constructor|change (@nil string) with (@nil string ++ [])..]; constructor; try assumption; constructor; cbn; auto. }
      destruct E as (arms1 & t1 & -> & SQ). apply done_plain in D; [|exact N|reflexivity].
      inversion D as [| |t2 t3 ? ? s' ? l' DS DA| | | | | | | | | | | | | | | | |]; subst.
      intros en u y u1. rewrite (ev_match mk O k self). destruct (ev false s' en u) as [[] u2]; cbn [bnd]; try discriminate. apply arms_owned. eapply IH; eassumption.
    - (* if *)
      intros a c b e N _ IHb _ IHe mp MP w t e1 semi e' F TL D. destruct (tidy_plain _ N) as (P1 & P2 & P3).
      inversion TL as [? NV|? BL| |? ? ? ? ? ? NV IW| | | | |]; subst; [inversion NV; subst; contradiction|discriminate BL|].
      assert (E : exists b1 e2 t1 t2, e1 = EIf a c b1 (Some e2) /\ branch_wrapped own mp t1 b b1
        /\ ((exists a l b b1, e = EBlock a l b /\ e2 = EBlock a l b1 /\ branch_wrapped own mp t2 b b1) \/ if_wrapped own mp t2 e e2)).
      { inversion IW; subst; do 4 eexists; (split; [reflexivity|split; [eassumption|]]); [left|right]; eauto 8. }
      destruct E as (b1 & e2 & t1 & t2 & -> & BW & EW). apply done_plain in D; [|exact N|reflexivity].
      inversion D as [| | |? ? t3 ? ? c' ? b' ? o' DC DB DE| | | | | | | | | | | | | | | |]; subst.
      inversion DE as [|? ? e2' DE1]; subst.
      intros en u y u1. rewrite (ev_if mk O k self). destruct (ev false c' en u) as [[] u2]; cbn [bnd]; try discriminate.
      destruct (cond x0); [eapply IHb; eassumption|eapply IHe; eassumption|discriminate].
    - (* loops *)
      intros a l b N BT mp MP w t e1 semi e' F TL D. destruct (tidy_plain _ N) as (P1 & P2 & P3).
      inversion TL as [? NV|? BL| | |? ? ? ? b1 NV SQ| | | |]; subst; [inversion NV; subst; contradiction|discriminate BL|].
      pose proof (loop_kept own m mp l t b b1 MP BT SQ) as K. apply done_plain in D; [|exact N|reflexivity].
      inversion D as [| | | | |? ? ? ? b' DB| | | | | | | | | | | | | |]; subst.
      pose proof (block_keeps own l _ _ _ _ true true DB K) as K'. intros en u y u1 E. exact (loop_value O mk k self own l GEN _ _ _ _ _ _ K' E).
    - (* blocks *)
      intros a b e N _ IH mp MP w t e1 semi e' F TL D.
      assert (E : exists e2 t2, e1 = EBlock a None (b ++ [SExpr e2 false]) /\ tail own mp t2 e e2).
      { inversion TL as [? NV|? BL| | | |? ? ? r e0 e2 NV H E| | |]; subst.
        - exists e, []. split; [reflexivity|]. apply tl_no_value. eapply no_value_block; eassumption.
        - cbn in BL. rewrite ends_in_value_snoc in BL. discriminate.
        - match goal with E : _ ++ [_] = _ ++ [_] |- _ => apply app_inj_tail in E; destruct E as [-> E]; injection E as -> end. eauto. }
      destruct E as (e2 & t2 & -> & TL2). apply done_plain in D; [|exact N|reflexivity]. inversion D as [? ? ? ? b' DS| | | | | | | | | | | | | | | | | | |]; subst.
      apply last_done in DS. destruct DS as (r' & e3 & -> & DD). intros en u y u1. rewrite (block_eval O mk k self). apply last_owned. eapply IH; eassumption.
    - intros a b e N _ IH mp MP w t e1 semi e' F TL D.
      assert (E : exists e2 t2, e1 = EBlk KUnsafe a (b ++ [SExpr e2 false]) /\ tail own mp t2 e e2).
      { inversion TL as [? NV|? BL| | | | |? ? r e0 e2 NV H E| |]; subst.
        - exists e, []. split; [reflexivity|]. apply tl_no_value. eapply no_value_unsafe; eassumption.
        - cbn in BL. rewrite ends_in_value_snoc in BL. discriminate.
        - match goal with E : _ ++ [_] = _ ++ [_] |- _ => apply app_inj_tail in E; destruct E as [-> E]; injection E as -> end. eauto. }
      destruct E as (e2 & t2 & -> & TL2). apply done_plain in D; [|exact N|reflexivity]. inversion D as [|? ? ? ? b' DS| | | | | | | | | | | | | | | | | |]; subst.
      apply last_done in DS. destruct DS as (r' & e3 & -> & DD). intros en u y u1. refine (last_owned r' e3 _ en u y u1). eapply IH; eassumption.
    - intros a e N _ IH mp MP w t e1 semi e' F TL D.
      assert (E : exists e2 t2, e1 = EParen a e2 /\ tail own mp t2 e e2).
      { inversion TL as [? NV|? BL| | | | | | |]; subst; [|discriminate BL|eauto]. exists e, []. split; [reflexivity|]. apply tl_no_value. eapply no_value_paren; eassumption. }
      destruct E as (e2 & t2 & -> & TL2). apply done_plain in D; [|exact N|reflexivity]. inversion D; subst.
      intros en u y u1. cbn [Eval.ev]. eapply IH; eassumption.
    - intros a p y N I mp MP w t e1 semi e' F TL D. assert (e1 = EMacro a (Mac p (Some y))) as -> by (inversion TL; reflexivity).
      eapply mark_owned; eassumption.
    - (* arms *)
      intros mp MP w t l1 t' l' F S D. inversion S; subst. inversion D; subst. constructor.
    - intros a p g b c l _ IHb _ IHl mp MP w t l1 t' l' F S D. inversion S; subst. inversion D; subst. constructor; [eapply IHb; eassumption|eapply IHl; eassumption].
    - intros a p g b c N NV NB NG mp MP w t y1 y' F A D. destruct (tidy_plain _ N) as (P1 & P2 & P3).
      inversion A as [? SK|v ? ? ? ? ? SK]; subst.
      + exfalso. destruct SK as [K|[K|[K|[(e & -> & K)|K]]]]; try contradiction; [|cbn in NG; congruence|congruence].
        apply NV. apply (nv_spec m mp MP). exact K.
      + destruct (arm_done _ _ _ _ _ _ _ F N D) as (a' & g' & b' & -> & DB). apply arm_owned. eapply done_wrap_owned. exact DB.
    - intros a p g b c N L mp MP w t y1 y' F A D. inversion A as [? SK|v ? ? ? ? ? SK]; subst; destruct (arm_done _ _ _ _ _ _ _ F N D) as (a' & g' & b' & -> & DB).
      + apply arm_owned. eapply leaving_owned; eassumption.
      + apply arm_owned. eapply done_wrap_owned. exact DB.
    - intros a p g b c N H IH mp MP w t y1 y' F A D. destruct (tidy_plain _ N) as (P1 & P2 & P3).
      inversion A as [? SK|v ? ? ? ? ? SK]; subst; destruct (arm_done _ _ _ _ _ _ _ F N D) as (a' & g' & b' & -> & DB).
      + apply arm_owned. eapply IH; eassumption.
      + apply arm_owned. eapply done_wrap_owned. exact DB.
    - intros a p g b c AL G S mp MP w t y1 y' F A D z en u y u1 E.
      pose proof (proj1 (proj2 (proj2 (spread_given O mk k self own GEN m x AL XQ halts HALT))) a b S mp MP w t p g c y1 y' F G A D z en u) as H.
      rewrite E in H. inversion H as [? ? L|]; subst. inversion L as [? ? ? X| | | | | |]; subst. destruct X as (v & ->). exists v. eexists. reflexivity.
    - intros a p g b c OL _ IH mp MP w t y1 y' F A D.
      assert (y1 = Arm a p g b c) as ->.
      { inversion A as [? SK|v ? ? ? ? ? SK]; subst; [reflexivity|]. exfalso. apply SK. cbn. right. left. apply only_plain. exact OL. }
      inversion D as [? ? a0 q g0 b0 c0 g' b' a' NN DG DB AS]; subst.
      inversion NN as [? ? ? ? ? [J|J]|? ? ? ? ? ? ? ? n0 k0 J R B]; subst.
      + rewrite (proj1 (proj1 F)) in J. discriminate.
      + pose proof (only_plain _ _ OL) as Q. apply has_plain_named in Q. congruence.
      + unfold branches in B. rewrite (proj2 F), (proj2 (proj2 (proj2 (proj2 (proj1 F))))) in B.
        apply arm_owned. eapply IH; [exact (fits_mark own m x w F)|exact F|exact B|exact DB].
    - (* branches *)
      intros b NV NN mp MP w t b1 t' b' F BW D. inversion BW as [? SK|v ? SK]; subst.
      + exfalso. apply NV. destruct SK as (r & s & -> & K). apply nv_block. rewrite existsb_app in NN. apply orb_false_iff in NN. destruct NN as [N1 N2]. cbn in N2. rewrite orb_false_r in N2.
        destruct s as [l|i|e [|]|a mc semi]; try (apply (nv_spec_stmt m mp MP); exact K). constructor. destruct K as [K|[K|(y & Y & K)]].
        * apply plain_iff in K. cbn [nested_in_stmt fold_stmt] in N2. destruct (attr_named "auto_enum" (e_attrs e)) eqn:NA; [apply nv_auto_enum; apply has_any_named; exact NA|].
          exfalso. destruct e; cbn [nested_in] in N2; rewrite NA, K in N2; discriminate.
        * apply (nv_spec m mp MP). exact K.
        * exfalso. apply in_app_or in Y. destruct Y as [Y|[<-|[]]]; [|congruence].
          assert (existsb nested_in_stmt r = true) by (apply existsb_exists; eauto). congruence.
      + unfold wrap_branch in D. apply (last_done w t' []) in D. destruct D as (r' & e' & -> & DD). apply last_owned. eapply done_wrap_owned. exact DD.
    - intros b AL S mp MP w t b1 t' b' F BW D en u y u1 E.
      pose proof (proj1 (proj2 (proj2 (proj2 (spread_given O mk k self own GEN m x AL XQ halts HALT)))) b S mp MP w t b1 t' b' F BW D en u) as L.
      rewrite E in L. inversion L as [? ? ? X| | | | | |]; subst. destruct X as (v & ->). exists v. eexists. reflexivity.
    - intros b s L mp MP w t b1 t' b' F BW D. inversion BW as [? SK|v ? SK]; subst.
      + apply snoc_done in D. destruct D as (r' & s' & -> & DD). intros en u y u1 E. exfalso.
        apply (stmts_nv O mk k self r' s' (proj2 leaving_done s L w s' F DD) false en u). rewrite E. exact I.
      + unfold wrap_branch in D. apply (last_done w t' []) in D. destruct D as (r' & e' & -> & DD). apply last_owned. eapply done_wrap_owned. exact DD.
    - intros b e H IH mp MP w t b1 t' b' F BW D. inversion BW as [? SK|v ? SK]; subst.
      + apply last_done in D. destruct D as (r' & e' & -> & DD). apply last_owned. eapply IH; eassumption.
      + unfold wrap_branch in D. apply (last_done w t' []) in D. destruct D as (r' & e' & -> & DD). apply last_owned. eapply done_wrap_owned. exact DD.
    - (* else *)
      intros a b N _ IH mp MP w t e1 e' F [(a0 & l & b0 & b1 & E & -> & BW)|IW] D; [|inversion IW].
      injection E as <- <- <-. apply done_plain in D; [|exact N|reflexivity]. inversion D; subst. intros en u y u1. rewrite (block_eval O mk k self). eapply IH; eassumption.
    - intros a c b e N S IH mp MP w t e1 e' F [(a0 & l & b0 & b1 & E & _)|IW] D; [discriminate|].
      eapply IH; [exact MP|exact F| |exact D]. apply tl_if; [|exact IW].
      destruct (tidy_plain _ N) as (P1 & P2 & P3). intros NV. inversion NV; subst; contradiction.
    - (* inside *)
      intros e AL H w semi e' F D. eapply given_owned.
      exact (proj2 (proj2 (proj2 (proj2 (proj2 (spread_given O mk k self own GEN m x AL XQ halts HALT))))) e H w semi e' F D).
    - intros a p y N I w semi e' F D. eapply mark_owned; eassumption.
    - intros e0 e A HB SP IH w semi e' F D. pose proof (annotated_only _ _ _ A) as OL.
      assert (NA : attr_named "auto_enum" (e_attrs e) = false).
      { destruct (attr_named "auto_enum" (e_attrs e)) eqn:E; [|reflexivity]. pose proof (only_named _ _ _ OL E ltac:(cbn; auto)). discriminate. }
      inversion D as [? ? ? e1 e2 e3 ? H1 H2 H3 H4]; subst.
      assert (EN : enter e w = w) by (unfold enter; rewrite past_same by exact NA; destruct e as [| [] | | | | | | | | | | | | | | | | | | ]; try reflexivity; discriminate HB).
      rewrite EN in *. apply exit_step_none in H1; [|intros [_ K]; destruct e; try discriminate HB; exact K]. subst e1.
      inversion H2 as [? [J|J]|? p a' n0 k0 ? J R B]; subst.
      { rewrite (proj1 (proj1 F)) in J. discriminate. }
      { pose proof (only_plain _ _ OL) as Q. apply has_plain_named in Q. congruence. }
      pose proof (annotated_removes "nested" e0 e _ _ ltac:(cbn; auto) A R) as E0.
      unfold branches in B. rewrite (proj2 F), (proj2 (proj2 (proj2 (proj2 (proj1 F))))), E0 in B.
      eapply IH; [exact (fits_mark own m x w F)|exact F|exact B|].
      assert (NH : no_help (e_attrs e0) = true) by (destruct A as (l & r & q & _ & _ & N & ->); destruct e; try discriminate HB; exact N).
      assert (X : e_attrs e2 = e_attrs e0 /\ has_branches e2 = true).
      { assert (HB0 : has_branches e0 = true) by (rewrite <- E0; destruct e; try discriminate HB; exact HB).
        clear -B HB0. inversion B; subst; try (split; [reflexivity|exact HB0]); try (split; reflexivity); try discriminate HB0.
        match goal with H : if_wrapped _ _ _ _ _ |- _ => inversion H; split; reflexivity end. }
      destruct X as [XA XB]. rewrite <- XA in NH. destruct (no_help_named _ NH) as (N1 & N2 & _).
      assert (EN2 : enter e2 w = w) by (unfold enter; rewrite past_same by exact N1; destruct e2 as [| [] | | | | | | | | | | | | | | | | | | ]; try reflexivity; discriminate XB).
      eapply dn; rewrite ?EN2; [apply xs_none; intros [_ K]; destruct e2; try discriminate XB; exact K|apply ns_none; right; exact N2|exact H3|exact H4].
    - intros a b e N _ IH w semi e' F D. apply done_plain in D; [|exact N|reflexivity]. inversion D as [? ? ? ? b' DS| | | | | | | | | | | | | | | | | | |]; subst.
      apply last_done in DS. destruct DS as (r' & e3 & -> & DD). intros en u y u1. rewrite (block_eval O mk k self). apply last_owned. eapply IH; eassumption.
    - intros a b e N _ IH w semi e' F D. apply done_plain in D; [|exact N|reflexivity]. inversion D as [|? ? ? ? b' DS| | | | | | | | | | | | | | | | | |]; subst.
      apply last_done in DS. destruct DS as (r' & e3 & -> & DD). intros en u y u1. refine (last_owned r' e3 _ en u y u1). eapply IH; eassumption.
    - intros a e N _ IH w semi e' F D. apply done_plain in D; [|exact N|reflexivity]. inversion D; subst. intros en u y u1. cbn [Eval.ev]. eapply IH; eassumption.
  Qed.
End Run.
