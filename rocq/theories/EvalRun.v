(** Edits do not change the meaning of programs. *)

Require Import Coq.Strings.String Coq.Lists.List Coq.Bool.Bool Coq.Arith.Arith Lia.
Require Import Verif.Syntax Verif.AstInd Verif.Edits Verif.Eval Verif.Same.
Import ListNotations.
Open Scope string_scope.
Open Scope list_scope.

(** Induction over patterns. *)
Section PatInd.
  Variable P : pat -> Prop.
  Hypothesis HW : P PWild.
  Hypothesis HB : forall x, P (PBind x).
  Hypothesis HC : forall q ps, Forall P ps -> P (PCtor q ps).
  Hypothesis HO : forall s, P (POther s).
  Fixpoint pat_all (p : pat) : P p :=
    match p with
    | PWild => HW
    | PBind x => HB x
    | PCtor q ps => HC q ps (all_list pat_all ps)
    | POther s => HO s
    end.
End PatInd.

Section Value.
  Variable mk : string -> bool.
  Notation vrel := (vrel mk).
  Notation erel := (erel mk).
  Notation vsrel := (vsrel mk).
  Notation orel := (orel mk).

  Section ValueInd.
    Variable P : value -> Prop.
    Hypothesis H1 : P VUnit.
    Hypothesis H2 : forall b, P (VBool b).
    Hypothesis H3 : P VNone.
    Hypothesis H4 : forall c x, P x -> P (VCon c x).
    Hypothesis H5 : forall c, P (VConF c).
    Hypothesis H6 : forall i v x, P x -> P (VWrap i v x).
    Hypothesis H7 : forall i v, P (VWrapF i v).
    Hypothesis H8 : forall ps b en, Forall (fun y => P (snd (snd y))) en -> P (VClos ps b en).
    Hypothesis H9 : P (VLet None).
    Hypothesis H10 : forall bs, Forall (fun y => P (snd (snd y))) bs -> P (VLet (Some bs)).
    Hypothesis H11 : forall s l, Forall P l -> P (VOp s l).
    Fixpoint value_all (x : value) : P x :=
      match x with
      | VUnit => H1
      | VBool b => H2 b
      | VNone => H3
      | VCon c x => H4 c x (value_all x)
      | VConF c => H5 c
      | VWrap i v x => H6 i v x (value_all x)
      | VWrapF i v => H7 i v
      | VClos ps b en => H8 ps b en (all_list (P := fun y : string * (bool * value) => P (snd (snd y))) (fun y => match y with (_, (_, z)) => value_all z end) en)
      | VLet None => H9
      | VLet (Some bs) => H10 bs (all_list (P := fun y : string * (bool * value) => P (snd (snd y))) (fun y => match y with (_, (_, z)) => value_all z end) bs)
      | VOp s l => H11 s l (all_list value_all l)
      end.
  End ValueInd.

  Lemma vrel_refl : forall x, vrel x x.
  Proof.
    apply value_all; intros; try (constructor; auto; fail).
    - apply vr_clos with (t := []); [constructor|reflexivity|].
      induction H as [|[y [b0 z]] r H K IH]; constructor; assumption.
    - constructor. induction H as [|[y [b0 z]] r H K IH]; constructor; assumption.
    - constructor. induction H as [|z r H K IH]; constructor; assumption.
  Qed.
  Lemma erel_refl l : erel l l.
  Proof. induction l as [|[y [b z]] r IH]; constructor; [apply vrel_refl|assumption]. Qed.
  Lemma vsrel_refl l : vsrel l l.
  Proof. induction l; constructor; [apply vrel_refl|assumption]. Qed.

  Lemma vrel_trans3 :
    (forall y z, vrel y z -> forall x, vrel x y -> vrel x z)
    /\ (forall y z, erel y z -> forall x, erel x y -> erel x z)
    /\ (forall y z, vsrel y z -> forall x, vsrel x y -> vsrel x z).
  Proof.
    apply vrel_ind3; intros; try assumption.
    - inversion H0; subst. constructor. auto.
    - inversion H0; subst; [apply vr_wrap|apply vr_wrapped]; auto.
    - apply vr_wrapped. auto.
    - inversion H0; subst; clear H0. apply vr_clos with (t := t0 ++ t); [eapply ee_trans; eassumption| |auto].
      rewrite forallb_app. apply andb_true_intro. split; assumption.
    - inversion H0; subst. constructor. auto.
    - inversion H0; subst. constructor. auto.
    - inversion H1; subst. constructor; auto.
    - inversion H1; subst. constructor; auto.
  Qed.
  Lemma vrel_trans x y z : vrel x y -> vrel y z -> vrel x z.
  Proof. intros H K. eapply vrel_trans3; eassumption. Qed.
  Lemma erel_trans x y z : erel x y -> erel y z -> erel x z.
  Proof. intros H K. eapply vrel_trans3; eassumption. Qed.

  Lemma orel_trans x y z : orel x y -> orel y z -> orel x z.
  Proof. intros H K. inversion H; subst; inversion K; subst; constructor; eapply vrel_trans; eassumption. Qed.

  Lemma erel_app a a' b b' : erel a a' -> erel b b' -> erel (a ++ b) (a' ++ b').
  Proof. intros H K. induction H; cbn; [assumption|constructor; assumption]. Qed.
  Lemma vsrel_app a a' b b' : vsrel a a' -> vsrel b b' -> vsrel (a ++ b) (a' ++ b').
  Proof. intros H K. induction H; cbn; [assumption|constructor; assumption]. Qed.
  Lemma vsrel_length a a' : vsrel a a' -> length a = length a'.
  Proof. intros H. induction H; cbn; congruence. Qed.

  Lemma lookup_rel x en en' : erel en en' ->
    match lookup x en, lookup x en' with
    | Some (b, v), Some (b', v') => b = b' /\ vrel v v'
    | None, None => True
    | _, _ => False
    end.
  Proof. intros H. induction H as [|y b v v' r r' V _ IH]; cbn; [exact I|]. destruct (x =? y); [auto|exact IH]. Qed.

  Lemma peel_rel x y : vrel x y -> vrel (peel x) (peel y).
  Proof. intros H. induction H; cbn; try (constructor; assumption); try assumption. eapply vr_clos; eassumption. Qed.
  Lemma peel_not_wrap x i v y : peel x <> VWrap i v y.
  Proof. induction x; cbn; try discriminate. assumption. Qed.

  (** Related values without wrapper outside. *)
  Definition same_head (x y : value) : Prop :=
    match x, y with
    | VUnit, VUnit | VNone, VNone | VLet None, VLet None => True
    | VBool b, VBool b' => b = b'
    | VCon c x, VCon c' y => c = c' /\ vrel x y
    | VConF c, VConF c' => c = c'
    | VWrapF i v, VWrapF i' v' => i = i' /\ v = v'
    | VClos ps b en, VClos ps' b' en' =>
        ps = ps' /\ (exists t, ed_expr mk t b b' /\ forallb clean t = true) /\ erel en en'
    | VLet (Some bs), VLet (Some bs') => erel bs bs'
    | VOp s l, VOp s' l' => s = s' /\ vsrel l l'
    | _, _ => False
    end.
  Definition is_wrap (x : value) : bool := match x with VWrap _ _ _ => true | _ => false end.
  Lemma vrel_head x y : vrel x y -> is_wrap y = true \/ same_head x y.
  Proof. intros H. inversion H; subst; cbn; eauto 10. Qed.
  Lemma peel_no_wrap x : is_wrap (peel x) = false.
  Proof. destruct (peel x) eqn:E; cbn; try reflexivity. exfalso. eapply peel_not_wrap; exact E. Qed.
  Lemma peel_head x y : vrel x y -> same_head (peel x) (peel y).
  Proof.
    intros H. apply peel_rel in H. apply vrel_head in H. destruct H as [H|H]; [|exact H].
    rewrite peel_no_wrap in H. discriminate.
  Qed.

  Lemma is_fn_rel x y : vrel x y -> is_fn x = is_fn y.
  Proof.
    intros H. apply peel_head in H. unfold is_fn.
    destruct (peel x) as [| | | | | | | |[]|], (peel y) as [| | | | | | | |[]|]; cbn in H; try contradiction; reflexivity.
  Qed.

  Section World.
    Context {W : Type} (wrel : W -> W -> Prop) (O : ops W) (RS : respects mk wrel O).
    Notation rrel := (rrel mk wrel).
    Notation srel := (srel mk wrel).
    Notation prel := (prel mk wrel).
    Notation arel := (arel mk wrel).

    Lemma rrel_stuck r w : rrel r (OStuck, w).
    Proof. left. reflexivity. Qed.
    Lemma rrel_mk o o' w w' : orel o o' -> wrel w w' -> rrel (o, w) (o', w').
    Proof. right. split; assumption. Qed.
    Lemma rrel_trans a b c : rrel a b -> rrel b c -> rrel a c.
    Proof.
      intros [H|[H1 H2]] [K|[K1 K2]]; try (left; assumption).
      - rewrite H in K1. inversion K1.
      - right. split; [eapply orel_trans; eassumption|eapply (rs_trans _ _ _ RS); eassumption].
    Qed.
    Lemma srel_trans a b c : srel a b -> srel b c -> srel a c.
    Proof.
      intros H K. inversion K; subst; [apply sr_stuck| |].
      - inversion H; subst. apply sr_go; [eapply erel_trans|eapply vrel_trans|eapply (rs_trans _ _ _ RS)]; eassumption.
      - inversion H; subst; [inversion H0|]. apply sr_out; [eapply orel_trans|eapply (rs_trans _ _ _ RS)]; eassumption.
    Qed.

    Lemma bnd_rel r r' f f' :
      rrel r r' -> (forall x y w w', vrel x y -> wrel w w' -> rrel (f x w) (f' y w')) -> rrel (bnd _ r f) (bnd _ r' f').
    Proof.
      intros H K. destruct r as [o w], r' as [o' w']. destruct H as [H|[H1 H2]]; cbn in *.
      - subst. apply rrel_stuck.
      - inversion H1; subst; cbn; try (apply rrel_mk; assumption). auto.
    Qed.
    Lemma finish_rel r r' : rrel r r' -> rrel (finish _ r) (finish _ r').
    Proof.
      intros H. destruct r as [o w], r' as [o' w']. destruct H as [H|[H1 H2]]; cbn in *.
      - subst. apply rrel_stuck.
      - inversion H1; subst; cbn; try apply rrel_stuck; apply rrel_mk; try assumption. constructor. assumption.
    Qed.
    Lemma labelled_rel l r r' : rrel r r' -> rrel (labelled _ l r) (labelled _ l r').
    Proof.
      intros H. destruct l as [l|]; [|exact H]. destruct r as [o w], r' as [o' w']. destruct H as [H|[H1 H2]]; cbn in *.
      - subst. apply rrel_stuck.
      - inversion H1; subst; try (apply rrel_mk; assumption). destruct l0; [|apply rrel_mk; assumption].
        destruct (s =? l); apply rrel_mk; try assumption. constructor. assumption.
    Qed.
    Lemma iterate_rel k l f f' :
      (forall w w', wrel w w' -> rrel (f w) (f' w')) -> forall w w', wrel w w' -> rrel (iterate _ k l f w) (iterate _ k l f' w').
    Proof.
      intros F. induction k as [|k IH]; intros w w' HW; cbn [iterate]; [apply rrel_mk; [constructor|assumption]|].
      pose proof (F _ _ HW) as R. destruct (f w) as [o u], (f' w') as [o' u']. destruct R as [R|[R1 R2]]; cbn in *.
      - subst. apply rrel_stuck.
      - inversion R1; subst; try (apply rrel_mk; assumption); [auto| |].
        + destruct (catches l l0); apply rrel_mk; try assumption. constructor. assumption.
        + destruct (catches l l0); [auto|apply rrel_mk; assumption].
    Qed.

    Lemma pmatches_rel ps :
      Forall (fun p => forall x y w w', vrel x y -> wrel w w' -> prel (pmatch _ O p x w) (pmatch _ O p y w')) ps ->
      forall xs ys w w', vsrel xs ys -> wrel w w' ->
      prel (pmatches _ (pmatch _ O) ps xs w) (pmatches _ (pmatch _ O) ps ys w').
    Proof.
      induction 1 as [|p ps H _ IH]; intros xs ys w w' V HW; inversion V; subst; cbn [pmatches];
        try apply pr_stuck; [apply pr_yes; [constructor|assumption]|].
      pose proof (H _ _ _ _ H0 HW) as R. inversion R; subst; [apply pr_stuck|apply pr_no; assumption|].
      pose proof (IH _ _ _ _ H1 H5) as Q. inversion Q; subst; [apply pr_stuck|apply pr_no; assumption|].
      apply pr_yes; [apply erel_app; assumption|assumption].
    Qed.
    Lemma pmatch_rel : forall p x y w w', vrel x y -> wrel w w' -> prel (pmatch _ O p x w) (pmatch _ O p y w').
    Proof.
      apply (pat_all (fun p => forall x y w w', vrel x y -> wrel w w' -> prel (pmatch _ O p x w) (pmatch _ O p y w'))); cbn [pmatch].
      - intros. apply pr_yes; [constructor|assumption].
      - intros. apply pr_yes; [constructor; [assumption|constructor]|assumption].
      - intros q ps H x y w w' V HW. destruct (con_of q) as [c|].
        + destruct (vrel_head _ _ V) as [K|K].
          * destruct y; try discriminate. apply pr_stuck.
          * destruct x as [| | | | | | | |[]|], y as [| | | | | | | |[]|]; cbn in K; try contradiction; try apply pr_stuck.
            -- apply pr_no. assumption.
            -- destruct K as [-> K]. destruct (c =? c1); [|apply pr_no; assumption].
               apply pmatches_rel; [assumption|constructor; [assumption|constructor]|assumption].
        + pose proof (rs_fields _ _ _ RS q _ _ _ _ V HW) as F.
          destruct (o_fields W O q x w), (o_fields W O q y w'); try contradiction; [|apply pr_no; assumption].
          apply pmatches_rel; assumption.
      - intros. apply (rs_pat _ _ _ RS); assumption.
    Qed.

    Lemma cond_rel x y : vrel x y ->
      cond y = PStuck \/ (cond x = PNo /\ cond y = PNo) \/ exists bs bs', cond x = PYes bs /\ cond y = PYes bs' /\ erel bs bs'.
    Proof.
      intros V. destruct (vrel_head _ _ V) as [K|K].
      - destruct y; try discriminate. left. reflexivity.
      - destruct x as [| | | | | | | |[]|], y as [| | | | | | | |[]|]; cbn in K; try contradiction; cbn; auto.
        + subst. destruct b0; [right; right; exists [], []; repeat split; constructor|auto].
        + right. right. eauto.
    Qed.

    Section Level.
      Variable k : nat.
      Variable self : expr -> env -> W -> result W.
      Hypothesis SELF : forall t e e' en en' w w',
        ed_expr mk t e e' -> forallb clean t = true -> erel en en' -> wrel w w' -> rrel (self e en w) (self e' en' w').

      Notation ev := (ev W O mk k self).
      Notation ev_stmt := (ev_stmt W O mk k self).
      Notation ev_local := (ev_local W O mk k self).
      Notation ev_arm := (ev_arm W O mk k self).
      Notation ev_stmts := (ev_stmts W ev_stmt).
      Notation ev_arms := (ev_arms W ev_arm).

      Lemma apply_rel f f' l l' w w' : vrel f f' -> vsrel l l' -> wrel w w' ->
        rrel (apply_fn _ O self f l w) (apply_fn _ O self f' l' w').
      Proof.
        intros F L HW. unfold apply_fn. pose proof (peel_head _ _ F) as K.
        destruct (peel f) as [| | | | | | | |[]|], (peel f') as [| | | | | | | |[]|]; cbn in K; try contradiction; try apply rrel_stuck.
        - subst. inversion L; subst; [apply rrel_stuck|]. inversion H0; subst; [|apply rrel_stuck].
          apply rrel_mk; [constructor; constructor; assumption|assumption].
        - destruct K as [-> ->]. inversion L; subst; [apply rrel_stuck|]. inversion H0; subst; [|apply rrel_stuck].
          apply rrel_mk; [constructor; constructor; assumption|assumption].
        - destruct K as (-> & (t & E & C) & EN).
          assert (Q : prel (pmatches _ (pmatch _ O) ps0 l w) (pmatches _ (pmatch _ O) ps0 l' w')).
          { apply pmatches_rel; try assumption. apply Forall_forall. intros. apply pmatch_rel; assumption. }
          inversion Q; subst; try apply rrel_stuck. apply finish_rel. eapply SELF; try eassumption. apply erel_app; assumption.
      Qed.

      Lemma act_rel a a' w0 w0' : arel a a' -> rrel (run_act _ O self w0 a) (run_act _ O self w0' a').
      Proof.
        intros H. revert w0 w0'. induction H as [a|x y w w' V HW|w w' HW|f f' l l' w w' g g' F L HW _ IH]; intros w0 w0'; cbn [run_act].
        - apply rrel_stuck.
        - apply rrel_mk; [constructor; assumption|assumption].
        - apply rrel_mk; [constructor|assumption].
        - pose proof (apply_rel _ _ _ _ _ _ F L HW) as R.
          destruct (apply_fn _ O self f l w) as [o u], (apply_fn _ O self f' l' w') as [o' u'].
          destruct R as [R|[R1 R2]]; cbn in *; [subst; apply rrel_stuck|].
          inversion R1; subst; try (apply rrel_mk; assumption). apply IH; assumption.
      Qed.

      (** ** Equations *)

      Lemma ev_block pl a l b en w : ev pl (EBlock a l b) en w = labelled _ l (ev_stmts pl b en w).
      Proof. reflexivity. Qed.
      Lemma ev_match pl a s arms en w :
        ev pl (EMatch a s arms) en w = bnd _ (ev false s en w) (fun x w1 => ev_arms x arms en w1).
      Proof. reflexivity. Qed.
      Lemma ev_if pl a c t els en w : ev pl (EIf a c t els) en w =
        bnd _ (ev false c en w) (fun x w1 =>
          match cond x with
          | PYes bs => ev_stmts false t (bs ++ en) w1
          | PNo => match els with Some e2 => ev false e2 en w1 | None => (ONorm VUnit, w1) end
          | PStuck => (OStuck, w1)
          end).
      Proof. reflexivity. Qed.
      Lemma ev_loop pl a l b en w : ev pl (ELoop a l b) en w = iterate _ k l (fun w1 => ev_stmts false b en w1) w.
      Proof. reflexivity. Qed.
      Lemma ev_while pl a l c b en w : ev pl (EWhile a l c b) en w =
        iterate _ k l (fun w1 => bnd _ (ev false c en w1) (fun x w2 =>
          match cond x with
          | PYes bs => ev_stmts false b (bs ++ en) w2
          | PNo => (OBreak None VUnit, w2)
          | PStuck => (OStuck, w2)
          end)) w.
      Proof. reflexivity. Qed.
      Lemma ev_for pl a l p it b en w : ev pl (EFor a l p it b) en w =
        bnd _ (ev false it en w) (fun x w1 => bnd _ (act_in _ O self w1 (o_iter _ O x w1)) (fun i w2 =>
          iterate _ k l (fun w3 => bnd _ (act_in _ O self w3 (o_next _ O i w3)) (fun y w4 =>
            match y with
            | VCon _ z =>
                match pmatch _ O p z w4 with
                | (PYes bs, w5) => ev_stmts false b (bs ++ en) w5
                | (_, w5) => (OStuck, w5)
                end
            | VNone => (OBreak None VUnit, w4)
            | _ => (OStuck, w4)
            end)) w2)).
      Proof. reflexivity. Qed.
      Lemma ev_call pl a f args en w : ev pl (ECall a f args) en w =
        bnd _ (ev false f en w) (fun x w1 =>
          ev_list _ ev values (all _) args [] en w1 (fun xs w2 =>
            if is_fn x then apply_fn _ O self x xs w2 else act_in _ O self w2 (o_call _ O x xs w2))).
      Proof. reflexivity. Qed.
      Lemma ev_stmts_cons pl s r en w : ev_stmts pl (s :: r) en w =
        match ev_stmt (pl && match r with [] => true | _ => false end) s en w with
        | SGo _ bs x w1 => match r with [] => (ONorm x, w1) | _ => ev_stmts pl r (bs ++ en) w1 end
        | SOut _ o w1 => (o, w1)
        end.
      Proof. reflexivity. Qed.
      Lemma ev_arms_cons x a r en w : ev_arms x (a :: r) en w =
        match ev_arm x a en w with ATake _ res => res | ANext _ w1 => ev_arms x r en w1 end.
      Proof. reflexivity. Qed.
      Lemma ev_sexpr pl e semi en w :
        ev_stmt pl (SExpr e semi) en w = as_stmt _ [] (fun x => if semi then VUnit else x) (ev (pl && negb semi) e en w).
      Proof. reflexivity. Qed.

      Lemma ev_local_some a p t x d en w : ev_local (Local a p t (Some x) d) en w =
        match ev false x en w with
        | (ONorm v, w1) =>
            match pmatch _ O p v w1 with
            | (PYes bs, w2) => SGo _ bs VUnit w2
            | (PNo, w2) =>
                match d with
                | Some y => match ev false y en w2 with (ONorm _, w3) => SOut _ OStuck w3 | (o, w3) => SOut _ o w3 end
                | None => SOut _ OStuck w2
                end
            | (PStuck, w2) => SOut _ OStuck w2
            end
        | (o, w1) => SOut _ o w1
        end.
      Proof. reflexivity. Qed.
      Lemma ev_arm_eq x at_ p g b c en w : ev_arm x (Arm at_ p g b c) en w =
        match pmatch _ O p x w with
        | (PYes bs, w1) =>
            match g with
            | None => ATake _ (ev false b (bs ++ en) w1)
            | Some c =>
                match ev false c (bs ++ en) w1 with
                | (ONorm y, w2) =>
                    match cond y with
                    | PYes bs' => ATake _ (ev false b (bs' ++ bs ++ en) w2)
                    | PNo => ANext _ w2
                    | PStuck => ATake _ (OStuck, w2)
                    end
                | r => ATake _ r
                end
            end
        | (PNo, w1) => ANext _ w1
        | (PStuck, w1) => ATake _ (OStuck, w1)
        end.
      Proof. reflexivity. Qed.

      (** ** Relations on code *)

      Definition sim (e e' : expr) : Prop :=
        forall pl en en' w w', erel en en' -> wrel w w' -> rrel (ev pl e en w) (ev pl e' en' w').
      Definition sim_opt (o o' : option expr) : Prop :=
        match o, o' with Some x, Some y => sim x y | None, None => True | _, _ => False end.
      Definition sim0 (e e' : expr) : Prop :=
        forall en en' w w', erel en en' -> wrel w w' -> rrel (ev false e en w) (ev false e' en' w').
      Definition sim0_opt (o o' : option expr) : Prop :=
        match o, o' with Some x, Some y => sim0 x y | None, None => True | _, _ => False end.
      Lemma sim_0 e e' : sim e e' -> sim0 e e'.
      Proof. intros H en en' w w'. apply H. Qed.
      Lemma sim_opt_0 o o' : sim_opt o o' -> sim0_opt o o'.
      Proof. destruct o, o'; cbn; auto using sim_0. Qed.
      Definition sim_list (l l' : list expr) : Prop := Forall2 sim l l'.
      Definition sim_stmt (s s' : stmt) : Prop :=
        forall pl en en' w w', erel en en' -> wrel w w' -> srel (ev_stmt pl s en w) (ev_stmt pl s' en' w').
      Definition sim_stmts (s s' : list stmt) : Prop :=
        forall pl en en' w w', erel en en' -> wrel w w' -> rrel (ev_stmts pl s en w) (ev_stmts pl s' en' w').
      Definition sim_block (s s' : list stmt) : Prop :=
        forall en en' w w', erel en en' -> wrel w w' -> rrel (ev_stmts false s en w) (ev_stmts false s' en' w').
      Definition sim_local (s s' : local) : Prop :=
        forall en en' w w', erel en en' -> wrel w w' -> srel (ev_local s en w) (ev_local s' en' w').
      Definition takes (r r' : ares W) : Prop :=
        match r, r' with
        | _, ATake _ (OStuck, _) => True
        | ATake _ r, ATake _ r' => rrel r r'
        | ANext _ w, ANext _ w' => wrel w w'
        | _, _ => False
        end.
      Definition sim_arm (s s' : arm) : Prop :=
        forall x y en en' w w', vrel x y -> erel en en' -> wrel w w' -> takes (ev_arm x s en w) (ev_arm y s' en' w').
      Definition sim_arms (s s' : list arm) : Prop := Forall2 sim_arm s s'.

      Lemma takes_stuck r w : takes r (ATake _ (OStuck, w)).
      Proof. destruct r; exact I. Qed.
      Lemma takes_take r r' : rrel r r' -> takes (ATake _ r) (ATake _ r').
      Proof. intros H. cbn. destruct r' as [[] ?]; auto. Qed.
      Lemma takes_trans a b c : takes a b -> takes b c -> takes a c.
      Proof.
        destruct c as [rc|wc].
        - destruct rc as [oc wc]. destruct oc; try (intros; destruct a; exact I).
          all: destruct b as [rb|wb]; [|cbn; contradiction]; destruct rb as [ob wb].
          all: destruct ob; cbn; intros H K; destruct K as [K|[K1 K2]]; try discriminate; try (inversion K1; fail).
          all: destruct a as [ra|wa]; [|contradiction]; eapply rrel_trans; [exact H|right; split; assumption].
        - destruct b as [rb|wb]; cbn; [contradiction|]. intros H K. destruct a as [ra|wa]; [contradiction|].
          eapply (rs_trans _ _ _ RS); eassumption.
      Qed.

      (** ** Congruence *)

      Lemma sim_list_ev mode more es es' :
        sim_list es es' -> (forall l l' w w', vsrel l l' -> wrel w w' -> more l w = more l' w') ->
        forall got got' en en' w w' f f', vsrel got got' -> erel en en' -> wrel w w' ->
        (forall l l' w w', vsrel l l' -> wrel w w' -> rrel (f l w) (f' l' w')) ->
        rrel (ev_list _ ev mode more es got en w f) (ev_list _ ev mode more es' got' en' w' f').
      Proof.
        intros H MO. induction H as [|e e' r r' E _ IH]; intros got got' en en' w w' f f' GO EN HW F; cbn [ev_list].
        - apply F; assumption.
        - rewrite (MO _ _ _ _ GO HW). destruct (more got' w'); [|apply F; assumption].
          rewrite (vsrel_length _ _ GO). apply bnd_rel; [apply E; assumption|]. intros x y u u' V HU.
          apply IH; try assumption. apply vsrel_app; [assumption|]. constructor; [assumption|constructor].
      Qed.

      Lemma sim_stmts_block b b' : sim_stmts b b' -> sim_block b b'.
      Proof. intros H en en' w w'. apply H. Qed.

      Lemma c_stmts_nil : sim_stmts [] [].
      Proof. intros pl en en' w w' EN HW. apply rrel_mk; [constructor; constructor|assumption]. Qed.
      Lemma c_stmts_cons s s' b b' :
        sim_stmt s s' -> sim_stmts b b' -> (b = [] <-> b' = []) -> sim_stmts (s :: b) (s' :: b').
      Proof.
        intros S B N pl en en' w w' EN HW. rewrite !ev_stmts_cons.
        assert (X : (match b with [] => true | _ => false end) = (match b' with [] => true | _ => false end)).
        { destruct b, b'; try reflexivity; exfalso; [destruct N as [N _]|destruct N as [_ N]]; discriminate (N eq_refl). }
        rewrite X. pose proof (S (pl && match b' with [] => true | _ => false end) _ _ _ _ EN HW) as R.
        inversion R; subst; [apply rrel_stuck| |apply rrel_mk; assumption].
        destruct b; [rewrite (proj1 N eq_refl); apply rrel_mk; [constructor; assumption|assumption]|].
        destruct b'; [discriminate (proj2 N eq_refl)|]. apply B; [apply erel_app; assumption|assumption].
      Qed.
      Lemma c_block a a' l b b' : sim_stmts b b' -> sim (EBlock a l b) (EBlock a' l b').
      Proof. intros B pl en en' w w' EN HW. rewrite !ev_block. apply labelled_rel. apply B; assumption. Qed.
      Lemma c_blk a a' kd t b b' : sim_stmts b b' -> ed_stmts mk t b b' -> forallb clean t = true -> sim (EBlk kd a b) (EBlk kd a' b').
      Proof.
        intros B E C pl en en' w w' EN HW. destruct kd; cbn [Eval.ev]; try (apply B; assumption); [|apply rrel_stuck].
        apply rrel_mk; [|assumption]. constructor. eapply vr_clos; [constructor; exact E|exact C|exact EN].
      Qed.
      Lemma c_match a a' s s' arms arms' : sim s s' -> sim_arms arms arms' -> sim (EMatch a s arms) (EMatch a' s' arms').
      Proof.
        intros S A pl en en' w w' EN HW. rewrite !ev_match. apply bnd_rel; [apply S; assumption|].
        intros x y u u' V HU. clear S HW w w'. revert u u' HU.
        induction A as [|m m' r r' H _ IH]; intros u u' HU; [apply rrel_stuck|rewrite !ev_arms_cons].
        pose proof (H _ _ _ _ _ _ V EN HU) as T. unfold takes in T.
        destruct (ev_arm x m en u) as [r1|w1], (ev_arm y m' en' u') as [[o2 w2]|w2].
        - destruct o2; try exact T. apply rrel_stuck.
        - contradiction.
        - destruct o2; try contradiction. apply rrel_stuck.
        - apply IH. exact T.
      Qed.
      Lemma c_if a a' c c' b b' o o' : sim c c' -> sim_block b b' -> sim0_opt o o' -> sim (EIf a c b o) (EIf a' c' b' o').
      Proof.
        intros C B E pl en en' w w' EN HW. rewrite !ev_if. apply bnd_rel; [apply C; assumption|].
        intros x y u u' V HU. destruct (cond_rel _ _ V) as [K|[[K1 K2]|(bs & bs' & K1 & K2 & K3)]].
        - rewrite K. apply rrel_stuck.
        - rewrite K1, K2. destruct o, o'; cbn in E; try contradiction; [apply E; assumption|].
          apply rrel_mk; [constructor; constructor|assumption].
        - rewrite K1, K2. apply B; [apply erel_app; assumption|assumption].
      Qed.
      Lemma c_let a a' p e e' : sim e e' -> sim (ELet a p e) (ELet a' p e').
      Proof.
        intros E pl en en' w w' EN HW. cbn [Eval.ev]. apply bnd_rel; [apply E; assumption|].
        intros x y u u' V HU. pose proof (pmatch_rel p _ _ _ _ V HU) as R. inversion R; subst; [apply rrel_stuck| |];
          apply rrel_mk; try assumption; constructor; constructor. assumption.
      Qed.
      Lemma c_loop a a' l b b' : sim_block b b' -> sim (ELoop a l b) (ELoop a' l b').
      Proof. intros B pl en en' w w' EN HW. rewrite !ev_loop. apply iterate_rel; [|assumption]. intros. apply B; assumption. Qed.
      Lemma c_while a a' l c c' b b' : sim c c' -> sim_block b b' -> sim (EWhile a l c b) (EWhile a' l c' b').
      Proof.
        intros C B pl en en' w w' EN HW. rewrite !ev_while. apply iterate_rel; [|assumption]. intros u u' HU.
        apply bnd_rel; [apply C; assumption|].
        intros x y z z' V HZ. destruct (cond_rel _ _ V) as [K|[[K1 K2]|(bs & bs' & K1 & K2 & K3)]].
        - rewrite K. apply rrel_stuck.
        - rewrite K1, K2. apply rrel_mk; [constructor; constructor|assumption].
        - rewrite K1, K2. apply B; [apply erel_app; assumption|assumption].
      Qed.
      Lemma c_for a a' l p it it' b b' : sim it it' -> sim_block b b' -> sim (EFor a l p it b) (EFor a' l p it' b').
      Proof.
        intros C B pl en en' w w' EN HW. rewrite !ev_for. apply bnd_rel; [apply C; assumption|]. intros x y u u' V HU.
        apply bnd_rel; [apply act_rel; apply (rs_iter _ _ _ RS); assumption|]. intros i j z z' VI HZ.
        apply iterate_rel; [|assumption]. intros z1 z1' HZ1.
        apply bnd_rel; [apply act_rel; apply (rs_next _ _ _ RS); assumption|]. intros q q' z2 z2' VQ HZ2.
        destruct (vrel_head _ _ VQ) as [K|K]; [destruct q'; try discriminate; apply rrel_stuck|].
        destruct q as [| | | | | | | |[]|], q' as [| | | | | | | |[]|]; cbn in K; try contradiction; try apply rrel_stuck.
        - apply rrel_mk; [constructor; constructor|assumption].
        - destruct K as [-> K]. pose proof (pmatch_rel p _ _ _ _ K HZ2) as R. inversion R; subst; try apply rrel_stuck.
          apply B; [apply erel_app; assumption|assumption].
      Qed.
      Lemma c_break a a' l o o' : sim_opt o o' -> sim (EBreak a l o) (EBreak a' l o').
      Proof.
        intros E pl en en' w w' EN HW. destruct o, o'; cbn in E; try contradiction; cbn [Eval.ev].
        - apply bnd_rel; [apply E; assumption|]. intros. apply rrel_mk; [constructor|]; assumption.
        - apply rrel_mk; [constructor; constructor|assumption].
      Qed.
      Lemma c_return a a' o o' : sim_opt o o' -> sim (EReturn a o) (EReturn a' o').
      Proof.
        intros E pl en en' w w' EN HW. destruct o, o'; cbn in E; try contradiction; cbn [Eval.ev].
        - apply bnd_rel; [apply E; assumption|]. intros. apply rrel_mk; [constructor|]; assumption.
        - apply rrel_mk; [constructor; constructor|assumption].
      Qed.
      Lemma c_try a a' e e' : sim e e' -> sim (ETry a e) (ETry a' e').
      Proof.
        intros E pl en en' w w' EN HW. cbn [Eval.ev]. apply bnd_rel; [apply E; assumption|].
        intros x y u u' V HU. destruct (vrel_head _ _ V) as [K|K]; [destruct y; try discriminate; apply rrel_stuck|].
        destruct x as [| | | | | | | |[]|], y as [| | | | | | | |[]|]; cbn in K; try contradiction; try apply rrel_stuck.
        - apply rrel_mk; [constructor; constructor|assumption].
        - destruct K as [-> K]. destruct (c0 =? "Err"); apply rrel_mk; try assumption; constructor; assumption.
      Qed.
      Lemma c_closure a a' ps t b b' : ed_expr mk t b b' -> forallb clean t = true -> sim (EClosure a ps b) (EClosure a' ps b').
      Proof.
        intros E C pl en en' w w' EN HW. cbn [Eval.ev]. apply rrel_mk; [|assumption]. constructor. eapply vr_clos; eassumption.
      Qed.
      Lemma c_macro a a' p o : sim_opt o o -> sim (EMacro a (Mac p o)) (EMacro a' (Mac p o)).
      Proof.
        intros E pl en en' w w' EN HW. cbn [Eval.ev]. destruct (is_marker mk p).
        - destruct o; cbn in E; [apply E; assumption|apply rrel_stuck].
        - destruct (panic_of p); [apply rrel_mk; [constructor|assumption]|].
          apply act_rel. apply (rs_macro _ _ _ RS); assumption.
      Qed.
      Lemma c_method a a' r r' m l l' : sim r r' -> sim_list l l' -> sim (EMethodCall a r m l) (EMethodCall a' r' m l').
      Proof.
        intros R L pl en en' w w' EN HW. cbn [Eval.ev]. apply bnd_rel; [apply R; assumption|]. intros x y u u' V HU.
        apply sim_list_ev; try assumption; [reflexivity|constructor|]. intros xs ys z z' VS HZ.
        apply act_rel. apply (rs_method _ _ _ RS); [constructor; assumption|assumption].
      Qed.
      Lemma c_paren a a' e e' : sim e e' -> sim (EParen a e) (EParen a' e').
      Proof. intros E pl en en' w w' EN HW. cbn [Eval.ev]. apply E; assumption. Qed.
      Lemma c_call a a' r r' l l' : sim r r' -> sim_list l l' -> sim (ECall a r l) (ECall a' r' l').
      Proof.
        intros R L pl en en' w w' EN HW. rewrite !ev_call. apply bnd_rel; [apply R; assumption|]. intros x y u u' V HU.
        apply sim_list_ev; try assumption; [reflexivity|constructor|]. intros xs ys z z' VS HZ.
        rewrite (is_fn_rel _ _ V). destruct (is_fn y); [apply apply_rel; assumption|].
        apply act_rel. apply (rs_call _ _ _ RS); assumption.
      Qed.
      Lemma c_path a a' q p : sim (EPath a q p) (EPath a' q p).
      Proof.
        intros pl en en' w w' EN HW. cbn [Eval.ev].
        destruct (con_of p); [apply rrel_mk; [constructor; constructor|assumption]|].
        destruct (none_of p); [apply rrel_mk; [constructor; constructor|assumption]|].
        destruct (variant_of p) as [[]|]; [apply rrel_mk; [constructor; constructor|assumption]|].
        destruct (var_of p) as [x|].
        - pose proof (lookup_rel x _ _ EN) as L. destruct (lookup x en) as [[b v]|], (lookup x en') as [[b' v']|]; try contradiction.
          + destruct L as [-> L]. destruct b'; apply rrel_mk; try assumption; constructor; [|assumption].
            destruct pl; [assumption|]. apply (rs_use _ _ _ RS); assumption.
          + apply rrel_mk; [constructor; apply (rs_global _ _ _ RS); assumption|assumption].
        - apply rrel_mk; [constructor; apply (rs_global _ _ _ RS); assumption|assumption].
      Qed.
      Lemma c_other a a' kd l l' : sim_list l l' -> sim (EOther a kd l) (EOther a' kd l').
      Proof.
        intros L pl en en' w w' EN HW. cbn [Eval.ev]. inversion L; subst.
        - destruct (kd =? "Tuple"); [apply rrel_mk; [constructor; constructor|assumption]|].
          apply act_rel. apply (rs_other _ _ _ RS); [constructor|assumption].
        - apply sim_list_ev; try assumption; [|constructor|].
          + intros. apply (rs_more _ _ _ RS); assumption.
          + intros. apply act_rel. apply (rs_other _ _ _ RS); assumption.
      Qed.
      Lemma c_verbatim s : sim (EVerbatim s) (EVerbatim s).
      Proof. intros pl en en' w w' EN HW. cbn [Eval.ev]. apply act_rel. apply (rs_verbatim _ _ _ RS); assumption. Qed.

      Lemma as_stmt_rel bs bs' f r r' : erel bs bs' -> (forall x y, vrel x y -> vrel (f x) (f y)) -> rrel r r' ->
        srel (as_stmt _ bs f r) (as_stmt _ bs' f r').
      Proof.
        intros B F R. destruct r as [o w], r' as [o' w']. destruct R as [R|[R1 R2]]; cbn in *.
        - subst. apply sr_stuck.
        - inversion R1; subst; cbn; try (apply sr_out; assumption). apply sr_go; auto.
      Qed.
      Lemma semi_rel (semi : bool) x y : vrel x y -> vrel (if semi then VUnit else x) (if semi then VUnit else y).
      Proof. destruct semi; [constructor|auto]. Qed.

      Lemma c_sexpr e e' semi : sim e e' -> sim_stmt (SExpr e semi) (SExpr e' semi).
      Proof.
        intros E pl en en' w w' EN HW. cbn [Eval.ev_stmt].
        apply as_stmt_rel; [constructor|intros; apply semi_rel; assumption|apply E; assumption].
      Qed.
      Lemma c_smacro a p o semi : sim_opt o o -> sim_stmt (SMacro a (Mac p o) semi) (SMacro a (Mac p o) semi).
      Proof.
        intros E pl en en' w w' EN HW. cbn [Eval.ev_stmt].
        apply as_stmt_rel; [constructor|intros; apply semi_rel; assumption|]. apply (c_macro [] [] _ _ E false); assumption.
      Qed.
      Lemma c_slocal l l' : sim_local l l' -> sim_stmt (SLocal l) (SLocal l').
      Proof. intros E pl en en' w w' EN HW. cbn [Eval.ev_stmt]. apply E; assumption. Qed.
      Lemma c_sitem i : sim_stmt (SItem i) (SItem i).
      Proof. intros pl en en' w w' EN HW. cbn [Eval.ev_stmt]. apply sr_go; [constructor|constructor|assumption]. Qed.

      Lemma c_local a a' p t t' i i' d d' : sim_opt i i' -> sim_opt d d' -> sim_local (Local a p t i d) (Local a' p t' i' d').
      Proof.
        intros E D en en' w w' EN HW. destruct i as [x|], i' as [x'|]; cbn in E; try contradiction.
        - rewrite !ev_local_some. pose proof (E false _ _ _ _ EN HW) as R. destruct (ev false x en w) as [o u], (ev false x' en' w') as [o' u'].
          destruct R as [R|[R1 R2]]; cbn in *; [subst; apply sr_stuck|].
          inversion R1; subst; try (apply sr_out; assumption).
          pose proof (pmatch_rel p _ _ _ _ H R2) as Q. inversion Q; subst; [apply sr_stuck| |apply sr_go; [assumption|constructor|assumption]].
          destruct d as [z|], d' as [z'|]; cbn in D; try contradiction; [|apply sr_stuck].
          pose proof (D false _ _ _ _ EN H2) as RD. destruct (ev false z en w0) as [o v], (ev false z' en' w'0) as [o' v'].
          destruct RD as [RD|[RD1 RD2]]; cbn in *; [subst; apply sr_stuck|].
          inversion RD1; subst; try (apply sr_out; assumption). apply sr_stuck.
        - cbn [Eval.ev_local]. destruct (rs_decl _ _ _ RS _ _ HW) as [D1 D2].
          destruct (o_decl W O w) as [v u], (o_decl W O w') as [v' u']. cbn in D1, D2.
          destruct p; try apply sr_stuck. apply sr_go; [constructor; [assumption|constructor]|constructor|assumption].
      Qed.

      Lemma c_arm a a' p g g' b b' c c' : sim_opt g g' -> sim0 b b' -> sim_arm (Arm a p g b c) (Arm a' p g' b' c').
      Proof.
        intros GD B x y en en' w w' V EN HW. rewrite !ev_arm_eq.
        pose proof (pmatch_rel p _ _ _ _ V HW) as Q. inversion Q; subst; [apply takes_stuck|exact H1|].
        destruct g as [z|], g' as [z'|]; cbn in GD; try contradiction.
        - assert (EN1 : erel (bs ++ en) (bs' ++ en')) by (apply erel_app; assumption).
          pose proof (GD false _ _ _ _ EN1 H2) as R. destruct (ev false z (bs ++ en) w0) as [o u], (ev false z' (bs' ++ en') w'0) as [o' u'].
          destruct R as [R|[R1 R2]]; cbn in *; [subst; apply takes_stuck|].
          inversion R1; subst; try (apply takes_take; apply rrel_mk; assumption).
          destruct (cond_rel _ _ H3) as [K|[[K1 K2]|(cs & cs' & K1 & K2 & K3)]].
          + rewrite K. apply takes_stuck.
          + rewrite K1, K2. exact R2.
          + rewrite K1, K2. apply takes_take. apply B; [apply erel_app; assumption|assumption].
        - apply takes_take. apply B; [apply erel_app; assumption|assumption].
      Qed.

      (** ** Reflexivity *)

      Lemma sim_refl4 :
        (forall e, sim e e) /\ (forall s, sim_stmt s s) /\ (forall x, sim_arm x x) /\ (forall l, sim_local l l).
      Proof.
        assert (OP : forall o, opt_all (fun e => sim e e) o -> sim_opt o o) by (destruct o; cbn; auto).
        assert (LI : forall l, Forall (fun e => sim e e) l -> sim_list l l) by (induction 1; constructor; assumption).
        assert (LA : forall l, Forall (fun e => sim_arm e e) l -> sim_arms l l) by (induction 1; constructor; assumption).
        assert (BL : forall b, Forall (fun s => sim_stmt s s) b -> sim_stmts b b).
        { induction 1; [apply c_stmts_nil|apply c_stmts_cons; [assumption|assumption|reflexivity]]. }
        assert (ES : forall b, ed_stmts mk [] b b).
        { intros b. induction b as [|s b IH]; [constructor|]. change (@nil label) with (@nil label ++ @nil label).
          constructor; [|assumption]. destruct s; try (repeat constructor; fail). constructor. destruct l.
          change (@nil label) with (@nil label ++ @nil label). constructor; [destruct init|destruct div]; repeat constructor. }
        apply ast_ind; intros.
        - apply c_block. auto.
        - eapply c_blk; [auto|apply ES|reflexivity].
        - apply c_match; auto.
        - apply c_if; auto using sim_opt_0. apply sim_stmts_block. auto.
        - apply c_let; auto.
        - apply c_loop. apply sim_stmts_block. auto.
        - apply c_while; auto. apply sim_stmts_block. auto.
        - apply c_for; auto. apply sim_stmts_block. auto.
        - apply c_break. auto.
        - intros pl en en' w w' EN HW. apply rrel_mk; [constructor|assumption].
        - apply c_return. auto.
        - apply c_try. auto.
        - eapply c_closure; [constructor|reflexivity].
        - apply c_macro. auto.
        - apply c_method; auto.
        - apply c_paren; auto.
        - apply c_call; auto.
        - apply c_path.
        - apply c_other. auto.
        - apply c_verbatim.
        - apply c_slocal; auto.
        - apply c_sitem.
        - apply c_sexpr; auto.
        - apply c_smacro; auto.
        - apply c_local; auto.
        - apply c_arm; auto using sim_0.
      Qed.
      Lemma sim_refl e : sim e e.
      Proof. apply sim_refl4. Qed.
      Lemma sim_arm_refl e : sim_arm e e.
      Proof. apply sim_refl4. Qed.
      Lemma sim_local_refl e : sim_local e e.
      Proof. apply sim_refl4. Qed.
      Lemma sim_opt_refl o : sim_opt o o.
      Proof. destruct o; cbn; [apply sim_refl|exact I]. Qed.
      Lemma sim_stmts_refl b : sim_stmts b b.
      Proof. induction b; [apply c_stmts_nil|apply c_stmts_cons; [apply sim_refl4|assumption|reflexivity]]. Qed.

      Lemma sim_trans a b c : sim a b -> sim b c -> sim a c.
      Proof.
        intros H K pl en en' w w' EN HW. eapply rrel_trans; [apply H; eassumption|].
        apply K; [apply erel_refl|apply (rs_refl _ _ _ RS)].
      Qed.
      Lemma sim_stmts_trans a b c : sim_stmts a b -> sim_stmts b c -> sim_stmts a c.
      Proof.
        intros H K pl en en' w w' EN HW. eapply rrel_trans; [apply H; eassumption|].
        apply K; [apply erel_refl|apply (rs_refl _ _ _ RS)].
      Qed.
      Lemma sim_arm_trans a b c : sim_arm a b -> sim_arm b c -> sim_arm a c.
      Proof.
        intros H K x y en en' w w' V EN HW. eapply takes_trans; [apply H; eassumption|].
        apply K; [apply vrel_refl|apply erel_refl|apply (rs_refl _ _ _ RS)].
      Qed.
      Lemma sim_local_trans a b c : sim_local a b -> sim_local b c -> sim_local a c.
      Proof.
        intros H K en en' w w' EN HW. eapply srel_trans; [apply H; eassumption|].
        apply K; [apply erel_refl|apply (rs_refl _ _ _ RS)].
      Qed.

      (** ** The edits *)

      Lemma ids_length l l' : length l <> length l' -> ids_eqb l l' = false.
      Proof. intros H. unfold ids_eqb. destruct (list_eq_dec string_dec l l'); [subst; contradiction|reflexivity]. Qed.
      Lemma named_two i v m n : length m <> 0 -> named (ctor i v) m n = false.
      Proof.
        intros H. unfold named. change (path_ids (ctor i v)) with [i; v].
        rewrite !ids_length; [reflexivity|..]; cbn; rewrite ?app_length; cbn; lia.
      Qed.
      Lemma ctor_eval pl i v a q en w : gen_name i = true -> ev pl (EPath a q (ctor i v)) en w = (ONorm (VWrapF i v), w).
      Proof.
        intros G. cbn [Eval.ev]. unfold con_of, none_of. rewrite !named_two by (cbn; lia).
        unfold variant_of. change (path_ids (ctor i v)) with [i; v]. cbv beta iota. rewrite G. reflexivity.
      Qed.
      Lemma call_ctor_eval pl a i v e en w : gen_name i = true ->
        ev pl (ECall a (EPath [] false (ctor i v)) [e]) en w = bnd _ (ev false e en w) (fun x w1 => (ONorm (VWrap i v x), w1)).
      Proof.
        intros G. change (bnd W (ev false (EPath [] false (ctor i v)) en w) (fun x w1 =>
              ev_list W ev (values) (all W) [e] [] en w1 (fun xs w2 =>
                if is_fn x then apply_fn W O self x xs w2 else act_in W O self w2 (o_call W O x xs w2)))
          = bnd W (ev false e en w) (fun x w1 => (ONorm (VWrap i v x), w1))).
        rewrite ctor_eval by assumption. cbn [bnd]. unfold ev_list. cbn [values all length].
        unfold values, all. destruct (ev false e en w) as [[] u]; reflexivity.
      Qed.
      Lemma wrap_rel r r' i v : rrel r r' -> rrel r (bnd _ r' (fun x w1 => (ONorm (VWrap i v x), w1))).
      Proof.
        intros R. destruct r as [o w], r' as [o' w']. destruct R as [R|[R1 R2]]; cbn in *; [subst; apply rrel_stuck|].
        inversion R1; subst; cbn; apply rrel_mk; try assumption. constructor. apply vr_wrapped. assumption.
      Qed.

      Lemma s_wrap a i v e : gen_name i = true -> sim0 e (ECall a (EPath [] false (ctor i v)) [e]).
      Proof.
        intros G en en' w w' EN HW. rewrite call_ctor_eval by assumption. apply wrap_rel. apply sim_refl; assumption.
      Qed.

      Lemma s_wrap_branch i v b : gen_name i = true -> sim_block b (wrap_branch i v b).
      Proof.
        intros G en en' w w' EN HW. unfold wrap_branch.
        rewrite ev_stmts_cons, ev_sexpr. cbn [andb].
        assert (R : rrel (ev_stmts false b en w) (ev false (wrap i v (EBlock [] None b)) en' w')).
        { unfold wrap. rewrite call_ctor_eval by assumption. apply wrap_rel. rewrite ev_block. cbn [labelled].
          apply sim_stmts_refl; assumption. }
        destruct (ev false (wrap i v (EBlock [] None b)) en' w') as [[] u]; cbn; exact R.
      Qed.

      Lemma s_question i v a e : gen_name i = true -> sim (ETry a e) (EMatch a e (question_arms i v)).
      Proof.
        intros G pl en en' w w' EN HW. cbn [Eval.ev]. apply bnd_rel; [apply sim_refl; assumption|].
        intros x y u u' V HU. destruct (vrel_head _ _ V) as [K|K]; [destruct y; try discriminate; apply rrel_stuck|].
        destruct x as [| | | | | | | |[]|], y as [| | | | | | | |[]|]; cbn in K; try contradiction; try apply rrel_stuck.
        destruct K as [-> K]. rename c0 into c. unfold question_arms. cbn [Eval.ev_arms Eval.ev_arm pmatch].
        change (con_of (result_ctor "Ok")) with (Some "Ok"). change (con_of (result_ctor "Err")) with (Some "Err"). cbv beta iota.
        destruct ("Ok" =? c) eqn:C1.
        - apply String.eqb_eq in C1. subst c. cbn. apply rrel_mk; [constructor; assumption|assumption].
        - destruct ("Err" =? c) eqn:C2.
          + apply String.eqb_eq in C2. subst c. cbn [String.eqb Ascii.eqb Bool.eqb]. cbn [pmatches pmatch].
            set (en1 := ([] ++ [("err", (false, y))]) ++ en').
            change (rrel (ORet (VCon "Err" x), u)
              (match (as_stmt W [] (fun x0 => VUnit) (ev (false && negb true)
                       (EReturn [] (Some (ECall [] (EPath [] false (result_ctor "Err")) [wrap i v (EPath [] false (plain_path ["err"]))]))) en1 u')) with
                | SGo _ bs x0 w1 => (ONorm x0, w1) | SOut _ o w1 => (o, w1) end)).
            assert (X : ev (false && negb true) (EReturn [] (Some (ECall [] (EPath [] false (result_ctor "Err")) [wrap i v (EPath [] false (plain_path ["err"]))]))) en1 u'
              = (ORet (VCon "Err" (VWrap i v y)), u')).
            { change (bnd W (bnd W (ev false (wrap i v (EPath [] false (plain_path ["err"]))) en1 u') (fun x w1 => (ONorm (VCon "Err" x), w1)))
                (fun v0 w1 => (ORet v0, w1)) = (ORet (VCon "Err" (VWrap i v y)), u')).
              unfold wrap. rewrite call_ctor_eval by assumption. reflexivity. }
            rewrite X. cbn. apply rrel_mk; [|assumption]. constructor. constructor. apply vr_wrapped. assumption.
          + apply rrel_stuck.
      Qed.

      Lemma s_enum i n d e : sim e (EBlock [] None [SItem (IEnum (enum_of i (variants n) d)); SExpr e false]).
      Proof.
        intros pl en en' w w' EN HW. rewrite ev_block, ev_stmts_cons. cbn [labelled Eval.ev_stmt]. rewrite ev_stmts_cons, ev_sexpr. cbn [app negb].
        rewrite !andb_true_r. pose proof (sim_refl e pl _ _ _ _ EN HW) as R.
        destruct (ev pl e en' w') as [[] u]; cbn; exact R.
      Qed.

      Lemma set_attrs_eval pl e a en w : ev pl (set_attrs e a) en w = ev pl e en w.
      Proof. destruct e; reflexivity. Qed.

      Lemma clean_app t1 t2 : forallb clean (t1 ++ t2) = true -> forallb clean t1 = true /\ forallb clean t2 = true.
      Proof. rewrite forallb_app. apply andb_prop. Qed.
      Lemma clean_one i v : forallb clean [LWrap i v] = true -> gen_name i = true.
      Proof. cbn. rewrite andb_true_r. auto. Qed.

      (** The value of [break] or [return]. *)
      Lemma s_operand i v o : gen_name i = true -> forall en en' w w', erel en en' -> wrel w w' ->
        rrel (ev false (operand o) en w) (ev false (wrap i v (operand o)) en' w').
      Proof. intros G en en' w w' EN HW. apply s_wrap; assumption. Qed.
      Lemma break_rel r l r' : rrel r r' ->
        rrel (bnd _ r (fun v w1 => (OBreak l v, w1))) (bnd _ r' (fun v w1 => (OBreak l v, w1))).
      Proof. intros R. apply bnd_rel; [exact R|]. intros. apply rrel_mk; [constructor|]; assumption. Qed.
      Lemma return_rel r r' : rrel r r' ->
        rrel (bnd _ r (fun v w1 => (ORet v, w1))) (bnd _ r' (fun v w1 => (ORet v, w1))).
      Proof. intros R. apply bnd_rel; [exact R|]. intros. apply rrel_mk; [constructor|]; assumption. Qed.
      Lemma marker_is p m : mk m = true -> is_ident p m = true -> is_marker mk p = true.
      Proof.
        intros M. unfold is_ident, is_marker. destruct p as [[] [|[i []] []]]; try discriminate.
        intros E. apply String.eqb_eq in E. subst. exact M.
      Qed.

      Theorem sim_edits :
        (forall t e e', ed_expr mk t e e' -> forallb clean t = true -> sim e e')
        /\ (forall t l l', ed_exprs mk t l l' -> forallb clean t = true -> sim_list l l')
        /\ (forall t o o', ed_opt mk t o o' -> forallb clean t = true -> sim_opt o o')
        /\ (forall t s s', ed_stmt mk t s s' -> forallb clean t = true -> sim_stmt s s')
        /\ (forall t b b', ed_stmts mk t b b' -> forallb clean t = true -> sim_stmts b b' /\ (b = [] <-> b' = []))
        /\ (forall t x x', ed_arm mk t x x' -> forallb clean t = true -> sim_arm x x')
        /\ (forall t l l', ed_arms mk t l l' -> forallb clean t = true -> sim_arms l l')
        /\ (forall t l l', ed_local mk t l l' -> forallb clean t = true -> sim_local l l').
      Proof.
        apply ed_ind; intros;
          repeat match goal with H : forallb clean (_ ++ _) = true |- _ => apply clean_app in H; destruct H end;
          repeat match goal with H : forallb clean ?t = true -> _, K : forallb clean ?t = true |- _ => specialize (H K) end;
          try match goal with H : forallb clean [LWrap _ _] = true |- _ => apply clean_one in H end;
          repeat match goal with H : sim_stmts _ _ /\ _ |- _ => destruct H end.
        - apply sim_refl.
        - eapply sim_trans; eassumption.
        - intros pl en en' w w' EN HW. rewrite set_attrs_eval. apply sim_refl; assumption.
        - apply c_if; [apply sim_refl|apply s_wrap_branch; assumption|apply sim_opt_0; apply sim_opt_refl].
        - apply c_if; [apply sim_refl|apply sim_stmts_block; apply sim_stmts_refl|].
          intros en en' w w' EN HW. cbn [Eval.ev]. apply labelled_rel. apply s_wrap_branch; assumption.
        - intros pl en en' w w' EN HW. pose proof (s_operand i v o H en en' w w' EN HW) as R.
          destruct o; cbn [Eval.ev] in *; exact (break_rel _ l _ R).
        - intros pl en en' w w' EN HW. pose proof (s_operand i v o H en en' w w' EN HW) as R.
          destruct o; cbn [Eval.ev] in *; exact (return_rel _ _ R).
        - apply s_question. assumption.
        - intros pl en en' w w' EN HW. rewrite call_ctor_eval by assumption. cbn [Eval.ev].
          rewrite (marker_is p m) by assumption. apply wrap_rel. apply sim_refl; assumption.
        - discriminate.
        - discriminate.
        - cbn in H0. rewrite andb_true_r in H0. apply andb_prop in H0. destruct H0 as [_ H0].
          eapply sim_trans; [apply H; exact H0|]. apply s_enum.
        - apply c_block. assumption.
        - eapply c_blk; eassumption.
        - apply c_match; assumption.
        - apply c_if; [assumption|apply sim_stmts_block; assumption|apply sim_opt_0; assumption].
        - apply c_let; assumption.
        - apply c_loop. apply sim_stmts_block. assumption.
        - apply c_while; [assumption|apply sim_stmts_block; assumption].
        - apply c_for; [assumption|apply sim_stmts_block; assumption].
        - apply c_break; assumption.
        - apply c_return; assumption.
        - apply c_try; assumption.
        - eapply c_closure; eassumption.
        - apply c_method; assumption.
        - apply c_paren; assumption.
        - apply c_call; assumption.
        - apply c_other; assumption.
        - constructor.
        - constructor; assumption.
        - exact I.
        - assumption.
        - apply c_sitem.
        - destruct m. apply c_smacro. apply sim_opt_refl.
        - apply c_slocal; assumption.
        - apply c_sexpr; assumption.
        - split; [apply c_stmts_nil|reflexivity].
        - split; [apply c_stmts_cons; assumption|split; discriminate].
        - split; [eapply sim_stmts_trans; eassumption|]. etransitivity; eassumption.
        - eapply sim_arm_trans; eassumption.
        - apply c_arm; [apply sim_opt_refl|apply sim_0; apply sim_refl].
        - apply c_arm; [apply sim_opt_refl|apply s_wrap; assumption].
        - apply c_arm; [assumption|apply sim_0; assumption].
        - constructor.
        - constructor; assumption.
        - eapply sim_local_trans; eassumption.
        - apply c_local; apply sim_opt_refl.
        - apply c_local; apply sim_opt_refl.
        - apply c_local; assumption.
      Qed.
    End Level.

    (** ** Runs *)

    Theorem eval_rel : forall n t e e' en en' w w',
      ed_expr mk t e e' -> forallb clean t = true -> erel en en' -> wrel w w' ->
      rrel (eval _ O mk n e en w) (eval _ O mk n e' en' w').
    Proof.
      induction n as [|n IH]; intros t e e' en en' w w' E C EN HW; cbn [eval].
      - eapply (proj1 (sim_edits 0 _ _)); try eassumption.
      - eapply (proj1 (sim_edits (S n) (eval _ O mk n) IH)); eassumption.
      Unshelve. intros. apply rrel_mk; [constructor|assumption].
    Qed.

    Lemma calls_rel n t e e' en en' w w' :
      ed_expr mk t e e' -> forallb clean t = true -> erel en en' -> wrel w w' ->
      rrel (calls _ O mk n e en w) (calls _ O mk n e' en' w').
    Proof.
      destruct n as [|n]; cbn [calls]; intros; [apply rrel_mk; [constructor|assumption]|eapply eval_rel; eassumption].
    Qed.
    Lemma eval_stmt_rel n t s s' en en' w w' :
      ed_stmt mk t s s' -> forallb clean t = true -> erel en en' -> wrel w w' ->
      srel (eval_stmt _ O mk n s en w) (eval_stmt _ O mk n s' en' w').
    Proof.
      intros E C EN HW. pose proof (sim_edits n (calls _ O mk n) (calls_rel n)) as (_ & _ & _ & X & _).
      apply (X _ _ _ E C); assumption.
    Qed.
    Lemma eval_block_rel n t b b' en en' w w' :
      ed_stmts mk t b b' -> forallb clean t = true -> erel en en' -> wrel w w' ->
      rrel (eval_block _ O mk n b en w) (eval_block _ O mk n b' en' w').
    Proof.
      intros E C EN HW. pose proof (sim_edits n (calls _ O mk n) (calls_rel n)) as (_ & _ & _ & _ & X & _).
      apply (proj1 (X _ _ _ E C)); assumption.
    Qed.
    Lemma eval_body_rel n t b b' en en' w w' :
      ed_body mk t b b' -> forallb clean t = true -> erel en en' -> wrel w w' ->
      rrel (eval_block _ O mk n b en w) (eval_block _ O mk n b' en' w').
    Proof.
      intros E C EN HW. inversion E; subst.
      - eapply eval_block_rel; eassumption.
      - cbn in C. rewrite andb_true_r in C. apply andb_prop in C. destruct C as [_ C].
        pose proof (eval_block_rel n _ _ _ _ _ _ _ H C EN HW) as R.
        destruct b'0; cbn; exact R.
    Qed.

    Lemma id_stmt r r' : rrel r r' -> srel (as_stmt _ [] (fun x => x) r) (as_stmt _ [] (fun x => x) r').
    Proof. apply as_stmt_rel; [constructor|auto]. Qed.

    Theorem run_rel n t i i' en en' w w' :
      ed_input mk t i i' -> forallb clean t = true -> erel en en' -> wrel w w' ->
      srel (run_input _ O mk n i en w) (run_input _ O mk n i' en' w').
    Proof.
      intros E C EN HW. inversion E; subst.
      - apply id_stmt. eapply eval_rel; eassumption.
      - assert (X : forall s', ed_stmt mk t s s' ->
                   srel (eval_stmt _ O mk n s en w) (eval_stmt _ O mk n s' en' w'))
          by (intros; eapply eval_stmt_rel; eassumption).
        destruct s as [l|[fa sg fo b|g|it]|e semi|ma m semi]; try (inversion H; subst; apply X; exact H).
        inversion H; subst. apply id_stmt. apply finish_rel.
        eapply eval_body_rel with (t := []); try eassumption. apply eb_stmts.
        clear. induction b as [|s b IH]; [constructor|]. change (@nil label) with (@nil label ++ @nil label).
        constructor; [|assumption]. destruct s; try (repeat constructor; fail). constructor. destruct l.
        change (@nil label) with (@nil label ++ @nil label). constructor; [destruct init|destruct div]; repeat constructor.
      - apply id_stmt. apply finish_rel. eapply eval_body_rel; eassumption.
    Qed.
  End World.
End Value.
