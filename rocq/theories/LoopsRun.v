(** Proof: [breaks] (Tails.v) wraps exactly the [break]s of Loops.v. *)

Require Import Coq.Strings.String Coq.Lists.List Coq.Bool.Bool.
Require Import Verif.Syntax Verif.ExprModel Verif.Edits Verif.NoValueSpec Verif.Tails Verif.AstInd Verif.TwinEdits Verif.Loops.
Import ListNotations.
Open Scope string_scope.
Open Scope list_scope.

(** ** Folds over [parts] *)

Section Folds.
  Context {A B : Type} (plus : A -> A -> A) (zero : A) (plus' : B -> B -> B) (zero' : B) (S : list string -> A -> B -> Prop).
  Hypothesis S0 : S [] zero zero'.
  Hypothesis Sp : forall t1 t2 a a' b b', S t1 a a' -> S t2 b b' -> S (t1 ++ t2) (plus a b) (plus' a' b').

  Lemma fold_seq2 {C} (Q : list string -> C -> C -> Prop) (f : C -> A) (g : C -> B) t l l' :
    Forall (fun x => forall t y, Q t x y -> S t (f x) (g y)) l -> seq2 Q t l l' ->
    S t (fold_list plus zero f l) (fold_list plus' zero' g l').
  Proof.
    intros F H. induction H as [|t1 t2 x x' l l' H1 H2 IH]; cbn; [exact S0|]. inversion F; subst. apply Sp; auto.
  Qed.
  Lemma fold_maybe2 {C} (Q : list string -> C -> C -> Prop) (f : C -> A) (g : C -> B) t o o' :
    opt_all (fun x => forall t y, Q t x y -> S t (f x) (g y)) o -> maybe2 Q t o o' ->
    S t (fold_opt zero f o) (fold_opt zero' g o').
  Proof. intros F H. destruct H; cbn; auto. Qed.

  Variables (fe : expr -> A) (fs : stmt -> A) (fa : arm -> A) (fl : local -> A).
  Variables (ge : expr -> B) (gs : stmt -> B) (ga : arm -> B) (gl : local -> B).

  Lemma parts_fold (Re : list string -> expr -> expr -> Prop) (Rs : list string -> stmt -> stmt -> Prop)
      (Ra : list string -> arm -> arm -> Prop) t e e' :
    kids (fun x => forall t x', Re t x x' -> S t (fe x) (ge x')) (fun x => forall t x', Rs t x x' -> S t (fs x) (gs x'))
         (fun x => forall t x', Ra t x x' -> S t (fa x) (ga x')) e ->
    parts Re Rs Ra t e e' ->
    S t (fold_expr plus zero fe fs fa e) (fold_expr plus' zero' ge gs ga e').
  Proof.
    intros K H. destruct H; cbn [kids] in K; cbn [fold_expr];
      repeat match goal with H : _ /\ _ |- _ => destruct H end;
      repeat apply Sp; eauto using fold_seq2, fold_maybe2.
  Qed.
  Lemma arm_fold (Re : list string -> expr -> expr -> Prop) t x x' :
    match x with Arm _ _ g b _ => opt_all (fun e => forall t e', Re t e e' -> S t (fe e) (ge e')) g
                   /\ (forall t e', Re t b e' -> S t (fe b) (ge e')) end ->
    arm_parts Re t x x' -> S t (fold_arm plus zero fe x) (fold_arm plus' zero' ge x').
  Proof. intros K H. destruct H. destruct K. cbn. apply Sp; eauto using fold_maybe2. Qed.
  Lemma local_fold (Re : list string -> expr -> expr -> Prop) t x x' :
    match x with Local _ _ _ i d => opt_all (fun e => forall t e', Re t e e' -> S t (fe e) (ge e')) i
                   /\ opt_all (fun e => forall t e', Re t e e' -> S t (fe e) (ge e')) d end ->
    local_parts Re t x x' -> S t (fold_local plus zero fe x) (fold_local plus' zero' ge x').
  Proof. intros K H. destruct H. destruct K. cbn. apply Sp; eauto using fold_maybe2. Qed.
  Lemma stmt_fold (Re : list string -> expr -> expr -> Prop) (Rl : list string -> local -> local -> Prop) t s s' :
    match s with SExpr e _ => forall t e', Re t e e' -> S t (fe e) (ge e') | SLocal l => forall t l', Rl t l l' -> S t (fl l) (gl l')
    | _ => True end ->
    stmt_parts Re Rl t s s' -> S t (fold_stmt zero fe fl s) (fold_stmt zero' ge gl s').
  Proof. intros K H. destruct H; cbn; auto. Qed.
End Folds.

(** ** Lists of [break]s *)

Lemma seq2_cat {A} (R : list string -> A -> A -> Prop) t1 t2 l1 l1' l2 l2' :
  seq2 R t1 l1 l1' -> seq2 R t2 l2 l2' -> seq2 R (t1 ++ t2) (l1 ++ l2) (l1' ++ l2').
Proof. induction 1; cbn; intros H2; [exact H2|]. rewrite <- app_assoc. constructor; auto. Qed.
Lemma plain_iff name a : attr_plain name a = true <-> has_plain name a.
Proof.
  unfold attr_plain, has_plain. rewrite existsb_exists. split.
  - intros (x & I & E). destruct x as [p| |]; try discriminate. eauto.
  - intros (p & I & E). exists (MPath p). auto.
Qed.

Section Lists.
  Variables (own : string) (mk : string -> Prop) (l : option string).
  Let S (t : list string) := seq2 (break_done own mk l) t.

  Lemma searched_refl e : searched own mk l e e.
  Proof. left. reflexivity. Qed.

  (** The length does not depend on the place. *)
  Lemma break_free : 
    (forall e p q, break_list l p e = [] -> break_list l q e = [])
    /\ (forall e p q, break_list_stmt l p e = [] -> break_list_stmt l q e = [])
    /\ (forall e p q, break_list_arm l p e = [] -> break_list_arm l q e = [])
    /\ (forall e p q, break_list_local l p e = [] -> break_list_local l q e = []).
  Proof.
    assert (LE : forall (A : Type) (f : spot -> A -> list a_break) b p q, Forall (fun x => forall p q, f p x = [] -> f q x = []) b ->
      fold_list (@app _) [] (f p) b = [] -> fold_list (@app _) [] (f q) b = []).
    { intros A f b p q H. unfold fold_list. induction H as [|x b H1 H2 IH]; [reflexivity|]. cbn [fold_right]. intros E. apply app_eq_nil in E. destruct E as [E1 E2].
      rewrite (H1 _ q E1), (IH E2). reflexivity. }
    assert (OE : forall (f : spot -> expr -> list a_break) b p q, opt_all (fun x => forall p q, f p x = [] -> f q x = []) b ->
      fold_opt [] (f p) b = [] -> fold_opt [] (f q) b = []).
    { intros f b p q H. destruct b; cbn in *; eauto. }
    assert (X : forall e, kids (fun x => forall p q, break_list l p x = [] -> break_list l q x = [])
      (fun x => forall p q, break_list_stmt l p x = [] -> break_list_stmt l q x = [])
      (fun x => forall p q, break_list_arm l p x = [] -> break_list_arm l q x = []) e -> forall p q,
      fold_expr (@app _) [] (break_list l p) (break_list_stmt l p) (break_list_arm l p) e = [] ->
      fold_expr (@app _) [] (break_list l q) (break_list_stmt l q) (break_list_arm l q) e = []).
    { intros e K p q H. destruct e; cbn [kids fold_expr] in *; repeat match goal with H : _ /\ _ |- _ => destruct H end;
        repeat match goal with H : _ ++ _ = [] |- _ => apply app_eq_nil in H; destruct H end; 
        repeat match goal with
               | H : fold_list _ _ _ ?b = [] |- context [fold_list _ _ _ ?b] => erewrite LE; [|eassumption|exact H]; clear H
               | H : fold_opt _ _ ?b = [] |- context [fold_opt _ _ ?b] => erewrite OE; [|eassumption|exact H]; clear H
               | K : forall p q, ?f l p ?x = [] -> ?f l q ?x = [], H : ?f l _ ?x = [] |- _ => rewrite (K _ q H); clear H
               end; reflexivity. }
    apply ast_ind; intros; try (eapply X; [cbn [kids]; auto|eassumption]); cbn [break_list break_list_stmt break_list_arm break_list_local e_attrs] in *;
      try discriminate; try reflexivity.
    - refine (LE stmt (break_list_stmt l) _ _ _ _ _); eassumption.
    - destruct k; try reflexivity; (refine (LE stmt (break_list_stmt l) _ _ _ _ _); eassumption).
    - match goal with H : _ ++ _ = [] |- _ => apply app_eq_nil in H; destruct H as [E1 E2] end.
      rewrite (LE stmt (break_list_stmt l) _ _ _ ltac:(eassumption) E2).
      match goal with K : forall p q, break_list l p it = [] -> break_list l q it = [] |- _ => rewrite (K _ _ E1) end. reflexivity.
    - cbn in *. eauto.
    - cbn in *. eauto.
    - cbn [fold_local] in *. match goal with H : _ ++ _ = [] |- _ => apply app_eq_nil in H; destruct H as [E1 E2] end.
      rewrite (OE (break_list l) i _ q ltac:(assumption) E1), (OE (break_list l) d _ q ltac:(assumption) E2). reflexivity.
    - cbn [fold_arm] in *. match goal with H : _ ++ _ = [] |- _ => apply app_eq_nil in H; destruct H as [E1 E2] end.
      rewrite (OE (break_list l) g _ q ltac:(assumption) E1). cbn. eauto.
    Unshelve. all: exact (Spot true true true).
  Qed.

  (** Places where nothing is wrapped. *)
  Definition idle (p : spot) : Prop := sp_never p = true \/ (l = None /\ sp_direct p = false).
  Lemma idle_attrs a p : idle p -> idle (sp_attrs a p).
  Proof. unfold idle. cbn. intros [->|H]; auto. Qed.
  Lemma idle_loop l' p : idle p -> idle (sp_loop l l' p).
  Proof. unfold idle. cbn. intros [H|[H _]]; auto. Qed.
  Lemma idle_block l' p : idle p -> idle (sp_block l l' p).
  Proof. unfold idle. cbn. intros [H|[H1 H2]]; auto. Qed.

  Definition none_taken (L : list a_break) : Prop := Forall (fun x => ~ break_taken mk x) L.
  Lemma none_app L L' : none_taken L -> none_taken L' -> none_taken (L ++ L').
  Proof. intros. apply Forall_app. auto. Qed.
  Lemma idle_none :
    (forall e p, idle p -> none_taken (break_list l p e))
    /\ (forall e p, idle p -> none_taken (break_list_stmt l p e))
    /\ (forall e p, idle p -> none_taken (break_list_arm l p e))
    /\ (forall e p, idle p -> none_taken (break_list_local l p e)).
  Proof.
    assert (LE : forall (A : Type) (f : spot -> A -> list a_break) b p, Forall (fun x => forall p, idle p -> none_taken (f p x)) b ->
      idle p -> none_taken (fold_list (@app _) [] (f p) b)).
    { intros A f b p H. unfold fold_list. induction H as [|x b H1 H2 IH]; [intros; constructor|]. cbn [fold_right]. intros D. apply none_app; auto. }
    assert (OE : forall (f : spot -> expr -> list a_break) b p, opt_all (fun x => forall p, idle p -> none_taken (f p x)) b ->
      idle p -> none_taken (fold_opt [] (f p) b)).
    { intros f b p H D. destruct b; cbn in *; [auto|constructor]. }
    assert (LS := LE stmt (break_list_stmt l)). assert (LX := LE expr (break_list l)). assert (LA := LE arm (break_list_arm l)).
    assert (OX := OE (break_list l)).
    assert (X : forall e, kids (fun x => forall p, idle p -> none_taken (break_list l p x))
      (fun x => forall p, idle p -> none_taken (break_list_stmt l p x))
      (fun x => forall p, idle p -> none_taken (break_list_arm l p x)) e -> forall p, idle p ->
      none_taken (fold_expr (@app _) [] (break_list l p) (break_list_stmt l p) (break_list_arm l p) e)).
    { intros e K p D. destruct e; cbn [kids fold_expr] in *; repeat match goal with H : _ /\ _ |- _ => destruct H end;
        repeat apply none_app; auto; constructor. }
    apply ast_ind; intros; cbn [break_list break_list_stmt break_list_arm break_list_local e_attrs];
      try (apply X; [cbn [kids]; auto|]; auto using idle_attrs, idle_loop); auto using idle_attrs, idle_loop, idle_block.
    - destruct k; try (apply X; [cbn [kids]; auto|]; auto using idle_attrs); constructor.
    - apply none_app; auto using idle_attrs, idle_loop.
    - constructor; [|apply OX; auto using idle_attrs]. intros (T1 & T2 & _). cbn in T1, T2. destruct H0 as [E|[-> E]]; [rewrite E in T2; discriminate|].
      destruct l0; cbn in T1; [destruct (sp_named p); discriminate|congruence].
    - constructor.
    - cbn. auto.
    - constructor.
    - cbn. auto.
    - constructor.
    - cbn [fold_local]. apply none_app; auto.
    - cbn [fold_arm]. apply none_app; auto.
  Qed.
  Lemma none_same L : none_taken L -> S [] L L.
  Proof.
    induction 1 as [|x L H1 H2 IH]; [constructor|]. change (@nil string) with (@nil string ++ []). constructor; [|exact IH].
    destruct x as [b n a l' [e|]]; [apply bd_kept; [exact H1|apply searched_refl]|apply bd_kept_unit; exact H1].
  Qed.

  Lemma list_idle p b : idle p -> none_taken (fold_list (@app _) [] (break_list_stmt l p) b).
  Proof.
    intros D. destruct idle_none as (_ & IS & _). induction b as [|s b IH]; [constructor|]. cbn. apply none_app; auto.
  Qed.
  Lemma wrap_list p v e : break_list l p (wrap own v e) = break_list l p e.
  Proof.
    unfold wrap. cbn. rewrite app_nil_r. f_equal. destruct p. unfold sp_attrs. cbn. rewrite !orb_false_r. reflexivity.
  Qed.

  (** ** The [break]s that are found *)

  Lemma leaves_iff inner p l' : sp_named p = true -> sp_direct p = negb inner -> sp_leaves l p l' = true <-> leaves l inner l'.
  Proof.
    intros N D. unfold leaves, sp_leaves, same_label. rewrite D, N. destruct l'; cbn [andb].
    - destruct l as [s'|]; [rewrite String.eqb_eq|].
      + split; [intros ->; right; eauto|intros [[_ K]|(x & K1 & K2)]; congruence].
      + split; [discriminate|intros [[_ K]|(x & K1 & K2)]; congruence].
    - destruct inner; cbn; split; try discriminate; auto; intros [[K _]|(x & _ & K)]; congruence.
  Qed.

  Lemma S_app t1 t2 a a' b b' : S t1 a a' -> S t2 b b' -> S (t1 ++ t2) (a ++ b) (a' ++ b').
  Proof. apply seq2_cat. Qed.

  Definition at_spot (inner : bool) (p : spot) : Prop := sp_named p = true /\ sp_direct p = negb inner /\ sp_never p = false.
  Definition found {A} (f : option string -> spot -> A -> list a_break) (sc : A -> bool) (R : bool -> list string -> A -> A -> Prop) (x : A) : Prop :=
    sc x = true -> forall inner t x' p, at_spot inner p -> R inner t x x' -> S t (f l p x) (f l p x').

  Lemma found_all :
    (forall e, found break_list (scoped l) (breaks own mk l) e)
    /\ (forall s, found break_list_stmt (scoped_stmt l) (breaks_stmt own mk l) s)
    /\ (forall x, found break_list_arm (scoped_arm l) (breaks_arm own mk l) x)
    /\ (forall x, found break_list_local (scoped_local l) (breaks_local own mk l) x).
  Proof.
    destruct idle_none as (IE & IS & _). destruct break_free as (FE & _).
    pose (Re inner p := fun (x : expr) => scoped l x = true -> forall t x', breaks own mk l inner t x x' -> S t (break_list l p x) (break_list l p x')).
    (* the children, at a place that is the same for all of them *)
    assert (SC : forall e, fold_expr andb true (scoped l) (scoped_stmt l) (scoped_arm l) e = true ->
      kids (found break_list (scoped l) (breaks own mk l)) (found break_list_stmt (scoped_stmt l) (breaks_stmt own mk l))
           (found break_list_arm (scoped_arm l) (breaks_arm own mk l)) e ->
      forall inner p, at_spot inner p ->
      kids (fun x => forall t x', breaks own mk l inner t x x' -> S t (break_list l p x) (break_list l p x'))
           (fun x => forall t x', breaks_stmt own mk l inner t x x' -> S t (break_list_stmt l p x) (break_list_stmt l p x'))
           (fun x => forall t x', breaks_arm own mk l inner t x x' -> S t (break_list_arm l p x) (break_list_arm l p x')) e).
    { intros e F K inner p AT.
      assert (LF : forall (A : Type) (f : option string -> spot -> A -> list a_break) sc R b, Forall (found f sc R) b -> fold_list andb true sc b = true ->
        Forall (fun x => forall t x', R inner t x x' -> S t (f l p x) (f l p x')) b).
      { intros A f sc R b H. induction H as [|x b H1 H2 IH]; cbn; [constructor|]. intros C. apply andb_true_iff in C. destruct C as [C1 C2].
        constructor; [|apply IH; exact C2]. intros t x' HR. exact (H1 C1 _ _ _ _ AT HR). }
      assert (OF : forall o, opt_all (found break_list (scoped l) (breaks own mk l)) o -> fold_opt true (scoped l) o = true ->
        opt_all (fun x => forall t x', breaks own mk l inner t x x' -> S t (break_list l p x) (break_list l p x')) o).
      { intros [x|]; cbn; [|auto]. intros H C t x' HR. exact (H C _ _ _ _ AT HR). }
      assert (XF : forall x, found break_list (scoped l) (breaks own mk l) x -> scoped l x = true ->
        forall t x', breaks own mk l inner t x x' -> S t (break_list l p x) (break_list l p x')).
      { intros x H C t x' HR. exact (H C _ _ _ _ AT HR). }
      destruct e; cbn [kids fold_expr] in *; repeat match goal with H : _ /\ _ |- _ => destruct H end;
        repeat match goal with H : _ && _ = true |- _ => apply andb_true_iff in H; destruct H end; repeat split; eauto. }
    assert (PF : forall e, kids (found break_list (scoped l) (breaks own mk l)) (found break_list_stmt (scoped_stmt l) (breaks_stmt own mk l))
           (found break_list_arm (scoped_arm l) (breaks_arm own mk l)) e ->
      forall inner q t e', at_spot inner q -> fold_expr andb true (scoped l) (scoped_stmt l) (scoped_arm l) e = true ->
      parts (breaks own mk l inner) (breaks_stmt own mk l inner) (breaks_arm own mk l inner) t e e' ->
          S t (fold_expr (@app _) [] (break_list l q) (break_list_stmt l q) (break_list_arm l q) e)
              (fold_expr (@app _) [] (break_list l q) (break_list_stmt l q) (break_list_arm l q) e')).
    { intros e K inner q t e' AQ CC PT. 
      apply (parts_fold (@app _) [] (@app _) [] S ltac:(constructor) S_app _ _ _ _ _ _ (breaks own mk l inner) (breaks_stmt own mk l inner) (breaks_arm own mk l inner));
      [|exact PT]. apply SC; assumption. }
    assert (W : forall e, kids (found break_list (scoped l) (breaks own mk l)) (found break_list_stmt (scoped_stmt l) (breaks_stmt own mk l))
           (found break_list_arm (scoped_arm l) (breaks_arm own mk l)) e -> found break_list (scoped l) (breaks own mk l) e).
    { intros e K C inner t e' p AT H.
      destruct AT as (AN & AD & AV).
      assert (NV : has_plain "never" (e_attrs e) -> none_taken (break_list l p e)).
      { intros N. replace (break_list l p e) with (break_list l (sp_attrs (e_attrs e) p) e).
        - apply IE. left. cbn. apply plain_iff in N. rewrite N. apply orb_true_r.
        - assert (Q : sp_attrs (e_attrs e) (sp_attrs (e_attrs e) p) = sp_attrs (e_attrs e) p).
          { unfold sp_attrs. cbn. rewrite <- orb_assoc, orb_diag. reflexivity. }
          destruct e; cbn [break_list e_attrs] in *; rewrite ?Q; reflexivity. }
      assert (AS : ~ has_plain "never" (e_attrs e) -> at_spot inner (sp_attrs (e_attrs e) p)).
      { intros N. unfold at_spot. cbn. repeat split; try assumption. rewrite AV. cbn. destruct (attr_plain "never" (e_attrs e)) eqn:E; [|reflexivity].
        apply plain_iff in E. contradiction. }
      assert (LS : forall l', at_spot inner (sp_attrs (e_attrs e) p) -> same_label l l' = false -> at_spot true (sp_loop l l' (sp_attrs (e_attrs e) p))).
      { intros l' (A1 & A2 & A3) E. unfold at_spot. cbn in *. rewrite E, A1. auto. }
      assert (LB : forall l', at_spot inner (sp_attrs (e_attrs e) p) -> same_label l l' = false -> at_spot inner (sp_block l l' (sp_attrs (e_attrs e) p))).
      { intros l' (A1 & A2 & A3) E. unfold at_spot. cbn in *. rewrite E, A1. auto. }
      destruct H as [inner e N|inner a ps e|inner a b|inner e L IL|inner t e e' N L IL PT|inner v a l' N LV|inner v t a l' e e' N LV NM H
                    |inner t a l' e e' N LV NM H|inner t a l' o o' N NL H|inner t e e' N PL PT]; cbn [e_attrs] in *.
      - apply none_same. auto.
      - cbn. constructor.
      - cbn. constructor.
      - (* a loop that is not searched *)
        apply none_same.
        assert (D : forall l', idle (sp_loop l l' (sp_attrs (e_attrs e) p))) by (intros; right; auto).
        destruct e; try discriminate; cbn [scoped] in C; repeat match goal with H : _ && _ = true |- _ => apply andb_true_iff in H; destruct H end;
          cbn [break_list e_attrs fold_expr] in *.
        + apply list_idle; auto.
        + apply none_app; [apply IE; auto|apply list_idle; auto].
        + apply none_app; [|apply list_idle; auto]. rewrite (FE e (Spot true true false)); [constructor|].
          destruct (break_list l (Spot true true false) e); [reflexivity|discriminate].
      - (* a loop that is searched *)
        specialize (AS N).
        destruct e; try discriminate; cbn [scoped] in C; repeat match goal with H : _ && _ = true |- _ => apply andb_true_iff in H; destruct H end;
          match goal with H : negb (same_label l ?l') = true |- _ => apply negb_true_iff in H; pose proof (LS l' AS H) as AT end; cbn [e_attrs] in *.
        + inversion PT; subst. apply (PF _ K true _ _ _ AT); assumption.
        + inversion PT; subst. cbn [fold_expr] in *. apply (PF _ K true _ _ _ AT); assumption.
        + inversion PT as [| | | | | | |t1 t2 ? ? ? ? c' ? b' G1 G2| | | | | | | | | | | |]; subst. cbn [break_list e_attrs].
          cbn [fold_expr] in *. match goal with F : scoped l e && _ = true |- _ => pose proof F as F0; apply andb_true_iff in F; destruct F end.
          pose proof (SC (EFor a lbl p0 e b) F0 K true _ AT) as [K1 K2].
          assert (Z : break_list l (Spot true true false) e = []) by (destruct (break_list l (Spot true true false) e); [reflexivity|discriminate]).
          pose proof (K1 _ _ G1) as S1. rewrite (FE _ _ _ Z) in S1. inversion S1; subst.
          rewrite (FE e _ (sp_attrs a p) Z), (FE c' _ (sp_attrs a p) (eq_sym ltac:(eassumption))). cbn [app].
          eapply (fold_seq2 _ _ _ _ S ltac:(constructor) S_app); [exact K2|exact G2].
      - specialize (AS N). cbn [break_list e_attrs fold_opt].
        destruct AS as (A1 & A2 & A3). rewrite (proj2 (leaves_iff inner _ l' A1 A2) LV), A3.
        change [v] with ([v] ++ []). constructor; [|constructor]. constructor. repeat split. intros (x & E & _). discriminate.
      - specialize (AS N). cbn [break_list e_attrs fold_opt]. pose proof AS as AS0.
        destruct AS as (A1 & A2 & A3). rewrite (proj2 (leaves_iff inner _ l' A1 A2) LV), A3.
        change (v :: t) with ([v] ++ t). constructor.
        + constructor; [|right; eauto]. repeat split. intros (x & E & M). injection E as <-. contradiction.
        + rewrite wrap_list. exact (K C _ _ _ _ AS0 H).
      - specialize (AS N). cbn [break_list e_attrs fold_opt]. change t with ([] ++ t). constructor.
        + apply bd_kept; [|right; eauto]. intros (_ & _ & T). apply T. exists e. split; [reflexivity|assumption].
        + exact (K C _ _ _ _ AS H).
      - specialize (AS N). cbn [break_list e_attrs]. pose proof AS as AS0. destruct AS as (A1 & A2 & A3).
        assert (LV : sp_leaves l (sp_attrs a p) l' = false).
        { destruct (sp_leaves l (sp_attrs a p) l') eqn:E; [|reflexivity]. apply (leaves_iff inner) in E; auto. contradiction. }
        rewrite LV. destruct H as [|t x x' H]; cbn [fold_opt].
        + change (@nil string) with (@nil string ++ []). constructor; [|constructor]. apply bd_kept_unit. intros (T & _). discriminate.
        + change t with ([] ++ t). constructor; [apply bd_kept; [intros (T & _); discriminate|right; eauto]|].
          exact (K C _ _ _ _ AS0 H).
      - specialize (AS N).
        pose proof (fun q AQ CC => PF e K inner q t e' AQ CC PT) as P.
        assert (AE : e_attrs e' = e_attrs e) by (destruct PT; reflexivity).
        destruct PT; try discriminate PL; cbn [break_list e_attrs scoped] in *; try (apply P; [exact AS|exact C]).
        + apply andb_true_iff in C. destruct C as [C1 C2]. apply negb_true_iff in C1. apply (P _ (LB l0 AS C1) C2).
        + destruct k; try discriminate PL; (apply P; [exact AS|exact C]). }
    assert (QS : forall p s, break_list_stmt l p s = fold_stmt [] (break_list l p) (break_list_local l p) s) by (intros ? []; reflexivity).
    assert (QA : forall p s, break_list_arm l p s = fold_arm (@app _) [] (break_list l p) s) by (intros ? []; reflexivity).
    assert (QL : forall p s, break_list_local l p s = fold_local (@app _) [] (break_list l p) s) by (intros ? []; reflexivity).
    apply ast_ind; intros; try (apply W; cbn [kids]; auto; fail).
    - intros C inner t s' p AT H0. inversion H0; subst. rewrite !QS.
      eapply (stmt_fold [] [] S ltac:(constructor) (break_list l p) (break_list_local l p) (break_list l p) (break_list_local l p) (breaks own mk l inner) (breaks_local own mk l inner) _ (SLocal l0)); [|eassumption]. cbn. intros t0 x' HR. exact (H C _ _ _ _ AT HR).
    - intros C inner t s' p AT H0. inversion H0; subst. rewrite !QS.
      eapply (stmt_fold [] [] S ltac:(constructor) (break_list l p) (break_list_local l p) (break_list l p) (break_list_local l p) (breaks own mk l inner) (breaks_local own mk l inner) _ (SItem i)); [|eassumption]. exact I.
    - intros C inner t s' p AT H0. inversion H0; subst. rewrite !QS.
      eapply (stmt_fold [] [] S ltac:(constructor) (break_list l p) (break_list_local l p) (break_list l p) (break_list_local l p) (breaks own mk l inner) (breaks_local own mk l inner) _ (SExpr e semi)); [|eassumption]. cbn. intros t0 x' HR. exact (H C _ _ _ _ AT HR).
    - intros C inner t s' p1 AT H0. inversion H0; subst. rewrite !QS.
      eapply (stmt_fold [] [] S ltac:(constructor) (break_list l p1) (break_list_local l p1) (break_list l p1) (break_list_local l p1) (breaks own mk l inner) (breaks_local own mk l inner) _ (SMacro a (Mac p e) semi)); [|eassumption]. exact I.
    - intros C inner t0 s' p0 AT HL. inversion HL; subst. cbn [scoped_local fold_local] in C. apply andb_true_iff in C. destruct C as [C1 C2].
      rewrite !QL. eapply (local_fold (@app _) [] (@app _) [] S ltac:(constructor) S_app (break_list l p0) (break_list l p0) (breaks own mk l inner) _ (Local a p t i d)); [|eassumption].
      split; [destruct i|destruct d]; cbn in *; try exact I; intros t1 x' HR; [exact (H C1 _ _ _ _ AT HR)|exact (H0 C2 _ _ _ _ AT HR)].
    - intros C inner t0 s' p0 AT HL. inversion HL; subst. cbn [scoped_arm fold_arm] in C. apply andb_true_iff in C. destruct C as [C1 C2].
      rewrite !QA. eapply (arm_fold (@app _) [] (@app _) [] S ltac:(constructor) S_app (break_list l p0) (break_list l p0) (breaks own mk l inner) _ (Arm a p g b c)); [|eassumption].
      split; [destruct g; cbn in *; try exact I|]; intros t1 x' HR; [exact (H C1 _ _ _ _ AT HR)|exact (H0 C2 _ _ _ _ AT HR)].
  Qed.

  Theorem breaks_found t b b' : scoped_body l b = true -> seq2 (breaks_stmt own mk l false) t b b' ->
    seq2 (break_done own mk l) t (loop_breaks l b) (loop_breaks l b').
  Proof.
    intros C H. destruct found_all as (_ & F & _). unfold loop_breaks.
    eapply (fold_seq2 _ _ _ _ S ltac:(constructor) S_app); [|exact H].
    unfold scoped_body in C. clear H. induction b as [|s b IH]; [constructor|]. cbn in C. apply andb_true_iff in C. destruct C as [C1 C2].
    constructor; [|apply IH; exact C2]. intros t0 y HR. refine (F s C1 false _ _ _ _ HR). repeat split.
  Qed.

  (** ** The [break]s below [#[never]] *)

  Definition never_same (x x' : a_break) : Prop := b_never x = true -> x' = x.
  Let N (t : list string) := Forall2 never_same.
  Lemma N_refl L : N [] L L.
  Proof. induction L; constructor; auto. intros _. reflexivity. Qed.
  Lemma N_app t1 t2 a a' b b' : N t1 a a' -> N t2 b b' -> N (t1 ++ t2) (a ++ b) (a' ++ b').
  Proof. apply Forall2_app. Qed.
  Definition nevers {A} (f : option string -> spot -> A -> list a_break) (R : bool -> list string -> A -> A -> Prop) (x : A) : Prop :=
    forall inner t x' p, sp_never p = false -> R inner t x x' -> N t (f l p x) (f l p x').

  Lemma nevers_all :
    (forall e, nevers break_list (breaks own mk l) e)
    /\ (forall s, nevers break_list_stmt (breaks_stmt own mk l) s)
    /\ (forall x, nevers break_list_arm (breaks_arm own mk l) x)
    /\ (forall x, nevers break_list_local (breaks_local own mk l) x).
  Proof.
    assert (N0 : N [] [] []) by constructor.
    assert (SC : forall e, kids (nevers break_list (breaks own mk l)) (nevers break_list_stmt (breaks_stmt own mk l))
           (nevers break_list_arm (breaks_arm own mk l)) e ->
      forall inner p, sp_never p = false ->
      kids (fun x => forall t x', breaks own mk l inner t x x' -> N t (break_list l p x) (break_list l p x'))
           (fun x => forall t x', breaks_stmt own mk l inner t x x' -> N t (break_list_stmt l p x) (break_list_stmt l p x'))
           (fun x => forall t x', breaks_arm own mk l inner t x x' -> N t (break_list_arm l p x) (break_list_arm l p x')) e).
    { intros e K inner p AT. revert K.
      assert (O : forall (A : Type) (f : option string -> spot -> A -> list a_break) R b, Forall (nevers f R) b ->
        Forall (fun x => forall t x', R inner t x x' -> N t (f l p x) (f l p x')) b).
      { intros A f R b. apply Forall_impl. unfold nevers. eauto. }
      assert (OF : forall o, opt_all (nevers break_list (breaks own mk l)) o ->
        opt_all (fun x => forall t x', breaks own mk l inner t x x' -> N t (break_list l p x) (break_list l p x')) o).
      { intros [x|]; cbn; unfold nevers; eauto. }
      assert (XF : forall x, nevers break_list (breaks own mk l) x -> forall t x', breaks own mk l inner t x x' -> N t (break_list l p x) (break_list l p x'))
        by (unfold nevers; eauto).
      destruct e; cbn [kids]; intros K; repeat match goal with H : _ /\ _ |- _ => destruct H end; repeat split; eauto. }
    assert (PF : forall e, kids (nevers break_list (breaks own mk l)) (nevers break_list_stmt (breaks_stmt own mk l))
           (nevers break_list_arm (breaks_arm own mk l)) e ->
      forall inner q t e', sp_never q = false ->
      parts (breaks own mk l inner) (breaks_stmt own mk l inner) (breaks_arm own mk l inner) t e e' ->
          N t (fold_expr (@app _) [] (break_list l q) (break_list_stmt l q) (break_list_arm l q) e)
              (fold_expr (@app _) [] (break_list l q) (break_list_stmt l q) (break_list_arm l q) e')).
    { intros e K inner q t e' AQ PT.
      apply (parts_fold (@app _) [] (@app _) [] N N0 N_app _ _ _ _ _ _ (breaks own mk l inner) (breaks_stmt own mk l inner) (breaks_arm own mk l inner));
      [|exact PT]. apply SC; assumption. }
    assert (W : forall e, kids (nevers break_list (breaks own mk l)) (nevers break_list_stmt (breaks_stmt own mk l))
           (nevers break_list_arm (breaks_arm own mk l)) e -> nevers break_list (breaks own mk l) e).
    { intros e K inner t e' p AT H.
      assert (AS : ~ has_plain "never" (e_attrs e) -> sp_never (sp_attrs (e_attrs e) p) = false).
      { intros NP. cbn. rewrite AT. cbn. destruct (attr_plain "never" (e_attrs e)) eqn:E; [|reflexivity]. apply plain_iff in E. contradiction. }
      assert (G : forall inner, ~ has_plain "never" (e_attrs e) -> parts (breaks own mk l inner) (breaks_stmt own mk l inner) (breaks_arm own mk l inner) t e e' ->
        match e with EBreak _ _ _ | EClosure _ _ _ | EBlk KAsync _ _ => False | _ => True end -> N t (break_list l p e) (break_list l p e')).
      { intros inn NP PT SH. pose proof (fun q AQ => PF e K inn q t e' AQ PT) as P. specialize (AS NP).
        destruct PT; cbn [break_list e_attrs] in *; try contradiction; try (apply P; assumption).
        - destruct k; try contradiction; apply P; assumption.
        - cbn [kids] in K. destruct K as [K1 K2]. apply N_app; [eapply K1; eassumption|].
          eapply (fold_seq2 (@app _) [] (@app _) [] N N0 N_app (breaks_stmt own mk l inn)); [|eassumption].
          revert K2. apply Forall_impl. unfold nevers. intros s HS t0 y HR. eapply HS; [|exact HR]. exact AS. }
      destruct H as [inner e NP|inner a ps e|inner a b|inner e L IL|inner t e e' NP L IL PT|inner v a l' NP LV|inner v t a l' e e' NP LV NM H
                    |inner t a l' e e' NP LV NM H|inner t a l' o o' NP NL H|inner t e e' NP PL PT]; cbn [e_attrs] in *;
        try apply N_refl.
      - eapply G; [exact NP|exact PT|]. destruct e; try discriminate; exact I.
      - specialize (AS NP). cbn [break_list e_attrs fold_opt]. constructor; [|constructor]. intros E. cbn in E, AS. congruence.
      - specialize (AS NP). cbn [break_list e_attrs fold_opt]. constructor; [intros E; cbn in E, AS; congruence|]. rewrite wrap_list. eapply K; eassumption.
      - specialize (AS NP). cbn [break_list e_attrs fold_opt]. constructor; [intros E; cbn in E, AS; congruence|]. eapply K; eassumption.
      - specialize (AS NP). cbn [break_list e_attrs]. constructor; [intros E; cbn in E, AS; congruence|]. destruct H; cbn [fold_opt]; [constructor|].
        eapply K; eassumption.
      - eapply G; [exact NP|exact PT|]. destruct e; try exact I; try discriminate. destruct k; try exact I; discriminate. }
    assert (QS : forall p s, break_list_stmt l p s = fold_stmt [] (break_list l p) (break_list_local l p) s) by (intros ? []; reflexivity).
    assert (QA : forall p s, break_list_arm l p s = fold_arm (@app _) [] (break_list l p) s) by (intros ? []; reflexivity).
    assert (QL : forall p s, break_list_local l p s = fold_local (@app _) [] (break_list l p) s) by (intros ? []; reflexivity).
    apply ast_ind; intros; try (apply W; cbn [kids]; auto; fail).
    - intros inner t s' p AT H0. inversion H0; subst. rewrite !QS.
      eapply (stmt_fold [] [] N N0 (break_list l p) (break_list_local l p) (break_list l p) (break_list_local l p) (breaks own mk l inner) (breaks_local own mk l inner) _ (SLocal l0)); [|eassumption]. cbn. intros t0 x' HR. exact (H _ _ _ _ AT HR).
    - intros inner t s' p AT H0. inversion H0; subst. rewrite !QS.
      eapply (stmt_fold [] [] N N0 (break_list l p) (break_list_local l p) (break_list l p) (break_list_local l p) (breaks own mk l inner) (breaks_local own mk l inner) _ (SItem i)); [|eassumption]. exact I.
    - intros inner t s' p AT H0. inversion H0; subst. rewrite !QS.
      eapply (stmt_fold [] [] N N0 (break_list l p) (break_list_local l p) (break_list l p) (break_list_local l p) (breaks own mk l inner) (breaks_local own mk l inner) _ (SExpr e semi)); [|eassumption]. cbn. intros t0 x' HR. exact (H _ _ _ _ AT HR).
    - intros inner t s' p1 AT H0. inversion H0; subst. rewrite !QS.
      eapply (stmt_fold [] [] N N0 (break_list l p1) (break_list_local l p1) (break_list l p1) (break_list_local l p1) (breaks own mk l inner) (breaks_local own mk l inner) _ (SMacro a (Mac p e) semi)); [|eassumption]. exact I.
    - intros inner t0 s' p0 AT HL. inversion HL; subst.
      rewrite !QL. eapply (local_fold (@app _) [] (@app _) [] N N0 N_app (break_list l p0) (break_list l p0) (breaks own mk l inner) _ (Local a p t i d)); [|eassumption].
      split; [destruct i|destruct d]; cbn in *; try exact I; intros t1 x' HR; [exact (H _ _ _ _ AT HR)|exact (H0 _ _ _ _ AT HR)].
    - intros inner t0 s' p0 AT HL. inversion HL; subst.
      rewrite !QA. eapply (arm_fold (@app _) [] (@app _) [] N N0 N_app (break_list l p0) (break_list l p0) (breaks own mk l inner) _ (Arm a p g b c)); [|eassumption].
      split; [destruct g; cbn in *; try exact I|]; intros t1 x' HR; [exact (H _ _ _ _ AT HR)|exact (H0 _ _ _ _ AT HR)].
  Qed.

  Theorem breaks_never t b b' : seq2 (breaks_stmt own mk l false) t b b' -> Forall2 never_same (loop_breaks l b) (loop_breaks l b').
  Proof.
    intros H. destruct nevers_all as (_ & F & _). unfold loop_breaks.
    apply (fold_seq2 (@app _) [] (@app _) [] N ltac:(constructor) N_app (breaks_stmt own mk l false) _ _ t); [|exact H].
    apply Forall_forall. intros s _ t0 y HR. refine (F s false _ _ _ _ HR). reflexivity.
  Qed.
End Lists.
