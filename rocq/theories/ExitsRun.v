(** The expansion meets Exits.v. *)

Require Import Coq.Strings.String Coq.Lists.List Coq.Bool.Bool Coq.Arith.Arith Coq.NArith.NArith.
Require Import Verif.Syntax Verif.Context Verif.ExprModel Verif.TypeAnalysis Verif.AutoEnum Verif.Edits.
Require Import Verif.AstInd Verif.RunLemmas Verif.VisitRun Verif.EngineRun Verif.Twin Verif.TwinEdits Verif.FoldTwin Verif.Exits.
Import ListNotations.
Open Scope string_scope.
Open Scope list_scope.

(** ** Lists *)

Lemma Forall2_comp {A B C} (R : A -> B -> Prop) (S : B -> C -> Prop) (T : A -> C -> Prop) :
  (forall x y z, R x y -> S y z -> T x z) ->
  forall l1 l2 l3, Forall2 R l1 l2 -> Forall2 S l2 l3 -> Forall2 T l1 l3.
Proof.
  intros K l1 l2 l3 H. revert l3. induction H; intros l3 H3; inversion H3; subst; constructor; eauto.
Qed.
Lemma Forall2_refl_of {A} (R : A -> A -> Prop) l : (forall x, R x x) -> Forall2 R l l.
Proof. intros. induction l; constructor; auto. Qed.
Lemma Forall2_mono {A B} (R S : A -> B -> Prop) l l' : (forall x y, R x y -> S x y) -> Forall2 R l l' -> Forall2 S l l'.
Proof. intros K H. induction H; constructor; auto. Qed.

(** ** Exits of parts *)

(** The exits inside an expression whose parts are at [pl]. *)
Definition inner (q : bool) (pl : place) (e : expr) : list (place * exit) :=
  match e with
  | EClosure _ _ _ => []
  | EMacro _ (Mac _ (Some x)) => exits q pl x
  | EMatch _ x arms =>
      exits q pl x
      ++ if q && match quest arms with Some _ => true | None => false end then []
         else fold_list (@app _) [] (exits_arm q pl) arms
  | _ => fold_expr (@app _) [] (exits q pl) (exits_stmt q pl) (exits_arm q pl) e
  end.

(** Closures and macro calls are treated differently from other expressions. *)
Inductive head_kind := HClosure | HMacro | HOther.
Definition head (e : expr) : head_kind :=
  match e with EClosure _ _ _ => HClosure | EMacro _ _ => HMacro | _ => HOther end.
Lemma head_attrs e a : head (set_attrs e a) = head e.
Proof. destruct e; reflexivity. Qed.

Lemma exits_eq q pl e : exits q pl e = inner q (below pl e) e ++ own_exit q pl e.
Proof. destruct e; reflexivity. Qed.
Lemma exits_arm_eq q pl x : exits_arm q pl x = fold_arm (@app _) [] (exits q pl) x.
Proof. destruct x. reflexivity. Qed.
Lemma exits_local_eq q pl x : exits_local q pl x = fold_local (@app _) [] (exits q pl) x.
Proof. destruct x. reflexivity. Qed.
Lemma inner_attrs q pl e a : inner q pl (set_attrs e a) = inner q pl e.
Proof. destruct e; reflexivity. Qed.
Lemma below_attrs pl e a : below pl (set_attrs e a) = below pl e.
Proof. destruct e; reflexivity. Qed.

Lemma exits_wrap q pl i v e : exits q pl (wrap i v e) = exits q pl e.
Proof.
  rewrite exits_eq. unfold wrap. cbn [inner fold_expr own_exit fold_list fold_right].
  unfold below. cbn. rewrite !orb_false_r, !app_nil_r. destruct pl. reflexivity.
Qed.
Lemma exits_block q pl b : exits q pl (EBlock [] None b) = fold_list (@app _) [] (exits_stmt q pl) b.
Proof. rewrite exits_eq. cbn [inner fold_expr own_exit]. unfold below. cbn. rewrite !orb_false_r, app_nil_r. destruct pl. reflexivity. Qed.

(** ** Relations between exits *)

Definition kept2 (x x' : place * exit) : Prop := kept (snd x) (snd x').

(** Equal attributes, operands related by [S]. *)
Definition through (S : expr -> expr -> Prop) (x x' : exit) : Prop :=
  match x, x' with
  | XRet a o, XRet a' o' => a' = a /\ opt2 S o o'
  | XTry a y, XTry a' y' => a' = a /\ S y y'
  | XQuest a y ok er, XQuest a' y' ok' er' =>
      a' = a /\ S y y' /\ (is_val ok -> is_val ok') /\ (forall i v, er = err_exit i v -> er' = er)
  | _, _ => False
  end.

(** The operand is edited, its head is not. *)
Definition holds (x x' : expr) : Prop := stays x x' /\ forall m, marks m x' = marks m x.

Definition same2 (x x' : place * exit) : Prop := fst x' = fst x /\ through holds (snd x) (snd x').

Lemma fewer_trans a b c : fewer a b -> fewer b c -> fewer a c.
Proof. induction 1; eauto using fewer. Qed.
Lemma stays_refl x : stays x x.
Proof. split; [apply edits_refl|]. intros i v y ->. exists y. split; [reflexivity|apply edits_refl]. Qed.
Lemma stays_trans x y z : stays x y -> stays y z -> stays x z.
Proof.
  intros [H1 H2] [K1 K2]. split; [eapply edits_trans; eassumption|].
  intros i v w E. destruct (H2 _ _ _ E) as (w' & E' & Ew). destruct (K2 _ _ _ E') as (w2 & E2 & Ew2).
  exists w2. split; [exact E2|eapply edits_trans; eassumption].
Qed.
Lemma holds_refl x : holds x x.
Proof. split; [apply stays_refl|reflexivity]. Qed.
Lemma stays_opt_refl x : stays_opt x x.
Proof. destruct x; cbn; [apply stays_refl|exact I]. Qed.
Lemma stays_opt_trans x y z : stays_opt x y -> stays_opt y z -> stays_opt x z.
Proof. destruct x, y, z; cbn; intros; try contradiction; eauto using stays_trans. Qed.
Lemma stays_operand o o' : stays_opt o o' -> edited (operand o) (operand o').
Proof. destruct o, o'; cbn; intros H; try contradiction; [apply H|apply edits_refl]. Qed.

Lemma kept_refl x : kept x x.
Proof. destruct x; cbn; auto 8 using fw_refl, stays_refl, stays_opt_refl. Qed.
Lemma kept_trans x y z : kept x y -> kept y z -> kept x z.
Proof.
  destruct x, y, z; cbn; intros H K; try contradiction; repeat match goal with H : _ /\ _ |- _ => destruct H end;
    try (split; eauto using fewer_trans, stays_trans, stays_opt_trans; fail).
  split; [eauto using fewer_trans|]. split; [eauto using stays_trans|]. split; [auto|].
  intros i v E. match goal with H : forall i v, er = _ -> _ |- _ => pose proof (H _ _ E) as E1 end. rewrite E1 in *. eauto.
Qed.
Lemma through_kept (S : expr -> expr -> Prop) x x' : (forall y y', S y y' -> stays y y') -> through S x x' -> kept x x'.
Proof.
  intros H. destruct x, x'; cbn; try contradiction.
  - intros [-> K]. split; [apply fw_refl|]. destruct o; cbn in *; [destruct K as (y & -> & K)|subst]; cbn; auto.
  - intros [-> K]. split; [apply fw_refl|auto].
  - intros (-> & K & K2). split; [apply fw_refl|auto].
Qed.
Lemma same_kept x x' : same2 x x' -> kept2 x x'.
Proof. intros [_ H]. eapply through_kept; [|exact H]. intros y y' K. apply K. Qed.
Lemma same_refl x : same2 x x.
Proof.
  split; [reflexivity|]. destruct x as [pl x]. cbn [snd fst]. destruct x; cbn; auto 8 using holds_refl.
  split; [reflexivity|]. destruct o; cbn; [|reflexivity]. eexists. split; [reflexivity|apply holds_refl].
Qed.

(** What is done to an exit by a visitor. *)
Definition treated (P : ctx) (closure : bool) : place * exit -> place * exit -> Prop :=
  if closure then kept2
  else match cx_mode P with
       | VDefault => kept2
       | VReturn _ => return_wrapped (cx_ident P) (cx_marker P)
       | VTry => question_replaced (cx_ident P) (cx_marker P)
       end.

Lemma same_marks m o o' : opt2 holds o o' -> marks_opt m o' = marks_opt m o.
Proof. destruct o; cbn; [intros (y & -> & K); apply K|intros ->; reflexivity]. Qed.

Lemma same_treated P c x y z : same2 x y -> treated P c y z -> treated P c x z.
Proof.
  intros S T. pose proof (same_kept _ _ S) as SK. unfold treated in *. destruct c; [eapply kept_trans; eassumption|].
  destruct (cx_mode P); [eapply kept_trans; eassumption| |].
  - unfold return_wrapped in *. destruct x as [pl x], y as [pl1 y], z as [pl2 z]. destruct S as [E S].
    cbn [fst snd] in *. subst pl1. unfold kept2 in SK. cbn [snd] in SK.
    destruct x, y; cbn [through] in S; try contradiction; try (eapply kept_trans; eassumption).
    destruct S as [-> S]. unfold excluded in *. rewrite (same_marks _ _ _ S) in T.
    destruct (_ || _ || _); [eapply kept_trans; eassumption|]. destruct T as (a' & v & y' & -> & F & Ey).
    exists a', v, y'. split; [reflexivity|]. split; [exact F|]. cbn in SK. destruct SK as [_ SK].
    eapply edits_trans; [apply stays_operand; exact SK|exact Ey].
  - unfold question_replaced in *. destruct x as [pl x], y as [pl1 y], z as [pl2 z]. destruct S as [E S].
    cbn [fst snd] in *. subst pl1. unfold kept2 in SK. cbn [snd] in SK.
    destruct x, y; cbn [through] in S; try contradiction; try (eapply kept_trans; eassumption).
    destruct S as [-> S]. unfold excluded, marks_opt in *. rewrite (proj2 S) in T.
    destruct (_ || _); [eapply kept_trans; eassumption|]. destruct T as (a' & v & y' & ok & -> & V & F & Ey).
    exists a', v, y', ok. split; [reflexivity|]. split; [exact V|]. split; [exact F|]. cbn in SK. destruct SK as [_ SK].
    eapply edits_trans; [apply SK|exact Ey].
Qed.

Lemma treated_kept P c x y z : treated P c x y -> kept2 y z -> treated P c x z.
Proof.
  unfold treated, kept2. intros T K. destruct c; [eapply kept_trans; eassumption|].
  destruct (cx_mode P); [eapply kept_trans; eassumption| |].
  - unfold return_wrapped in *. destruct (snd x); try (eapply kept_trans; eassumption).
    destruct (excluded _ _ _ _); [eapply kept_trans; eassumption|].
    destruct T as (a' & v & y' & E & F & Ey). rewrite E in K. destruct (snd z) as [a2 [o2|]| |]; cbn in K; try tauto.
    destruct K as [K1 K2]. destruct (proj2 K2 _ _ _ eq_refl) as (w & -> & Ew).
    exists a2, v, w. split; [reflexivity|]. split; [eapply fewer_trans; eassumption|eapply edits_trans; eassumption].
  - unfold question_replaced in *. destruct (snd x); try (eapply kept_trans; eassumption).
    destruct (_ || excluded _ _ _ _); [eapply kept_trans; eassumption|].
    destruct T as (a' & v & y' & ok & E & V & F & Ey). rewrite E in K. destruct (snd z) as [| |a2 y2 ok2 er2]; cbn in K; try tauto.
    destruct K as (K1 & K2 & K3 & K4). rewrite (K4 _ _ eq_refl).
    exists a2, v, y2, ok2. split; [reflexivity|]. split; [auto|]. split; [eapply fewer_trans; eassumption|].
    eapply edits_trans; [exact Ey|apply K2].
Qed.

(** Exits in macro calls are left alone. *)
Lemma macro_treated P c x x' : in_macro (fst x) = true -> kept2 x x' -> treated P c x x'.
Proof.
  unfold treated. intros E K. destruct c; [auto|]. destruct (cx_mode P); [auto| |];
    unfold return_wrapped, question_replaced, excluded; rewrite E; unfold kept2 in K; destruct (snd x); auto.
  rewrite orb_true_r. auto.
Qed.

(** ** Walks *)

Definition arm_kept (q : bool) (x x' : arm) : Prop :=
  match x, x' with
  | Arm _ p g b _, Arm _ p' g' b' _ =>
      p' = p /\ (g = None <-> g' = None)
      /\ (q = true -> (is_val b -> is_val b') /\ forall i v, b = err_exit i v -> b' = b)
  end.

Lemma quest_kept q (R : arm -> arm -> Prop) arms arms' :
  (forall x x', R x x' -> arm_kept q x x') -> all2 R arms arms' ->
  match quest arms, quest arms' with
  | Some (ok, er), Some (ok', er') =>
      q = true -> (is_val ok -> is_val ok') /\ forall i v, er = err_exit i v -> er' = er
  | None, None => True
  | _, _ => False
  end.
Proof.
  intros H A. destruct arms as [|[a1 p1 g1 b1 c1] [|[a2 p2 g2 b2 c2] [|x3 arms]]]; cbn [all2] in A.
  - subst. exact I.
  - destruct A as (y & s & -> & _ & ->). destruct y. destruct g1, guard; exact I.
  - destruct A as (y & s & -> & R1 & (y2 & s2 & -> & R2 & ->)).
    apply H in R1. apply H in R2. destruct y as [a1' p1' g1' b1' c1'], y2 as [a2' p2' g2' b2' c2'].
    cbn in R1, R2. destruct R1 as (-> & G1 & V1), R2 as (-> & G2 & V2).
    unfold quest. destruct g1; [destruct g1'; [exact I|destruct G1 as [_ G1]; discriminate (G1 eq_refl)]|].
    destruct G1 as [G1 _]. rewrite (G1 eq_refl).
    destruct g2; [destruct g2'; [exact I|destruct G2 as [_ G2]; discriminate (G2 eq_refl)]|].
    destruct G2 as [G2 _]. rewrite (G2 eq_refl).
    destruct (is_result_pat p1 _ _ && _); [|exact I]. intros Q. split; [apply (V1 Q)|apply (V2 Q)].
  - destruct A as (y & s & -> & _ & (y2 & s2 & -> & _ & (y3 & s3 & -> & _))).
    destruct y, y2, y3. destruct x3. cbn. destruct g1, guard, g2, guard0; exact I.
Qed.

Lemma quest_all {A} (f g : A) (arms arms' : list arm) :
  match quest arms, quest arms' with Some _, Some _ => True | None, None => True | _, _ => False end ->
  (if match quest arms' with Some _ => true | None => false end then f else g)
  = if match quest arms with Some _ => true | None => false end then f else g.
Proof. destruct (quest arms), (quest arms'); tauto || reflexivity. Qed.

Section Walks.
  Variables (q : bool) (V : rvis) (rel : place * exit -> place * exit -> Prop).

  Lemma inner_walk pl pl' e e' :
    kids (fun x => forall x', o_expr V x x' -> Forall2 rel (exits q pl x) (exits q pl' x'))
         (fun x => forall x', o_stmt V x x' -> Forall2 rel (exits_stmt q pl x) (exits_stmt q pl' x'))
         (fun x => forall x', o_arm V x x' -> Forall2 rel (exits_arm q pl x) (exits_arm q pl' x')) e ->
    (forall x x', o_arm V x x' -> arm_kept q x x') ->
    match e with EMacro _ (Mac _ (Some x)) => Forall2 rel (exits q pl x) (exits q pl' x) | _ => True end ->
    t_walk V e e' -> Forall2 rel (inner q pl e) (inner q pl' e').
  Proof.
    intros K A M W.
    assert (F := fold_walk (@app _) [] (@app _) [] (Forall2 rel) (Forall2_nil _)
                   (fun a a' b b' => @Forall2_app _ _ rel a b a' b') _ _ _ _ _ _ V e e' K W).
    destruct e; cbn [t_walk] in W;
      repeat match goal with H : exists _, _ |- _ => destruct H | H : _ /\ _ |- _ => destruct H end; subst;
      try exact F.
    - cbn [inner]. cbn [kids] in K. destruct K as [K1 K2]. apply Forall2_app; [apply K1; assumption|].
      match goal with H : all2 _ _ _ |- _ => pose proof (quest_kept q _ _ _ A H) as Q; rename H into L end.
      destruct q; cbn [andb].
      + destruct (quest arms) as [[ok er]|], (quest x0) as [[ok' er']|]; try contradiction; [constructor|].
        eapply fold_all2; [constructor|intros; apply Forall2_app; assumption|exact K2|exact L].
      + eapply fold_all2; [constructor|intros; apply Forall2_app; assumption|exact K2|exact L].
    - constructor.
    - cbn [inner]. destruct m as [p [x|]]; [exact M|constructor].
  Qed.

  Lemma own_walk (S : expr -> expr -> Prop) pl pl' e e' :
    (forall x x', o_expr V x x' -> S x x') -> (forall x x', o_arm V x x' -> arm_kept q x x') ->
    t_walk V e e' ->
    Forall2 (fun x x' => fst x = pl /\ fst x' = pl' /\ through S (snd x) (snd x')) (own_exit q pl e) (own_exit q pl' e').
  Proof.
    intros E A W. destruct e; cbn [t_walk] in W;
      repeat match goal with H : exists _, _ |- _ => destruct H | H : _ /\ _ |- _ => destruct H end; subst;
      cbn [own_exit]; try constructor; try constructor; cbn; auto.
    - match goal with H : all2 _ _ _ |- _ => pose proof (quest_kept q _ _ _ A H) as Q end.
      destruct q; [|constructor]. destruct (quest arms) as [[ok er]|], (quest x0) as [[ok' er']|]; try contradiction; [|constructor].
      constructor; [|constructor]. cbn. destruct (Q eq_refl) as [Q1 Q2]. auto 10.
    - split; [reflexivity|]. split; [reflexivity|]. eapply opt2_mono; eassumption.
  Qed.
End Walks.

Lemma walk_below V pl e e' : t_walk V e e' -> below pl e' = below pl e.
Proof.
  destruct e; cbn [t_walk]; intros W;
    repeat match goal with H : exists _, _ |- _ => destruct H | H : _ /\ _ |- _ => destruct H end; subst; reflexivity.
Qed.

(** ** Places do not matter for the exits themselves *)

Definition id_vis : rvis := RVis eq eq eq eq.
Lemma id_walk e : t_walk id_vis e e.
Proof.
  assert (L : forall A (l : list A), all2 eq l l).
  { induction l; cbn; [reflexivity|]. eexists _, _. split; [reflexivity|]. auto. }
  assert (O : forall A (o : option A), opt2 eq o o).
  { destruct o; cbn; [|reflexivity]. eexists. split; reflexivity. }
  destruct e; cbn; repeat eexists; auto.
Qed.
Lemma arm_kept_refl q x : arm_kept q x x.
Proof. destruct x. cbn. repeat split; auto. Qed.

Lemma own_places q pl pl' e : Forall2 kept2 (own_exit q pl e) (own_exit q pl' e).
Proof.
  assert (K : forall x, Forall2 kept2 [(pl, x)] [(pl', x)]).
  { intros x. constructor; [apply kept_refl|constructor]. }
  destruct e; cbn [own_exit]; try constructor; try apply kept_refl; try constructor.
  destruct q; [|constructor]. destruct (quest arms) as [[ok er]|]; [apply K|constructor].
Qed.

Lemma kept_places q :
  (forall e pl pl', Forall2 kept2 (exits q pl e) (exits q pl' e))
  /\ (forall s pl pl', Forall2 kept2 (exits_stmt q pl s) (exits_stmt q pl' s))
  /\ (forall x pl pl', Forall2 kept2 (exits_arm q pl x) (exits_arm q pl' x))
  /\ (forall x pl pl', Forall2 kept2 (exits_local q pl x) (exits_local q pl' x)).
Proof.
  assert (X : forall e, kids (fun x => forall pl pl', Forall2 kept2 (exits q pl x) (exits q pl' x))
      (fun x => forall pl pl', Forall2 kept2 (exits_stmt q pl x) (exits_stmt q pl' x))
      (fun x => forall pl pl', Forall2 kept2 (exits_arm q pl x) (exits_arm q pl' x)) e ->
    match e with EMacro _ (Mac _ (Some x)) => forall pl pl', Forall2 kept2 (exits q pl x) (exits q pl' x) | _ => True end ->
    forall pl pl', Forall2 kept2 (exits q pl e) (exits q pl' e)).
  { intros e K M pl pl'. rewrite !exits_eq. apply Forall2_app.
    - eapply (inner_walk q id_vis); [| |destruct e; try exact I; destruct m as [p [x|]]; [apply M|exact I]|apply id_walk].
      + assert (L1 : forall A (F : place -> A -> list (place * exit)) pl pl' l,
          Forall (fun x => forall pl pl', Forall2 kept2 (F pl x) (F pl' x)) l ->
          Forall (fun x => forall x', x = x' -> Forall2 kept2 (F pl x) (F pl' x')) l).
        { intros. eapply Forall_impl; [|eassumption]. cbn. intros a Ha x' <-. apply Ha. }
        assert (L2 : forall A (F : place -> A -> list (place * exit)) pl pl' l,
          opt_all (fun x => forall pl pl', Forall2 kept2 (F pl x) (F pl' x)) l ->
          opt_all (fun x => forall x', x = x' -> Forall2 kept2 (F pl x) (F pl' x')) l).
        { intros A F pl0 pl1 [] H; cbn in *; [|exact I]. intros x' <-. apply H. }
        destruct e; cbn [kids o_expr o_stmt o_arm id_vis] in *; repeat match goal with H : _ /\ _ |- _ => destruct H end;
          repeat split; auto; try (apply L1; assumption); try (apply L2; assumption); intros x' <-; auto.
      + intros x x' <-. apply arm_kept_refl.
    - apply own_places. }
  apply ast_ind; intros; try (apply X; cbn [kids]; auto; fail).
  - cbn. apply H.
  - constructor.
  - cbn. apply H.
  - destruct e as [x|]; [apply H|constructor].
  - cbn. apply Forall2_app; [destruct i; [apply H|constructor]|destruct d; [apply H0|constructor]].
  - cbn. apply Forall2_app; [destruct g; [apply H|constructor]|apply H0].
Qed.

(** Everything in a macro call is at such a place. *)
Lemma in_macro_all q :
  (forall e pl, in_macro pl = true -> Forall (fun y => in_macro (fst y) = true) (exits q pl e))
  /\ (forall e pl, in_macro pl = true -> Forall (fun y => in_macro (fst y) = true) (exits_stmt q pl e))
  /\ (forall e pl, in_macro pl = true -> Forall (fun y => in_macro (fst y) = true) (exits_arm q pl e))
  /\ (forall e pl, in_macro pl = true -> Forall (fun y => in_macro (fst y) = true) (exits_local q pl e)).
Proof.
  assert (L : forall A (F : place -> A -> list (place * exit)) pl l, in_macro pl = true ->
    Forall (fun x => forall pl, in_macro pl = true -> Forall (fun y => in_macro (fst y) = true) (F pl x)) l ->
    Forall (fun y => in_macro (fst y) = true) (fold_list (@app _) [] (F pl) l)).
  { intros A F pl l I H. induction H; [constructor|]. apply Forall_app. split; auto. }
  assert (O : forall A (F : place -> A -> list (place * exit)) pl o, in_macro pl = true ->
    opt_all (fun x => forall pl, in_macro pl = true -> Forall (fun y => in_macro (fst y) = true) (F pl x)) o ->
    Forall (fun y => in_macro (fst y) = true) (fold_opt [] (F pl) o)).
  { intros A F pl [] I H; [apply H; exact I|constructor]. }
  assert (E : forall e, (forall pl, in_macro pl = true -> Forall (fun y => in_macro (fst y) = true) (inner q pl e)) ->
    forall pl, in_macro pl = true -> Forall (fun y => in_macro (fst y) = true) (exits q pl e)).
  { intros e H pl I. rewrite exits_eq. apply Forall_app. split.
    - apply H. unfold below. cbn. rewrite I. reflexivity.
    - destruct e; cbn [own_exit]; repeat constructor; auto. destruct q; [|constructor].
      destruct (quest arms) as [[]|]; repeat constructor; auto. }
  apply ast_ind; intros; try (apply E; [|assumption]; intros; cbn [inner fold_expr];
    repeat (apply Forall_app; split); auto; fail).
  - apply E; [|assumption]. intros. cbn [inner]. apply Forall_app. split; [auto|]. destruct (q && _); [constructor|auto].
  - apply E; [|assumption]. intros. cbn [inner]. destruct e; [auto|constructor].
  - apply H. assumption.
  - constructor.
  - apply H. assumption.
  - destruct e; [apply H; reflexivity|constructor].
  - rewrite exits_local_eq. apply Forall_app. split; auto.
  - rewrite exits_arm_eq. apply Forall_app. split; auto.
Qed.
Lemma macro_places q e pl : in_macro pl = true -> Forall (fun y => in_macro (fst y) = true) (exits q pl e).
Proof. apply in_macro_all. Qed.

(** ** Wrapping the branches of the last expression *)

Lemma err_unreachable P i v : is_unreachable P (err_exit i v) = true.
Proof. reflexivity. Qed.

Section Parts.
  Variable P : ctx.

  Lemma c_loop_marks la n e e' : c_loop P la n e e' -> forall m, marks m e' = marks m e.
  Proof.
    destruct e; cbn [c_loop e_attrs]; try (destruct (any_empty_attr _ NEVER); [intros ->; reflexivity|]);
      cbn [t_walk]; try (intros ->; reflexivity);
      try (intros H; repeat match goal with H : exists _, _ |- _ => destruct H | H : _ /\ _ |- _ => destruct H end; subst; reflexivity).
    - destruct k; intros H; repeat match goal with H : exists _, _ |- _ => destruct H | H : _ /\ _ |- _ => destruct H end; subst; reflexivity.
    - destruct la; intros H; repeat match goal with H : exists _, _ |- _ => destruct H | H : _ /\ _ |- _ => destruct H end; subst; reflexivity.
    - destruct la; intros H; repeat match goal with H : exists _, _ |- _ => destruct H | H : _ /\ _ |- _ => destruct H end; subst; reflexivity.
    - destruct la; intros H; repeat match goal with H : exists _, _ |- _ => destruct H | H : _ /\ _ |- _ => destruct H end; subst; reflexivity.
    - destruct (own_break la n _); [match goal with o : option expr |- _ => destruct o as [y|]; [destruct (is_marker_expr P y)|] end|];
        intros H; repeat match goal with H : exists _, _ |- _ => destruct H | H : _ /\ _ |- _ => destruct H
          | H : if ?b then _ else _ |- _ => destruct b end; subst; reflexivity.
  Qed.

  Lemma c_loop_path la n q p e' : c_loop P la n (EPath [] q p) e' -> e' = EPath [] q p.
  Proof. cbn. auto. Qed.
  Lemma c_loop_call la n f x e' :
    c_loop P la n (ECall [] f [x]) e' -> exists f' x', e' = ECall [] f' [x'] /\ c_loop P la n f f' /\ c_loop P la n x x'.
  Proof.
    cbn [c_loop e_attrs any_empty_attr existsb t_walk o_expr all2].
    intros (f' & l & -> & F & (y & s & -> & Y & ->)). exists f', y. auto.
  Qed.
  Lemma c_loop_wrap la n i v y e' :
    c_loop P la n (wrap i v y) e' -> exists y', e' = wrap i v y' /\ c_loop P la n y y'.
  Proof.
    intros H. apply c_loop_call in H. destruct H as (f' & y' & -> & F & Y). apply c_loop_path in F. subst. exists y'. auto.
  Qed.
  Lemma c_loop_val la n e e' : is_val e -> c_loop P la n e e' -> e' = e.
  Proof.
    intros V. revert e'. induction V as [|i v e Gi V IH]; intros e' H; [apply c_loop_path in H; exact H|].
    apply c_loop_wrap in H. destruct H as (y' & -> & H). apply IH in H. subst. reflexivity.
  Qed.
  Lemma c_loop_err la n i v e' : c_loop P la n (err_exit i v) e' -> e' = err_exit i v.
  Proof.
    unfold err_exit, wrap. cbn. intros H.
    repeat match goal with H : exists _, _ |- _ => destruct H | H : _ /\ _ |- _ => destruct H end; subst. reflexivity.
  Qed.
  Lemma c_loop_holds la n e e' : c_loop P la n e e' -> holds e e'.
  Proof.
    intros H. split; [split|eapply c_loop_marks; eassumption].
    - eapply (proj1 (c_loop_edits P)); eassumption.
    - intros i v y ->. apply c_loop_wrap in H. destruct H as (y' & -> & H). exists y'. split; [reflexivity|].
      eapply (proj1 (c_loop_edits P)); eassumption.
  Qed.
  Lemma opt2_none {A} (R : A -> A -> Prop) o o' : opt2 R o o' -> (o = None <-> o' = None).
  Proof. destruct o; cbn; [intros (y & -> & _); split; discriminate|intros ->; tauto]. Qed.
  Lemma c_loop_arm_kept q la n x x' : c_loop_arm P la n x x' -> arm_kept q x x'.
  Proof.
    destruct x. cbn [c_loop_arm t_arm]. intros (g' & b' & -> & G & B). cbn. split; [reflexivity|].
    split; [eapply opt2_none; exact G|]. intros _. split.
    - intros V. rewrite (c_loop_val _ _ _ _ V B). exact V.
    - intros i v ->. eapply c_loop_err; exact B.
  Qed.

  Lemma own_same q pl V e e' :
    (forall x x', o_expr V x x' -> holds x x') -> (forall x x', o_arm V x x' -> arm_kept q x x') ->
    t_walk V e e' -> Forall2 same2 (own_exit q pl e) (own_exit q pl e').
  Proof.
    intros H A W. eapply Forall2_mono; [|eapply (own_walk q V holds pl pl); eassumption].
    intros x y (E1 & E2 & K). split; [congruence|exact K].
  Qed.

  Lemma c_loop_same q :
    (forall e la n e', c_loop P la n e e' -> forall pl, Forall2 same2 (exits q pl e) (exits q pl e'))
    /\ (forall s la n s', c_loop_stmt P la n s s' -> forall pl, Forall2 same2 (exits_stmt q pl s) (exits_stmt q pl s'))
    /\ (forall x la n x', c_loop_arm P la n x x' -> forall pl, Forall2 same2 (exits_arm q pl x) (exits_arm q pl x'))
    /\ (forall x la n x', c_loop_local P la n x x' -> forall pl, Forall2 same2 (exits_local q pl x) (exits_local q pl x')).
  Proof.
    assert (R : forall l, Forall2 same2 l l) by (intros; apply Forall2_refl_of, same_refl).
    assert (O : forall A (R : option string -> bool -> A -> A -> Prop) (F : place -> A -> list (place * exit)) o la n pl,
      opt_all (fun x => forall la n y, R la n x y -> forall pl, Forall2 same2 (F pl x) (F pl y)) o ->
      opt_all (fun x => forall y, R la n x y -> Forall2 same2 (F pl x) (F pl y)) o).
    { intros A R0 F [] la n pl; cbn; eauto. }
    assert (L : forall A (R : option string -> bool -> A -> A -> Prop) (F : place -> A -> list (place * exit)) l la n pl,
      Forall (fun x => forall la n y, R la n x y -> forall pl, Forall2 same2 (F pl x) (F pl y)) l ->
      Forall (fun x => forall y, R la n x y -> Forall2 same2 (F pl x) (F pl y)) l).
    { intros. eapply Forall_impl; [|eassumption]. cbn. eauto. }
    assert (W : forall la n e e',
      kids (fun x => forall la n x', c_loop P la n x x' -> forall pl, Forall2 same2 (exits q pl x) (exits q pl x'))
           (fun x => forall la n x', c_loop_stmt P la n x x' -> forall pl, Forall2 same2 (exits_stmt q pl x) (exits_stmt q pl x'))
           (fun x => forall la n x', c_loop_arm P la n x x' -> forall pl, Forall2 same2 (exits_arm q pl x) (exits_arm q pl x')) e ->
      t_walk (RVis (c_loop P la n) (c_loop_stmt P la n) (c_loop_arm P la n) (c_loop_local P la n)) e e' ->
      forall pl, Forall2 same2 (exits q pl e) (exits q pl e')).
    { intros la n e e' K Wk pl. rewrite !exits_eq. apply Forall2_app.
      - assert (B : below pl e' = below pl e) by (eapply walk_below; exact Wk). rewrite B.
        eapply inner_walk; [| | |exact Wk].
        + cbn [o_expr o_stmt o_arm].
          destruct e; cbn [kids] in *; repeat match goal with H : _ /\ _ |- _ => destruct H end; repeat split; eauto;
            try (apply L; assumption); try (apply O; assumption).
        + intros x x'. apply c_loop_arm_kept.
        + destruct e; try exact I. destruct m as [p [x|]]; [apply R|exact I].
      - eapply own_same; [| |exact Wk]; cbn; intros x x'; [apply c_loop_holds|apply c_loop_arm_kept]. }
    apply ast_ind; intros.
    all: try match goal with
      | H : c_loop_arm _ ?l ?n _ _ |- _ =>
          rewrite !exits_arm_eq; refine (fold_arm2 (@app _) [] (@app _) [] (Forall2 same2) (Forall2_nil _) (fun a a' b b' => @Forall2_app _ _ same2 a b a' b')
                    (exits q pl) (exits q pl) (c_loop P l n) _ _ _ H); split; [apply O; assumption|eauto]
      | H : c_loop_local _ ?l ?n _ _ |- _ =>
          rewrite !exits_local_eq; refine (fold_local2 (@app _) [] (@app _) [] (Forall2 same2) (Forall2_nil _) (fun a a' b b' => @Forall2_app _ _ same2 a b a' b')
                    (exits q pl) (exits q pl) (c_loop P l n) _ _ _ H); split; apply O; assumption
      | H : c_loop_stmt _ _ _ (SMacro _ _ _) _ |- _ => cbn in H; subst; apply R
      | H : c_loop_stmt _ ?l ?n _ _ |- _ =>
          cbn in H; repeat match goal with H : exists _, _ |- _ => destruct H | H : _ /\ _ |- _ => destruct H end; subst; cbn; eauto; try constructor
      end.
    all: match goal with H : c_loop _ _ _ _ _ |- _ => revert H end;
      cbn [c_loop e_attrs]; try (destruct (any_empty_attr a NEVER); [intros ->; apply R|]).
    all: try (intros HH; refine (W _ _ _ _ _ HH _); cbn [kids]; auto; fail).
    - destruct k; try (intros HH; refine (W _ _ _ _ _ HH _); cbn [kids]; auto; fail). intros ->; apply R.
    - destruct la; [intros HH; refine (W _ _ _ _ _ HH _); cbn [kids]; auto|intros ->; apply R].
    - destruct la; [intros HH; refine (W _ _ _ _ _ HH _); cbn [kids]; auto|intros ->; apply R].
    - destruct la; [intros HH; refine (W _ _ _ _ _ HH _); cbn [kids]; auto|intros ->; apply R].
    - assert (B : forall l0 x, exits q pl (EBreak a l0 x) = match x with Some y => exits q pl y | None => [] end).
      { intros l0 x. rewrite exits_eq. unfold below. cbn [inner fold_expr own_exit]. cbn. rewrite !orb_false_r, app_nil_r.
        destruct pl, x; reflexivity. }
      destruct (own_break la n l).
      + destruct e as [y|].
        * cbn [opt_all] in H. intros (y' & Y & K). pose proof (H _ _ _ Y pl) as HY. destruct (is_marker_expr P y).
          -- subst. rewrite !B. exact HY.
          -- destruct K as (y2 & -> & v & ->). rewrite !B, exits_wrap. exact HY.
        * intros (x' & -> & v & ->). rewrite !B, exits_wrap. constructor.
      + intros (x' & -> & K). rewrite !B. destruct e; cbn in K; [destruct K as (y & -> & K); cbn in H; eauto|subst; constructor].
    - intros ->; apply R.
  Qed.

  Hypothesis GN : gen_name (cx_ident P) = true.

  Lemma c_arm_same q x x' :
    c_arm P x x' -> arm_kept q x x' /\ forall pl, Forall2 same2 (exits_arm q pl x) (exits_arm q pl x').
  Proof.
    unfold c_arm. destruct (skip_arm P x) eqn:K.
    - intros ->. split; [apply arm_kept_refl|]. intros. apply Forall2_refl_of, same_refl.
    - destruct x. intros (b' & -> & v & ->). split.
      + cbn. split; [reflexivity|]. split; [tauto|]. intros _. split; [apply iv_wrap; exact GN|].
        intros i v' ->. exfalso. cbn [skip_arm] in K. rewrite err_unreachable, orb_true_r in K. discriminate K.
      + intros pl. rewrite !exits_arm_eq. cbn [fold_arm]. rewrite exits_wrap. apply Forall2_refl_of, same_refl.
  Qed.
  Lemma c_block_same q b b' :
    c_block P b b' -> forall pl, fold_list (@app _) [] (exits_stmt q pl) b' = fold_list (@app _) [] (exits_stmt q pl) b.
  Proof.
    unfold c_block. destruct (skip_block P b); [intros ->; reflexivity|].
    intros (e' & -> & v & ->) pl. cbn [fold_list fold_right]. unfold fold_list. cbn [fold_right].
    change (exits_stmt q pl (SExpr (wrap (cx_ident P) v (EBlock [] None b)) false)) with (exits q pl (wrap (cx_ident P) v (EBlock [] None b))).
    rewrite exits_wrap, exits_block, app_nil_r. reflexivity.
  Qed.

  Lemma below_id pl : below pl (EVerbatim "") = pl.
  Proof. destruct pl. unfold below. cbn. rewrite !orb_false_r. reflexivity. Qed.

  Lemma c_if_same q : forall e e', c_if P e e' ->
    (forall pl, inner q pl e' = inner q pl e) /\ (forall pl, exits q pl e' = exits q pl e) /\ (forall pl, own_exit q pl e' = own_exit q pl e)
    /\ (forall pl, below pl e' = below pl e) /\ e_attrs e' = e_attrs e /\ head e' = head e.
  Proof.
    destruct (ast_ind (fun e => forall e', c_if P e e' ->
       (forall pl, inner q pl e' = inner q pl e) /\ (forall pl, exits q pl e' = exits q pl e) /\ (forall pl, own_exit q pl e' = own_exit q pl e)
    /\ (forall pl, below pl e' = below pl e) /\ e_attrs e' = e_attrs e /\ head e' = head e)
       (fun _ => True) (fun _ => True) (fun _ => True)) as (H & _);
      [..|exact H]; cbv beta; intros; try exact I; cbn [c_if] in *; try (subst; auto 8; fail).
    destruct H2 as (t' & els' & -> & B & K).
    assert (N : forall pl, inner q pl (EIf a c t' els') = inner q pl (EIf a c t els)).
    { intros pl. cbn [inner fold_expr]. rewrite (c_block_same q _ _ B pl). f_equal. f_equal.
      destruct els as [els|]; [|contradiction]. destruct els; try contradiction.
      - destruct K as (b' & -> & B'). cbn [fold_opt]. rewrite !exits_eq. cbn [inner fold_expr own_exit].
        rewrite (c_block_same q _ _ B'). reflexivity.
      - destruct K as (e2 & -> & K). cbn [opt_all] in H1. cbn [fold_opt]. apply H1. exact K. }
    split; [exact N|]. split; [|auto 8]. intros pl. rewrite !exits_eq. cbn [own_exit]. rewrite !app_nil_r. apply N.
  Qed.

  Lemma t_last_same q (f : expr -> expr -> Prop) pl b b' :
    Forall (fun s => match s with SExpr e _ => forall e', f e e' -> Forall2 same2 (exits q pl e) (exits q pl e') | _ => True end) b ->
    t_last f b b' -> Forall2 same2 (fold_list (@app _) [] (exits_stmt q pl) b) (fold_list (@app _) [] (exits_stmt q pl) b').
  Proof.
    intros H. revert b'. induction H as [|s b H K IH]; intros b'; cbn [t_last]; [intros ->; constructor|].
    destruct b.
    - destruct s as [| |e []|]; try (intros ->; apply Forall2_refl_of, same_refl).
      intros (e' & -> & F). unfold fold_list. cbn [fold_right]. rewrite !app_nil_r. apply H. exact F.
    - intros (r' & -> & F). apply IH in F. unfold fold_list in *. cbn [fold_right] in *.
      apply Forall2_app; [apply Forall2_refl_of, same_refl|exact F].
  Qed.

  Definition split_same (q : bool) (e e' : expr) : Prop :=
    (forall pl, Forall2 same2 (inner q pl e) (inner q pl e')) /\ (forall pl, Forall2 same2 (own_exit q pl e) (own_exit q pl e'))
    /\ (forall pl, below pl e' = below pl e) /\ e_attrs e' = e_attrs e /\ head e' = head e.
  Lemma split_same_refl q e : split_same q e e.
  Proof. split; [|split; [|split; [reflexivity|split; reflexivity]]]; intros; apply Forall2_refl_of, same_refl. Qed.
  Lemma split_same_exits q e e' : split_same q e e' -> forall pl, Forall2 same2 (exits q pl e) (exits q pl e').
  Proof. intros (H1 & H2 & H3 & _) pl. rewrite !exits_eq, H3. apply Forall2_app; auto. Qed.

  Lemma c_expr_same q : forall e e', c_expr P e e' -> split_same q e e'.
  Proof.
    destruct (ast_ind (fun e => forall e', c_expr P e e' -> split_same q e e')
      (fun s => match s with SExpr e _ => forall e', c_expr P e e' -> split_same q e e' | _ => True end)
      (fun _ => True) (fun _ => True)) as (H & _); [..|exact H]; cbv beta; intros; try exact I; try (apply H; assumption);
      match goal with H : c_expr _ _ _ |- _ => revert H end; cbn [c_expr];
      (destruct (negb (visit_last P) || _); [intros ->; apply split_same_refl|]); try (intros ->; apply split_same_refl).
    - intros (b' & -> & K). split; [|split; [constructor|split; [reflexivity|split; reflexivity]]]. intros pl. cbn [inner fold_expr].
      eapply t_last_same; [|exact K]. eapply Forall_impl; [|exact H]. intros [] Hs; auto. intros e' F. apply split_same_exits. auto.
    - destruct k; try (intros ->; apply split_same_refl).
      intros (b' & -> & K). split; [|split; [constructor|split; [reflexivity|split; reflexivity]]]. intros pl. cbn [inner fold_expr].
      eapply t_last_same; [|exact K]. eapply Forall_impl; [|exact H]. intros [] Hs; auto. intros e' F. apply split_same_exits. auto.
    - intros (arms' & -> & K). pose proof (quest_kept q _ _ _ (fun x x' H => proj1 (c_arm_same q x x' H)) K) as Q.
      assert (F : forall pl, Forall2 same2 (fold_list (@app _) [] (exits_arm q pl) arms) (fold_list (@app _) [] (exits_arm q pl) arms')).
      { intros pl. eapply fold_all2; [constructor|intros; apply Forall2_app; assumption| |exact K].
        apply Forall_forall. intros x _ y Hy. apply (proj2 (c_arm_same q x y Hy)). }
      split; [|split; [|split; [reflexivity|split; reflexivity]]]; intros pl; cbn [inner own_exit].
      + apply Forall2_app; [apply Forall2_refl_of, same_refl|]. destruct q; cbn [andb]; [|apply F].
        destruct (quest arms) as [[ok er]|], (quest arms') as [[ok' er']|]; try contradiction; [constructor|apply F].
      + destruct q; [|constructor]. destruct (quest arms) as [[ok er]|], (quest arms') as [[ok' er']|]; try contradiction; [|constructor].
        constructor; [|constructor]. split; [reflexivity|]. cbn. destruct (Q eq_refl). split; [reflexivity|].
        split; [apply holds_refl|auto].
    - intros K. destruct (c_if_same q _ _ K) as (H2 & _ & H3 & H4 & H5 & H6).
      split; [|split; [|split; [assumption|split; assumption]]]; intros pl; rewrite ?H2, ?H3; apply Forall2_refl_of, same_refl.
    - intros (b' & -> & K). split; [|split; [constructor|split; [reflexivity|split; reflexivity]]]. intros pl. cbn [inner fold_expr].
      eapply fold_all2; [constructor|intros; apply Forall2_app; assumption| |exact K].
      apply Forall_forall. intros x _ y Hy. eapply (c_loop_same q). exact Hy.
    - intros (r' & -> & K). split; [|split; [constructor|split; [reflexivity|split; reflexivity]]]. intros pl. cbn [inner fold_expr].
      apply Forall2_app; [apply split_same_exits; auto|apply Forall2_refl_of, same_refl].
    - intros (b' & -> & K). split; [|split; [constructor|split; [reflexivity|split; reflexivity]]]. intros pl. cbn [inner fold_expr].
      apply split_same_exits; auto.
  Qed.

  (** ** The first step of a visit *)

  Definition fit (q : bool) (sc : scope) (pl : place) : Prop :=
    gen_name (cx_ident P) = true /\ match cx_mode P with
    | VDefault => True
    | VReturn _ => q = false /\ (sc_closure sc = false -> cx_root P = true /\ in_macro pl = false)
    | VTry => sc_closure sc = false -> q = true /\ cx_root P = true /\ in_macro pl = false /\ in_try pl = sc_try_block sc
    end.

  Lemma root_marks e : cx_root P = true -> is_marker_expr P e = marks (cx_marker P) e.
  Proof.
    intros R. destruct e; try reflexivity. cbn [is_marker_expr]. unfold is_marker_macro, is_marker_macro_exact.
    rewrite R, orb_true_r. destruct m. reflexivity.
  Qed.
  Lemma never_empty a : any_empty_attr a NEVER = never a.
  Proof. reflexivity. Qed.

  Definition first_step (sc : scope) (e e1 : expr) : Prop :=
    match cx_mode P with
    | VReturn _ => t_return P sc e e1
    | VTry => t_try P sc e e1
    | VDefault => e1 = e
    end.

  Lemma left_treated c x :
    c = true \/ match cx_mode P, snd x with
                | VReturn _, XRet a o => excluded (cx_marker P) (fst x) a o = true
                | VTry, XTry a y => in_try (fst x) || excluded (cx_marker P) (fst x) a (Some y) = true
                | _, _ => True
                end -> treated P c x x.
  Proof.
    unfold treated. intros H. destruct c; [apply kept_refl|]. destruct H as [H|H]; [discriminate H|].
    destruct (cx_mode P); [apply kept_refl| |]; unfold return_wrapped, question_replaced;
      destruct (snd x); try rewrite H; apply kept_refl.
  Qed.

  Lemma first_exits q sc pl e e1 :
    fit q sc pl -> first_step sc e e1 ->
    (forall pl, inner q pl e1 = inner q pl e) /\ (forall pl, below pl e1 = below pl e) /\ e_attrs e1 = e_attrs e /\ head e1 = head e
    /\ Forall2 (treated P (sc_closure sc)) (own_exit q pl e) (own_exit q pl e1).
  Proof.
    assert (Z : (sc_closure sc = true \/ match cx_mode P, e with
                | VReturn _, EReturn a o => excluded (cx_marker P) pl a o = true
                | VTry, ETry a y => in_try pl || excluded (cx_marker P) pl a (Some y) = true
                | _, _ => True
                end) -> e1 = e ->
       (forall pl, inner q pl e1 = inner q pl e) /\ (forall pl, below pl e1 = below pl e) /\ e_attrs e1 = e_attrs e /\ head e1 = head e
       /\ Forall2 (treated P (sc_closure sc)) (own_exit q pl e) (own_exit q pl e1)).
    { intros H ->. split; [reflexivity|]. split; [reflexivity|]. split; [reflexivity|]. split; [reflexivity|].
      assert (L : forall x, (sc_closure sc = true \/ match cx_mode P, x with
                | VReturn _, XRet a o => excluded (cx_marker P) pl a o = true
                | VTry, XTry a y => in_try pl || excluded (cx_marker P) pl a (Some y) = true
                | _, _ => True
                end) -> Forall2 (treated P (sc_closure sc)) [(pl, x)] [(pl, x)]).
      { intros x Hx. constructor; [|constructor]. apply left_treated. exact Hx. }
      destruct e; cbn [own_exit]; try apply Forall2_nil; try (apply L; destruct (cx_mode P); exact H).
      destruct q; [|constructor]. destruct (quest arms) as [[ok er]|]; [|constructor]. apply L. right. destruct (cx_mode P); exact I. }
    unfold fit, first_step. intros [_ Ft]. revert Ft. destruct (cx_mode P) eqn:M.
    - intros _ E. apply Z; auto.
    - intros (-> & F). unfold t_return. destruct (sc_closure sc) eqn:C; cbn [negb andb]; [auto|].
      destruct (F eq_refl) as [R In]. rewrite never_empty. destruct (never (e_attrs e)) eqn:N; cbn [negb].
      { intros E. apply Z; [right|exact E]. destruct e; auto. cbn [e_attrs] in N. unfold excluded. rewrite N, orb_true_r. reflexivity. }
      destruct e; try (intros E; apply Z; auto; fail).
      assert (X : (match e with Some y => is_marker_expr P y | None => false end) = marks_opt (cx_marker P) e).
      { destruct e; [apply root_marks; exact R|reflexivity]. }
      rewrite X. cbn [e_attrs] in N. destruct (marks_opt (cx_marker P) e) eqn:Y.
      + intros E. apply Z; [right|exact E]. unfold excluded. rewrite Y, orb_true_r. reflexivity.
      + intros (x' & -> & v & ->). split; [|split; [reflexivity|split; [reflexivity|split; [reflexivity|]]]].
        * intros pl0. cbn [inner fold_expr fold_opt]. rewrite exits_wrap. destruct e; reflexivity.
        * cbn [own_exit]. constructor; [|constructor]. unfold treated. rewrite M. unfold return_wrapped. cbn [snd fst].
          unfold excluded. rewrite In, N, Y. cbn [orb]. eexists _, v, (operand e). split; [reflexivity|].
          split; [apply fw_refl|apply edits_refl].
    - intros F. unfold t_try. destruct (sc_closure sc) eqn:C; [rewrite andb_false_r|rewrite andb_true_r]; cbn [negb andb]; [auto|].
      destruct (F eq_refl) as (-> & R & In & T). rewrite never_empty, <- T.
      destruct (in_try pl) eqn:Tr; cbn [negb andb].
      { intros E. apply Z; [right|exact E]. destruct e; auto. }
      destruct (never (e_attrs e)) eqn:N; cbn [negb].
      { intros E. apply Z; [right|exact E]. destruct e; auto. cbn [e_attrs] in N. unfold excluded. rewrite N, orb_true_r. reflexivity. }
      destruct e; try (intros E; apply Z; auto; fail).
      rewrite (root_marks _ R). cbn [e_attrs] in N. destruct (marks (cx_marker P) e) eqn:Y.
      + intros E. apply Z; [right|exact E]. unfold excluded. cbn [marks_opt]. rewrite Y, orb_true_r. reflexivity.
      + intros (v & ->). split; [|split; [reflexivity|split; [reflexivity|split; [reflexivity|]]]].
        * intros pl0. cbn [inner fold_expr fold_opt question_arms quest]. cbn. rewrite app_nil_r. reflexivity.
        * cbn. constructor; [|constructor]. unfold treated. rewrite M. unfold question_replaced. cbn [snd fst].
          unfold excluded. rewrite Tr, In, N. cbn [marks_opt]. rewrite Y. cbn [orb].
          eexists _, v, e, _. split; [reflexivity|]. split; [constructor|]. split; [apply fw_refl|apply edits_refl].
  Qed.
End Parts.

(** ** The engine *)

(** Generated code that no later pass changes. *)
Inductive inert : expr -> Prop :=
| in_path q p : inert (EPath [] q p)
| in_call f x : inert f -> inert x -> inert (ECall [] f [x])
| in_ret x : inert x -> inert (EReturn [] (Some x))
| in_block x b : inert x -> inert (EBlock [] None [SExpr x b]).

Lemma val_inert e : is_val e -> inert e.
Proof. induction 1; repeat constructor. assumption. Qed.
Lemma err_inert i v : inert (err_exit i v).
Proof. repeat constructor. Qed.

Definition not_return (P : ctx) : Prop := match cx_mode P with VReturn _ => False | _ => True end.

Lemma fewer_attrs e n x a' :
  In n ["auto_enum"; "nested"; "never"; "rec"] -> find_remove_attr (e_attrs e) n = Some (x, a') -> fewer (e_attrs e) a'.
Proof. intros I H. eapply fw_drop; [|apply fw_refl]. eapply find_remove_drops; eassumption. Qed.
Lemma own_attrs q pl e a : fewer (e_attrs e) a -> Forall2 kept2 (own_exit q pl e) (own_exit q pl (set_attrs e a)).
Proof.
  intros F. destruct e; cbn [own_exit set_attrs e_attrs] in *; try constructor; try constructor; try exact F.
  - destruct q; [|constructor]. destruct (quest arms) as [[ok er]|]; constructor; [|constructor].
    unfold kept2. cbn. split; [exact F|]. split; [apply stays_refl|auto].
  - apply stays_opt_refl.
  - apply stays_refl.
Qed.

Lemma t_attrs_nil sc a' : t_attrs sc [] a' -> a' = [].
Proof. unfold t_attrs. destruct (sc_foreign sc); [auto|]. intros [_ H]. exact H. Qed.
Lemma t_attrs_fewer sc a a' : t_attrs sc a a' -> fewer a a'.
Proof.
  unfold t_attrs. destruct (sc_foreign sc); [intros ->; apply fw_refl|]. intros [_ H].
  destruct (find_remove_attr a NEVER) as [[x a1]|] eqn:F; [|subst; apply fw_refl].
  destruct H as [_ ->]. eapply fw_drop; [|apply fw_refl]. eapply (find_remove_drops _ NEVER); cbn; eauto.
Qed.

Lemma sb_closure sc a : sc_closure (scope_below sc a) = sc_closure sc.
Proof. unfold scope_below. destruct (any_attr a NAME); reflexivity. Qed.
Lemma sb_try sc a : sc_try_block (scope_below sc a) = sc_try_block sc.
Proof. unfold scope_below. destruct (any_attr a NAME); reflexivity. Qed.
Lemma scope_closure sc e :
  match e with EClosure _ _ _ => False | _ => True end ->
  sc_closure (check_expr (scope_below sc (e_attrs e)) e) = sc_closure sc.
Proof.
  rewrite <- (sb_closure sc (e_attrs e)). generalize (scope_below sc (e_attrs e)).
  intros s. destruct e; try contradiction; intros _; try destruct k; reflexivity.
Qed.
Lemma closure_scope sc e : sc_closure (check_expr (scope_below sc (e_attrs e)) e) = false -> sc_closure sc = false.
Proof.
  rewrite <- (sb_closure sc (e_attrs e)). generalize (scope_below sc (e_attrs e)).
  intros s. destruct e; try destruct k; cbn; congruence.
Qed.
Lemma scope_try sc pl e :
  in_try pl = sc_try_block sc -> in_try (below pl e) = sc_try_block (check_expr (scope_below sc (e_attrs e)) e).
Proof.
  rewrite <- (sb_try sc (e_attrs e)). generalize (scope_below sc (e_attrs e)).
  intros s H. unfold below. destruct e; try destruct k; cbn; rewrite H, ?orb_true_r, ?orb_false_r; reflexivity.
Qed.

Lemma fit_below P q sc pl e :
  match e with EMacro _ _ => False | _ => True end ->
  fit P q sc pl -> fit P q (check_expr (scope_below sc (e_attrs e)) e) (below pl e).
Proof.
  intros NM. assert (IM : in_macro pl = false -> in_macro (below pl e) = false).
  { unfold below. intros H. destruct e; try contradiction; cbn; rewrite H; reflexivity. }
  unfold fit. intros [GN Ft]. split; [exact GN|]. revert Ft. destruct (cx_mode P); [auto| |].
  - intros [H K]. split; [exact H|]. intros C. apply closure_scope in C. destruct (K C). auto.
  - intros K C. apply closure_scope in C. destruct (K C) as (H1 & H2 & H3 & H4).
    split; [exact H1|]. split; [exact H2|]. split; [auto|]. apply scope_try. exact H4.
Qed.

(** The context of a nested attribute. *)
Definition quiet (P : ctx) : Prop := cx_mode P = VDefault /\ gen_name (cx_ident P) = true.
Lemma nested_mode P h toks C : nested_ctx P (enum_name h) toks C -> quiet C.
Proof.
  unfold nested_ctx, ctx_new. intros H.
  repeat match type of H with context [match ?x with _ => _ end] => destruct x; try discriminate H end;
  injection H as <-; (split; [reflexivity|apply gen_enum_name]).
Qed.

Section Engine.
  Variables (hash : node -> N) (ta : bool).

  Record exits_ok (T : tengine) : Prop := ExitsOk {
    xo_vpath : forall P sc b q p e', q_vexpr T P sc b (EPath [] q p) e' -> e' = EPath [] q p;
    xo_dpath : forall P q p e', q_dexpr T P (EPath [] q p) e' -> e' = EPath [] q p;
    xo_vwrap : forall P sc b i v y e', q_vexpr T P sc b (wrap i v y) e' -> exists y', e' = wrap i v y' /\ edited y y';
    xo_dwrap : forall P i v y e', q_dexpr T P (wrap i v y) e' -> exists y', e' = wrap i v y' /\ edited y y';
    xo_vinert : forall P sc b e e', not_return P -> inert e -> q_vexpr T P sc b e e' -> e' = e;
    xo_dinert : forall P e e', inert e -> q_dexpr T P e e' -> e' = e;
    xo_vsinert : forall P sc e semi s', not_return P -> inert e -> q_vstmt T P sc (SExpr e semi) s' -> s' = SExpr e semi;
    xo_dsinert : forall P e semi s', inert e -> q_dstmt T P (SExpr e semi) s' -> s' = SExpr e semi;
    xo_varm : forall P sc q x x', (q = true -> not_return P) -> q_varm T P sc x x' -> arm_kept q x x';
    xo_vexpr : forall P sc q pl b e e', fit P q sc pl -> q_vexpr T P sc b e e' ->
      forall pl', Forall2 (treated P (sc_closure sc)) (exits q pl e) (exits q pl' e');
    xo_vstmt : forall P sc q pl s s', fit P q sc pl -> q_vstmt T P sc s s' ->
      forall pl', Forall2 (treated P (sc_closure sc)) (exits_stmt q pl s) (exits_stmt q pl' s');
    xo_varms : forall P sc q pl x x', fit P q sc pl -> q_varm T P sc x x' ->
      forall pl', Forall2 (treated P (sc_closure sc)) (exits_arm q pl x) (exits_arm q pl' x');
    xo_vlocal : forall P sc q pl x x', fit P q sc pl -> q_vlocal T P sc x x' ->
      forall pl', Forall2 (treated P (sc_closure sc)) (exits_local q pl x) (exits_local q pl' x');
    xo_dexpr : forall P q pl e e', q_dexpr T P e e' -> forall pl', Forall2 kept2 (exits q pl e) (exits q pl' e');
    xo_dstmt : forall P q pl s s', q_dstmt T P s s' -> forall pl', Forall2 kept2 (exits_stmt q pl s) (exits_stmt q pl' s')
  }.

  Variable T : tengine.
  Hypothesis G : exits_ok T.
  Hypothesis ED : makes_edits T.

  Lemma v_stays P sc b x x' : q_vexpr T P sc b x x' -> stays x x'.
  Proof.
    intros H. split; [eapply me_vexpr; eassumption|]. intros i v y ->. eapply xo_vwrap; eassumption.
  Qed.
  Lemma d_stays P x x' : q_dexpr T P x x' -> stays x x'.
  Proof.
    intros H. split; [eapply me_dexpr; eassumption|]. intros i v y ->. eapply xo_dwrap; eassumption.
  Qed.
  Lemma d_arm q P x x' : t_arm (q_dexpr T P) x x' -> arm_kept q x x'.
  Proof.
    destruct x. cbn. intros (g' & b' & -> & Gd & B). split; [reflexivity|]. split; [eapply opt2_none; exact Gd|].
    intros _. split.
    - intros V. rewrite (xo_dinert _ G _ _ _ (val_inert _ V) B). exact V.
    - intros i v ->. apply (xo_dinert _ G _ _ _ (err_inert i v) B).
  Qed.
  Lemma fit_not_return P q sc pl : fit P q sc pl -> q = true -> not_return P.
  Proof. unfold fit, not_return. intros [_ F]. revert F. destruct (cx_mode P); auto. intros [-> _] H. discriminate H. Qed.

  (** Kept *)
  Lemma own_kept q V pl pl' e e' :
    (forall x x', o_expr V x x' -> stays x x') -> (forall x x', o_arm V x x' -> arm_kept q x x') ->
    t_walk V e e' -> Forall2 kept2 (own_exit q pl e) (own_exit q pl' e').
  Proof.
    intros H A W. eapply Forall2_mono; [|eapply (own_walk q V stays pl pl'); eassumption].
    intros x y (_ & _ & K). eapply through_kept; [|exact K]. auto.
  Qed.

  Lemma d_local q P pl pl' x x' : t_local (q_dexpr T P) x x' -> Forall2 kept2 (exits_local q pl x) (exits_local q pl' x').
  Proof.
    intros H. rewrite !exits_local_eq.
    refine (fold_local2 (@app _) [] (@app _) [] (Forall2 kept2) (Forall2_nil _) (fun a a' b b' => @Forall2_app _ _ kept2 a b a' b')
              (exits q pl) (exits q pl') (q_dexpr T P) _ _ _ H).
    destruct x. split; [destruct init|destruct div]; cbn; try exact I; intros; eapply xo_dexpr; eassumption.
  Qed.

  Lemma dwalk_kept q P pl pl' pl1 pl1' e e' : t_walk (td_vis T P) e e' ->
    Forall2 kept2 (inner q pl1 e) (inner q pl1' e') /\ Forall2 kept2 (own_exit q pl e) (own_exit q pl' e').
  Proof.
    intros W. split.
    - eapply inner_walk; [| | |exact W].
      + apply kids_all; cbn [o_expr o_stmt o_arm td_vis]; intros x x' H.
        * eapply xo_dexpr; eassumption.
        * eapply xo_dstmt; eassumption.
        * rewrite !exits_arm_eq.
          refine (fold_arm2 (@app _) [] (@app _) [] (Forall2 kept2) (Forall2_nil _) (fun a a' b b' => @Forall2_app _ _ kept2 a b a' b')
                    (exits q pl1) (exits q pl1') (q_dexpr T P) _ _ _ H).
          destruct x. split; [destruct guard; cbn; [|exact I]|]; intros; eapply xo_dexpr; eassumption.
      + intros x x' H. eapply d_arm. exact H.
      + destruct e; try exact I. destruct m as [p [x|]]; [apply kept_places|exact I].
    - eapply own_kept; [| |exact W]; cbn; intros x x' H; [eapply d_stays; exact H|eapply d_arm; exact H].
  Qed.

  Lemma vwalk_treated q P sc sc1 pl pl' e e' :
    fit P q sc pl ->
    (head e <> HMacro -> fit P q sc1 (below pl e)) -> (head e <> HClosure -> sc_closure sc1 = sc_closure sc) ->
    forall C, (C = P \/ C = set_markers [] P) -> forall a, t_walk (tv_vis T sc1 C) (set_attrs e a) e' ->
    (forall pl1', Forall2 (treated P (sc_closure sc)) (inner q (below pl e) e) (inner q pl1' e'))
    /\ Forall2 kept2 (own_exit q pl (set_attrs e a)) (own_exit q pl' e').
  Proof.
    intros F F1 E1 C HC a W. assert (FC : fit C q sc pl) by (destruct HC as [->| ->]; exact F).
    assert (TC : treated C = treated P) by (destruct HC as [->| ->]; reflexivity).
    assert (FN : q = true -> not_return C) by (eapply fit_not_return; exact FC).
    split.
    - intros pl1'. rewrite <- (inner_attrs q (below pl e) e a).
      destruct (head e) eqn:HE.
      { destruct e; try discriminate HE. cbn in W. destruct W as (b' & -> & _). constructor. }
      { destruct e; try discriminate HE. cbn in W. subst. destruct m as [p [x|]]; [|constructor]. cbn [inner set_attrs].
        match goal with |- Forall2 _ (exits q ?l _) _ => set (plm := l) end.
        assert (X : Forall (fun y => in_macro (fst y) = true) (exits q plm x)).
        { apply macro_places. unfold plm, below. cbn. apply orb_true_r. }
        pose proof (proj1 (kept_places q) x plm pl1') as K.
        revert X K. generalize (exits q plm x), (exits q pl1' x). clear.
        intros l l' X K. induction K; [constructor|]. inversion X; subst. constructor; [apply macro_treated; assumption|auto]. }
      assert (F2 : fit C q sc1 (below pl e)).
      { destruct HC as [->| ->]; apply F1; discriminate. }
      rewrite <- (E1 ltac:(discriminate)), <- TC. eapply inner_walk; [| | |exact W].
      + apply kids_all; cbn [o_expr o_stmt o_arm tv_vis]; intros x x' H.
        * eapply xo_vexpr; eassumption.
        * eapply xo_vstmt; eassumption.
        * eapply xo_varms; eassumption.
      + intros x x' H. cbn in H. eapply xo_varm; eassumption.
      + destruct e; try exact I; discriminate HE.
    - eapply own_kept; [| |exact W]; cbn; intros x x' H; [eapply v_stays; exact H|eapply xo_varm; eassumption].
  Qed.

  (** Nested attributes *)

  Lemma body_kept q P pl pl' e e' :
    quiet P -> t_body ta T P e e' -> Forall2 kept2 (exits q pl e) (exits q pl' e').
  Proof.
    intros M (e1 & k & C & _ & D). pose proof (split_same_exits _ _ _ (c_expr_same P (proj2 M) q _ _ C) pl) as S.
    assert (K : Forall2 kept2 (exits q pl e1) (exits q pl' e')).
    { destruct D as [(_ & _ & D)|D]; [eapply xo_dexpr; eassumption|].
      assert (F : fit P q scope0 pl) by (unfold fit; destruct M as [M GN]; rewrite M; split; [exact GN|exact I]).
      pose proof (xo_vexpr _ G _ _ _ _ _ _ _ F D pl') as X. unfold treated in X. rewrite (proj1 M) in X. exact X. }
    eapply Forall2_comp; [|exact S|exact K]. intros x y z H1 H2. eapply kept_trans; [apply same_kept; exact H1|exact H2].
  Qed.
  Lemma closure_exits q pl a ps b : exits q pl (EClosure a ps b) = [].
  Proof. reflexivity. Qed.
  Lemma expand_kept q P pl pl' e e' :
    quiet P -> t_expand ta T P e e' -> Forall2 kept2 (exits q pl e) (exits q pl' e').
  Proof.
    intros M. unfold t_expand. destruct e; try (apply body_kept; exact M). destruct (visit_last P); [|apply body_kept; exact M].
    intros (b' & -> & _). constructor.
  Qed.
  Lemma build_exits q pl P e e' : t_build_expr P e e' -> exits q pl e' = exits q pl e.
  Proof.
    intros [->|(n & _ & ->)]; [reflexivity|]. rewrite exits_block. unfold fold_list. cbn [fold_right].
    cbn [exits_stmt fold_stmt]. rewrite app_nil_r. reflexivity.
  Qed.
  Lemma parent_kept q P pl pl' e semi e' :
    quiet P -> t_parent_expr ta T P e semi e' -> Forall2 kept2 (exits q pl e) (exits q pl' e').
  Proof.
    intros M. unfold t_parent_expr. destruct (is_dummy P); [intros H; eapply xo_dexpr; eassumption|].
    intros (e1 & X & B). rewrite (build_exits q pl' _ _ _ B). eapply expand_kept; [|exact X]. destruct semi; exact M.
  Qed.
  Lemma collect_mode P t : cx_mode (t_collect ta P t) = cx_mode P.
  Proof. unfold t_collect. destruct t; [|reflexivity]. destruct ta; reflexivity. Qed.
  Lemma parent_local_kept q P pl pl' l l' :
    quiet P -> t_parent_local ta T P l l' -> Forall2 kept2 (exits_local q pl l) (exits_local q pl' l').
  Proof.
    intros M. destruct l as [a p t i d]. cbn [t_parent_local]. cbv zeta. intros (i' & d' & -> & H).
    rewrite !exits_local_eq. cbn [fold_local].
    assert (O : forall C o o', opt2 (q_dexpr T C) o o' -> Forall2 kept2 (fold_opt [] (exits q pl) o) (fold_opt [] (exits q pl') o')).
    { intros C [x|] o'; cbn; [intros (y & -> & K); eapply xo_dexpr; eassumption|intros ->; constructor]. }
    apply Forall2_app; destruct (is_dummy _).
    - destruct H as [H1 H2]. eapply O; eassumption.
    - destruct H as (-> & e & e1 & e2 & -> & -> & X & B). cbn [fold_opt]. rewrite (build_exits q pl' _ _ _ B).
      eapply expand_kept; [|exact X]. unfold t_collect. destruct t, ta; exact M.
    - destruct H as [H1 H2]. eapply O; eassumption.
    - destruct H as (-> & _). destruct d; [apply kept_places|constructor].
  Qed.

  Lemma kept2_trans x y z : kept2 x y -> kept2 y z -> kept2 x z.
  Proof. apply kept_trans. Qed.

  Lemma vs_exits V q P (rel : place * exit -> place * exit -> Prop) pl plb e semi e' :
    (forall x y z, rel x y -> kept2 y z -> rel x z) ->
    (forall C, (C = P \/ C = set_markers [] P) -> forall a x pl', t_walk (V C) (set_attrs e a) x ->
       (forall pl1', Forall2 rel (inner q plb e) (inner q pl1' x))
       /\ Forall2 kept2 (own_exit q pl (set_attrs e a)) (own_exit q pl' x)) ->
    t_vs_expr hash ta T V P e semi e' -> forall pl',
    exists L O, exits q pl' e' = L ++ O /\ Forall2 rel (inner q plb e) L /\ Forall2 kept2 (own_exit q pl e) O.
  Proof.
    intros RK W. unfold t_vs_expr. destruct (find_remove_attr (e_attrs e) NAME) as [[at_ a']|] eqn:F.
    - cbv zeta. intros (p & toks & C & e1 & _ & NC & K & L) pl'.
      destruct (W (set_markers [] P) (or_intror eq_refl) a' e1 pl K) as [W1 W2].
      pose proof (parent_kept q C pl pl' _ _ _ (nested_mode _ _ _ _ NC) L) as PK. rewrite (exits_eq q pl e1) in PK.
      apply Forall2_app_inv_l in PK. destruct PK as (L1 & O1 & PL & PO & E). exists L1, O1. split; [exact E|]. split.
      + eapply Forall2_comp; [exact RK|apply W1|exact PL].
      + eapply Forall2_comp; [exact kept2_trans| |exact PO].
        eapply Forall2_comp; [exact kept2_trans| |exact W2]. apply own_attrs. eapply (fewer_attrs e NAME); [cbn; auto|exact F].
    - intros K pl'. rewrite <- (set_attrs_same e) in K. destruct (W P (or_introl eq_refl) _ e' pl' K) as [W1 W2].
      rewrite set_attrs_same in W2. exists (inner q (below pl' e') e'), (own_exit q pl' e'). split; [apply exits_eq|]. auto.
  Qed.

  Lemma marker_kept q pl pl' P e e' : t_marker P e e' -> Forall2 kept2 (exits q pl e) (exits q pl' e').
  Proof.
    unfold t_marker. destruct e; try (intros ->; apply kept_places). destruct m as [p x].
    destruct (is_ident p (cx_marker P)); [|intros ->; apply kept_places].
    intros (y & v & -> & ->). rewrite !exits_eq. cbn [inner own_exit fold_expr]. unfold fold_list. cbn [fold_right].
    rewrite !app_nil_r.
    match goal with |- Forall2 _ _ (exits q ?l (EPath _ _ _) ++ _) => change (exits q l (EPath [] false (ctor (cx_ident P) v))) with (@nil (place * exit)) end.
    apply kept_places.
  Qed.
  Lemma attrs_kept q pl pl' sc e a : t_attrs sc (e_attrs e) a -> Forall2 kept2 (exits q pl e) (exits q pl' (set_attrs e a)).
  Proof.
    intros H. eapply Forall2_comp; [exact kept2_trans| |apply kept_places].
    rewrite (exits_eq q pl e), (exits_eq q pl (set_attrs e a)), inner_attrs, below_attrs.
    apply Forall2_app; [apply Forall2_refl_of; intros; apply kept_refl|]. apply own_attrs. eapply t_attrs_fewer; exact H.
  Qed.

  Lemma visit_exits P sc q pl semi e e' : fit P q sc pl -> t_visit_expr hash ta T P sc semi e e' ->
    forall pl', Forall2 (treated P (sc_closure sc)) (exits q pl e) (exits q pl' e').
  Proof.
    intros F. unfold t_visit_expr. cbv zeta. intros (e1 & e2 & e3 & H1 & H2 & H3 & H4) pl'.
    set (sc1 := check_expr _ e) in *.
    assert (X1 : (forall pl, inner q pl e1 = inner q pl e) /\ (forall pl, below pl e1 = below pl e)
      /\ e_attrs e1 = e_attrs e /\ head e1 = head e
      /\ Forall2 (treated P (sc_closure sc)) (own_exit q pl e) (own_exit q pl e1)).
    { assert (S1 : match e with EClosure _ _ _ | EBlk _ _ _ => True | _ => sc1 = scope_below sc (e_attrs e) end) by (destruct e; cbn; auto).
      destruct (match e with EClosure _ _ _ | EBlk _ _ _ => true | _ => false end) eqn:S2.
      - assert (e1 = e).
        { destruct e; try discriminate S2; destruct (cx_mode P); try exact H1; unfold t_return, t_try in H1;
            destruct (_ && _) in H1; exact H1. }
        subst e1. split; [reflexivity|]. split; [reflexivity|]. split; [reflexivity|]. split; [reflexivity|].
        destruct e; try discriminate S2; constructor.
      - assert (S3 : sc1 = scope_below sc (e_attrs e)) by (destruct e; try discriminate S2; exact S1).
        apply (first_exits P q sc pl e e1 F). unfold first_step. rewrite S3 in H1.
        destruct (cx_mode P); [exact H1| |]; unfold t_return, t_try in *; rewrite ?sb_closure, ?sb_try in H1; exact H1. }
    destruct X1 as (I1 & B1 & A1 & D1 & O1).
    assert (X2 : (forall pl, Forall2 same2 (inner q pl e1) (inner q pl e2)) /\ (forall pl, Forall2 kept2 (own_exit q pl e1) (own_exit q pl e2))
      /\ (forall pl, below pl e2 = below pl e1) /\ head e2 = head e1).
    { assert (R : e2 = e1 -> (forall pl, Forall2 same2 (inner q pl e1) (inner q pl e2)) /\ (forall pl, Forall2 kept2 (own_exit q pl e1) (own_exit q pl e2))
      /\ (forall pl, below pl e2 = below pl e1) /\ head e2 = head e1).
      { intros ->. split; [intros; apply Forall2_refl_of, same_refl|]. split; [intros; apply own_places|]. split; reflexivity. }
      destruct (sc_foreign sc1); [exact (R H2)|].
      destruct (find_remove_attr (e_attrs e1) NESTED) as [[at_ a']|] eqn:FR; [|exact (R H2)].
      destruct H2 as (_ & H2 & _). destruct (c_expr_same P (proj1 F) q _ _ H2) as (K1 & K2 & K3 & _ & K4).
      split; [intros; rewrite <- (inner_attrs q pl0 e1 a'); apply K1|]. split; [|split].
      - intros pl0. eapply Forall2_comp; [exact kept2_trans| |eapply Forall2_mono; [exact same_kept|apply K2]].
        apply own_attrs. eapply (fewer_attrs e1 NESTED); [cbn; auto|exact FR].
      - intros pl0. rewrite K3. apply below_attrs.
      - rewrite K4. apply head_attrs. }
    destruct X2 as (I2 & O2 & B2 & D2).
    destruct (vs_exits (tv_vis T sc1) q P (treated P (sc_closure sc)) pl (below pl e2) e2 semi e3
                (treated_kept P (sc_closure sc))) with (pl' := pl') as (L & O & E3 & T3 & K3).
    { intros C HC a x pl0 W. eapply (vwalk_treated q P sc sc1); [exact F| | |exact HC|exact W].
      - intros N. rewrite B2, B1. apply fit_below; [|exact F]. rewrite D2, D1 in N. destruct e; try exact I. exfalso. apply N. reflexivity.
      - intros N. apply scope_closure. rewrite D2, D1 in N. destruct e; try exact I. exfalso. apply N. reflexivity. }
    { exact H3. }
    assert (X3 : Forall2 (treated P (sc_closure sc)) (exits q pl e) (exits q pl' e3)).
    { rewrite exits_eq, E3. apply Forall2_app.
      - rewrite <- I1, <- B1, <- B2. eapply Forall2_comp; [apply same_treated|apply I2|exact T3].
      - eapply Forall2_comp; [apply treated_kept| |exact K3].
        eapply Forall2_comp; [apply treated_kept|exact O1|apply O2]. }
    destruct (negb (sc_foreign sc1) || _); [|subst; exact X3].
    destruct H4 as (e4 & a' & M & A & ->).
    eapply Forall2_comp; [apply treated_kept| |eapply attrs_kept; exact A].
    eapply Forall2_comp; [apply treated_kept|exact X3|eapply marker_kept; exact M].
    Unshelve. exact pl'.
  Qed.

  Lemma opt_treated P q sc pl pl' o o' : fit P q sc pl -> opt2 (q_vexpr T P sc false) o o' ->
    Forall2 (treated P (sc_closure sc)) (fold_opt [] (exits q pl) o) (fold_opt [] (exits q pl') o').
  Proof. intros F. destruct o; cbn; [intros (y & -> & K); eapply xo_vexpr; eassumption|intros ->; constructor]. Qed.

  Lemma visit_arm_exits P sc q pl x x' : fit P q sc pl -> t_visit_arm T P sc x x' ->
    forall pl', Forall2 (treated P (sc_closure sc)) (exits_arm q pl x) (exits_arm q pl' x').
  Proof.
    intros F. destruct x as [a p g b c]. cbn [t_visit_arm]. intros (a1 & b1 & g2 & b2 & a2 & H1 & Hg & Hb & A & ->) pl'.
    rewrite !exits_arm_eq. cbn [fold_arm]. apply Forall2_app; [apply opt_treated; assumption|].
    eapply Forall2_comp; [apply same_treated| |eapply xo_vexpr; eassumption].
    destruct (sc_foreign sc); [destruct H1 as [-> ->]; apply Forall2_refl_of, same_refl|].
    destruct (find_remove_attr a NESTED) as [[at_ a']|]; [|destruct H1 as [-> ->]; apply Forall2_refl_of, same_refl].
    destruct H1 as (_ & _ & K & _). apply split_same_exits. eapply c_expr_same; [apply (proj1 F)|exact K].
  Qed.
  Lemma visit_local_exits P sc q pl x x' : fit P q sc pl -> t_visit_local T P sc x x' ->
    forall pl', Forall2 (treated P (sc_closure sc)) (exits_local q pl x) (exits_local q pl' x').
  Proof.
    intros F. destruct x as [a p t i d]. cbn [t_visit_local]. intros (a1 & i1 & i2 & d2 & a2 & H1 & Hi & Hd & A & ->) pl'.
    rewrite !exits_local_eq. cbn [fold_local]. apply Forall2_app; [|apply opt_treated; assumption].
    eapply Forall2_comp; [apply same_treated| |eapply opt_treated; eassumption].
    destruct (sc_foreign sc); [destruct H1 as [-> ->]; apply Forall2_refl_of, same_refl|].
    destruct (find_remove_attr a NESTED) as [[at_ a']|]; [|destruct H1 as [-> ->]; apply Forall2_refl_of, same_refl].
    destruct H1 as (_ & K). destruct i as [y|]; cbn in K; [destruct K as (z & -> & _ & K & _)|subst; constructor].
    cbn [fold_opt]. apply split_same_exits. eapply c_expr_same; [apply (proj1 F)|exact K].
  Qed.

  Lemma val_c_expr P e e' : is_val e -> c_expr P e e' -> e' = e.
  Proof. intros V. destruct V; cbn [c_expr wrap]; destruct (negb (visit_last P) || _); auto. Qed.
  Lemma err_c_expr P i v e' : c_expr P (err_exit i v) e' -> e' = err_exit i v.
  Proof.
    intros H. unfold err_exit in H. cbn [c_expr] in H. fold (err_exit i v) in H. rewrite err_unreachable, orb_true_r in H. exact H.
  Qed.

  Lemma visit_arm_kept P sc q x x' : (q = true -> not_return P) -> t_visit_arm T P sc x x' -> arm_kept q x x'.
  Proof.
    intros N. destruct x as [a p g b c]. cbn [t_visit_arm]. intros (a1 & b1 & g2 & b2 & a2 & H1 & Hg & Hb & A & ->).
    cbn. split; [reflexivity|]. split; [eapply opt2_none; exact Hg|]. intros Q. specialize (N Q).
    assert (B : is_val b \/ (exists i v, b = err_exit i v) -> b1 = b).
    { intros HB. destruct (sc_foreign sc); [apply H1|]. destruct (find_remove_attr a NESTED) as [[at_ a']|]; [|apply H1].
      destruct H1 as (_ & _ & K & _). destruct HB as [HB|(i & v & ->)]; [eapply val_c_expr; eassumption|eapply err_c_expr; exact K]. }
    split.
    - intros V. rewrite (B (or_introl V)) in Hb. rewrite (xo_vinert _ G _ _ _ _ _ N (val_inert _ V) Hb). exact V.
    - intros i v ->. rewrite (B ltac:(right; eauto)) in Hb. apply (xo_vinert _ G _ _ _ _ _ N (err_inert i v) Hb).
  Qed.

  (** Generated code *)
  Lemma visit_plain P sc b e e' :
    e_attrs e = [] -> match e with EMacro _ _ | EReturn _ _ | ETry _ _ => False | _ => True end ->
    t_visit_expr hash ta T P sc b e e' ->
    exists e3, t_walk (tv_vis T (check_expr (scope_below sc []) e) P) e e3
      /\ (e_attrs e3 = [] -> match e3 with EMacro _ _ => False | _ => True end -> e' = e3).
  Proof.
    intros A N. unfold t_visit_expr. cbv zeta. rewrite A. intros (e1 & e2 & e3 & H1 & H2 & H3 & H4).
    assert (e1 = e).
    { destruct (cx_mode P); [exact H1| |]; unfold t_return, t_try in H1; destruct (_ && _) in H1; try exact H1;
        destruct e; try contradiction; exact H1. }
    subst e1. assert (e2 = e). { rewrite A in H2. cbn in H2. destruct (sc_foreign _); exact H2. } subst e2.
    unfold t_vs_expr in H3. rewrite A in H3. cbn [find_remove_attr find_remove] in H3. exists e3. split; [exact H3|].
    intros A3 N3. destruct (negb _ || _); [|exact H4]. destruct H4 as (e4 & a' & M & K & ->).
    assert (e4 = e3) by (destruct e3; try contradiction; exact M). subst e4. rewrite A3 in K. apply t_attrs_nil in K. subst a'.
    rewrite <- A3. apply set_attrs_same.
  Qed.

  Lemma visit_path P sc b q p e' : t_visit_expr hash ta T P sc b (EPath [] q p) e' -> e' = EPath [] q p.
  Proof.
    intros H. apply visit_plain in H; [|reflexivity|exact I]. destruct H as (e3 & W & E). cbn in W. subst e3. apply E; [reflexivity|exact I].
  Qed.
  Lemma visit_wrap P sc b i v y e' :
    t_visit_expr hash ta T P sc b (wrap i v y) e' -> exists y', e' = wrap i v y' /\ edited y y'.
  Proof.
    intros H. apply visit_plain in H; [|reflexivity|exact I]. destruct H as (e3 & W & E).
    cbn [wrap t_walk tv_vis o_expr all2] in W. destruct W as (f' & l & -> & F & (z & r & -> & Z & ->)).
    apply (xo_vpath _ G) in F. subst f'. exists z. split; [apply E; [reflexivity|exact I]|]. eapply me_vexpr; eassumption.
  Qed.
  Lemma visit_inert P sc b e e' : not_return P -> inert e -> t_visit_expr hash ta T P sc b e e' -> e' = e.
  Proof.
    intros NR N H. destruct N as [q p|f x F X|x X|x s X].
    - eapply visit_path; exact H.
    - apply visit_plain in H; [|reflexivity|exact I]. destruct H as (e3 & W & E).
      cbn [t_walk tv_vis o_expr all2] in W. destruct W as (f' & l & -> & F' & (z & r & -> & Z & ->)).
      apply (xo_vinert _ G _ _ _ _ _ NR F) in F'. apply (xo_vinert _ G _ _ _ _ _ NR X) in Z. subst. apply E; [reflexivity|exact I].
    - unfold t_visit_expr in H. cbv zeta in H. destruct H as (e1 & e2 & e3 & H1 & H2 & H3 & H4).
      assert (e1 = EReturn [] (Some x)).
      { unfold not_return in NR. destruct (cx_mode P); [exact H1|contradiction|]. unfold t_try in H1. destruct (_ && _) in H1; exact H1. }
      subst e1. assert (e2 = EReturn [] (Some x)). { cbn in H2. destruct (sc_foreign _) in H2; exact H2. } subst e2.
      unfold t_vs_expr in H3. cbn [e_attrs find_remove_attr find_remove t_walk tv_vis o_expr opt2] in H3.
      destruct H3 as (o & -> & (y & -> & Y)). apply (xo_vinert _ G _ _ _ _ _ NR X) in Y. subst y.
      destruct (negb _ || _) in H4; [|exact H4]. destruct H4 as (e4 & a' & M & K & ->). cbn in M. subst e4. cbn [e_attrs] in K.
      apply t_attrs_nil in K. subst a'. reflexivity.
    - apply visit_plain in H; [|reflexivity|exact I]. destruct H as (e3 & W & E).
      cbn [t_walk tv_vis o_stmt all2] in W. destruct W as (l & -> & (z & r & -> & Z & ->)).
      apply (xo_vsinert _ G _ _ _ _ _ NR X) in Z. subst. apply E; [reflexivity|exact I].
  Qed.

  Lemma dummy_plain P b e e' : e_attrs e = [] -> t_vs_expr hash ta T (td_vis T) P e b e' -> t_walk (td_vis T P) e e'.
  Proof. intros A. unfold t_vs_expr. rewrite A. cbn [find_remove_attr find_remove]. auto. Qed.
  Lemma dummy_inert P b e e' : inert e -> t_vs_expr hash ta T (td_vis T) P e b e' -> e' = e.
  Proof.
    intros N H. apply dummy_plain in H; [|destruct N; reflexivity]. destruct N as [q p|f x F X|x X|x s X];
      cbn [t_walk td_vis o_expr o_stmt all2 opt2] in H.
    - exact H.
    - destruct H as (f' & l & -> & F' & (z & r & -> & Z & ->)).
      apply (xo_dinert _ G _ _ _ F) in F'. apply (xo_dinert _ G _ _ _ X) in Z. subst. reflexivity.
    - destruct H as (o & -> & (y & -> & Y)). apply (xo_dinert _ G _ _ _ X) in Y. subst. reflexivity.
    - destruct H as (l & -> & (z & r & -> & Z & ->)). apply (xo_dsinert _ G _ _ _ _ X) in Z. subst. reflexivity.
  Qed.
  Lemma dummy_wrap P b i v y e' :
    t_vs_expr hash ta T (td_vis T) P (wrap i v y) b e' -> exists y', e' = wrap i v y' /\ edited y y'.
  Proof.
    intros H. apply dummy_plain in H; [|reflexivity]. cbn [wrap t_walk td_vis o_expr all2] in H.
    destruct H as (f' & l & -> & F & (z & r & -> & Z & ->)). apply (xo_dpath _ G) in F. subst f'.
    exists z. split; [reflexivity|]. eapply me_dexpr; eassumption.
  Qed.
  Lemma dummy_exits P q pl b e e' : t_vs_expr hash ta T (td_vis T) P e b e' ->
    forall pl', Forall2 kept2 (exits q pl e) (exits q pl' e').
  Proof.
    intros H pl'. destruct (vs_exits (td_vis T) q P kept2 pl (below pl e) e b e' kept2_trans) with (pl' := pl') as (L & O & E & K1 & K2).
    - intros C _ a x pl0 W. rewrite <- (inner_attrs q (below pl e) e a). split; [intros pl1'; apply (dwalk_kept q C pl pl0 _ _ _ _ W)|].
      apply (dwalk_kept q C pl pl0 pl pl0 _ _ W).
    - exact H.
    - rewrite exits_eq, E. apply Forall2_app; assumption.
  Qed.

  Lemma macro_stmt_kept P q c pl pl' a m semi :
    Forall2 (treated P c) (exits_stmt q pl (SMacro a m semi)) (exits_stmt q pl' (SMacro a m semi)).
  Proof.
    destruct m as [p [x|]]; [|constructor].
    change (Forall2 (treated P c) (exits q (Place (in_try pl) true) x) (exits q (Place (in_try pl') true) x)).
    assert (X := macro_places q x (Place (in_try pl) true) eq_refl).
    assert (K := proj1 (kept_places q) x (Place (in_try pl) true) (Place (in_try pl') true)).
    revert X K. generalize (exits q (Place (in_try pl) true) x), (exits q (Place (in_try pl') true) x). clear.
    intros l l' X K. induction K; [constructor|]. inversion X; subst. constructor; [apply macro_treated; assumption|auto].
  Qed.

  Lemma step_exits : exits_ok (t_step hash ta T).
  Proof.
    assert (DL : forall P q pl pl' x x', t_local (q_dexpr T P) x x' -> Forall2 kept2 (exits_local q pl x) (exits_local q pl' x'))
      by (intros; eapply d_local; eassumption).
    constructor; cbn [q_vexpr q_vstmt q_varm q_vlocal q_dexpr q_dstmt t_step].
    - apply visit_path.
    - intros P q p e' H. apply dummy_plain in H; [exact H|reflexivity].
    - apply visit_wrap.
    - intros P i v y e'. apply dummy_wrap.
    - intros P sc b e e'. apply visit_inert.
    - intros P e e'. apply dummy_inert.
    - intros P sc e semi s' NR N (e' & -> & H). rewrite (xo_vinert _ G _ _ _ _ _ NR N H). reflexivity.
    - intros P e semi s' N. cbn [t_vs_stmt]. intros (e' & -> & H). rewrite (dummy_inert _ _ _ _ N H). reflexivity.
    - intros P sc q x x'. apply visit_arm_kept.
    - intros P sc q pl b e e'. apply visit_exits.
    - intros P sc q pl s s' F H pl'. unfold t_visit_stmt in H.
      destruct s as [l|it|e semi|a m semi].
      + destruct l as [a p t i d].
        assert (F1 : fit P q (scope_below sc a) pl).
        { revert F. unfold fit. rewrite sb_closure, sb_try. auto. }
        rewrite <- (sb_closure sc a). cbn [s_attrs] in H.
        cbn [t_vs_stmt] in H. destruct (find_remove_attr a NAME) as [[at_ a']|] eqn:FR.
        * cbv zeta in H. destruct H as (toks & C & l1 & l' & _ & NC & K & -> & M). cbn in K.
          assert (F2 : fit (set_markers [] P) q (scope_below sc a) pl) by exact F1.
          pose proof (xo_vlocal _ G _ _ _ _ _ _ F2 K pl) as K1.
          pose proof (parent_local_kept q C pl pl' _ _ (nested_mode _ _ _ _ NC) M) as K2.
          change (treated (set_markers [] P)) with (treated P) in K1.
          rewrite exits_local_eq in K1. cbn [fold_local] in K1.
          change (Forall2 (treated P (sc_closure (scope_below sc a))) (exits_local q pl (Local a p t i d)) (exits_local q pl' l')).
          rewrite (exits_local_eq q pl). cbn [fold_local]. eapply Forall2_comp; [apply treated_kept|exact K1|exact K2].
        * destruct H as (l' & -> & K). cbn in K. exact (xo_vlocal _ G _ _ _ _ _ _ F1 K pl').
      + cbn in H. subst. constructor.
      + destruct H as (e' & -> & H). exact (xo_vexpr _ G _ _ _ _ _ _ _ F H pl').
      + cbn in H. subst. apply macro_stmt_kept.
    - intros P sc q pl x x'. apply visit_arm_exits.
    - intros P sc q pl x x'. apply visit_local_exits.
    - intros P q pl e e'. apply dummy_exits.
    - intros P q pl s s' H pl'. destruct s as [[a p t i d]|it|e semi|a m semi]; cbn [t_vs_stmt] in H.
      + destruct (find_remove_attr a NAME) as [[at_ a']|] eqn:FR.
        * cbv zeta in H. destruct H as (toks & C & l1 & l' & _ & NC & K & -> & M).
          pose proof (DL (set_markers [] P) q pl pl _ _ K) as K1.
          pose proof (parent_local_kept q C pl pl' _ _ (nested_mode _ _ _ _ NC) M) as K2.
          rewrite exits_local_eq in K1. cbn [fold_local] in K1.
          change (Forall2 kept2 (exits_local q pl (Local a p t i d)) (exits_local q pl' l')).
          rewrite (exits_local_eq q pl). cbn [fold_local]. eapply Forall2_comp; [exact kept2_trans|exact K1|exact K2].
        * destruct H as (l' & -> & K). exact (DL _ q pl pl' _ _ K).
      + subst. constructor.
      + destruct H as (e' & -> & H). exact (dummy_exits _ _ _ _ _ _ H pl').
      + subst. apply kept_places.
  Qed.
End Engine.

Theorem engine_exits hash ta n : exits_ok (tengine_n hash ta n).
Proof.
  induction n as [|n IH]; [constructor; cbn; intros; contradiction|].
  cbn [tengine_n]. apply step_exits; [exact IH|apply engine_edits].
Qed.
