(** The relations of Twin.v only make the edits of Edits.v. *)

Require Import Coq.Strings.String Coq.Lists.List Coq.Bool.Bool Coq.Arith.Arith Coq.NArith.NArith Lia.
Require Import Verif.Syntax Verif.Context Verif.ExprModel Verif.TypeAnalysis Verif.AutoEnum Verif.Edits.
Require Import Verif.AstInd Verif.VisitRun Verif.EngineRun Verif.Twin.
Import ListNotations.
Open Scope string_scope.
Open Scope list_scope.

(** Some edits. *)
Definition edits (e e' : expr) : Prop := exists t, ed_expr (fun _ => true) t e e'.
Definition edits_stmt (s s' : stmt) : Prop := exists t, ed_stmt (fun _ => true) t s s'.
Definition edits_stmts (s s' : list stmt) : Prop := exists t, ed_stmts (fun _ => true) t s s'.
Definition edits_arm (x x' : arm) : Prop := exists t, ed_arm (fun _ => true) t x x'.
Definition edits_local (x x' : local) : Prop := exists t, ed_local (fun _ => true) t x x'.
Definition edits_opt (x x' : option expr) : Prop := exists t, ed_opt (fun _ => true) t x x'.

Lemma edits_refl e : edits e e.
Proof. exists []. constructor. Qed.
Lemma edits_trans e1 e2 e3 : edits e1 e2 -> edits e2 e3 -> edits e1 e3.
Proof. intros [t1 H1] [t2 H2]. exists (t1 ++ t2). eapply ee_trans; eassumption. Qed.
Lemma edits_opt_refl o : edits_opt o o.
Proof. exists []. destruct o; repeat constructor. Qed.
Lemma edits_arm_refl x : edits_arm x x.
Proof. exists ([] ++ []). destruct x. constructor; [destruct guard; repeat constructor|constructor]. Qed.
Lemma edits_local_refl x : edits_local x x.
Proof. exists ([] ++ []). destruct x. constructor; [destruct init|destruct div]; repeat constructor. Qed.
Lemma edits_stmt_refl x : edits_stmt x x.
Proof.
  destruct x; [destruct (edits_local_refl l) as [t H]; exists t| | |]; try (exists []); repeat constructor. assumption.
Qed.
Lemma edits_stmts_refl b : edits_stmts b b.
Proof.
  induction b as [|s b [t IH]]; [exists []; constructor|].
  destruct (edits_stmt_refl s) as [t' H]. exists (t' ++ t). constructor; assumption.
Qed.
Lemma edits_arm_trans e1 e2 e3 : edits_arm e1 e2 -> edits_arm e2 e3 -> edits_arm e1 e3.
Proof. intros [t1 H1] [t2 H2]. exists (t1 ++ t2). eapply ea_trans; eassumption. Qed.
Lemma edits_local_trans e1 e2 e3 : edits_local e1 e2 -> edits_local e2 e3 -> edits_local e1 e3.
Proof. intros [t1 H1] [t2 H2]. exists (t1 ++ t2). eapply el_trans; eassumption. Qed.
Lemma edits_stmts_trans e1 e2 e3 : edits_stmts e1 e2 -> edits_stmts e2 e3 -> edits_stmts e1 e3.
Proof. intros [t1 H1] [t2 H2]. exists (t1 ++ t2). eapply ess_trans; eassumption. Qed.
Lemma edits_opt_trans e1 e2 e3 : edits_opt e1 e2 -> edits_opt e2 e3 -> edits_opt e1 e3.
Proof.
  intros [t1 H1] [t2 H2]. exists (t1 ++ t2). inversion H1; subst; inversion H2; subst; [apply (eo_none (fun _ => true))|].
  constructor. eapply ee_trans; eassumption.
Qed.
Lemma edits_stmt_trans e1 e2 e3 : edits_stmt e1 e2 -> edits_stmt e2 e3 -> edits_stmt e1 e3.
Proof.
  intros [t1 H1] [t2 H2]. exists (t1 ++ t2). inversion H1; subst; inversion H2; subst;
    [apply (es_item (fun _ => true))|apply (es_macro (fun _ => true))|constructor; eapply el_trans|constructor; eapply ee_trans]; eassumption.
Qed.

Lemma all2_edits_stmt b b' : all2 edits_stmt b b' -> edits_stmts b b'.
Proof.
  revert b'. induction b as [|s b IH]; cbn [all2]; intros b'; [intros ->; exists []; constructor|].
  intros (y & r & -> & [t H] & K). destruct (IH _ K) as [t' H']. exists (t ++ t'). constructor; assumption.
Qed.
Lemma all2_edits b b' : all2 edits b b' -> exists t, ed_exprs (fun _ => true) t b b'.
Proof.
  revert b'. induction b as [|s b IH]; cbn [all2]; intros b'; [intros ->; exists []; constructor|].
  intros (y & r & -> & [t H] & K). destruct (IH _ K) as [t' H']. exists (t ++ t'). constructor; assumption.
Qed.
Lemma all2_edits_arm b b' : all2 edits_arm b b' -> exists t, ed_arms (fun _ => true) t b b'.
Proof.
  revert b'. induction b as [|s b IH]; cbn [all2]; intros b'; [intros ->; exists []; constructor|].
  intros (y & r & -> & [t H] & K). destruct (IH _ K) as [t' H']. exists (t ++ t'). constructor; assumption.
Qed.
Lemma opt2_edits o o' : opt2 edits o o' -> edits_opt o o'.
Proof. destruct o; cbn; [intros (y & -> & [t H]); exists t; constructor; assumption|intros ->; exists []; constructor]. Qed.

Lemma all2_impl {A} (R1 R2 : A -> A -> Prop) l l' :
  Forall (fun x => forall y, R1 x y -> R2 x y) l -> all2 R1 l l' -> all2 R2 l l'.
Proof.
  intros H. revert l'. induction H as [|x l H1 H2 IH]; cbn; intros l'; [auto|].
  intros (y & s & -> & K1 & K2). exists y, s. auto.
Qed.
Lemma all2_mono {A} (R1 R2 : A -> A -> Prop) l l' :
  (forall x y, R1 x y -> R2 x y) -> all2 R1 l l' -> all2 R2 l l'.
Proof. intros H. apply all2_impl. apply Forall_forall. auto. Qed.
Lemma opt2_impl {A} (R1 R2 : A -> A -> Prop) o o' :
  opt_all (fun x => forall y, R1 x y -> R2 x y) o -> opt2 R1 o o' -> opt2 R2 o o'.
Proof. destruct o; cbn; [intros H (y & -> & K); eauto|auto]. Qed.
Lemma opt2_mono {A} (R1 R2 : A -> A -> Prop) o o' :
  (forall x y, R1 x y -> R2 x y) -> opt2 R1 o o' -> opt2 R2 o o'.
Proof. intros H. apply opt2_impl. destruct o; cbn; auto. Qed.

(** ** Congruence *)

Lemma edits_match a s s' arms arms' : edits s s' -> all2 edits_arm arms arms' -> edits (EMatch a s arms) (EMatch a s' arms').
Proof. intros [t H] K. apply all2_edits_arm in K. destruct K as [t' K]. exists (t ++ t'). constructor; assumption. Qed.
Lemma edits_if a c c' b b' o o' : edits c c' -> edits_stmts b b' -> edits_opt o o' -> edits (EIf a c b o) (EIf a c' b' o').
Proof. intros [t H] [t1 K] [t2 L]. exists (t ++ t1 ++ t2). constructor; assumption. Qed.
Lemma edits_block a l b b' : edits_stmts b b' -> edits (EBlock a l b) (EBlock a l b').
Proof. intros [t H]. exists t. constructor; assumption. Qed.
Lemma edits_blk k a b b' : edits_stmts b b' -> edits (EBlk k a b) (EBlk k a b').
Proof. intros [t H]. exists t. constructor; assumption. Qed.
Lemma edits_loop a l b b' : edits_stmts b b' -> edits (ELoop a l b) (ELoop a l b').
Proof. intros [t H]. exists t. constructor; assumption. Qed.
Lemma edits_call a f f' l l' : edits f f' -> all2 edits l l' -> edits (ECall a f l) (ECall a f' l').
Proof. intros [t H] K. apply all2_edits in K. destruct K as [t' K]. exists (t ++ t'). constructor; assumption. Qed.
Lemma edits_method a f f' m l l' : edits f f' -> all2 edits l l' -> edits (EMethodCall a f m l) (EMethodCall a f' m l').
Proof. intros [t H] K. apply all2_edits in K. destruct K as [t' K]. exists (t ++ t'). constructor; assumption. Qed.
Lemma edits_paren a e e' : edits e e' -> edits (EParen a e) (EParen a e').
Proof. intros [t H]. exists t. constructor; assumption. Qed.
Lemma edits_arm_parts a p g g' b b' c : edits_opt g g' -> edits b b' -> edits_arm (Arm a p g b c) (Arm a p g' b' c).
Proof. intros [t H] [t1 K]. exists (t ++ t1). constructor; assumption. Qed.
Lemma edits_local_parts a p t i i' d d' : edits_opt i i' -> edits_opt d d' -> edits_local (Local a p t i d) (Local a p t i' d').
Proof. intros [u H] [u1 K]. exists (u ++ u1). constructor; assumption. Qed.
Lemma edits_sexpr e e' b : edits e e' -> edits_stmt (SExpr e b) (SExpr e' b).
Proof. intros [t H]. exists t. constructor; assumption. Qed.
Lemma edits_slocal l l' : edits_local l l' -> edits_stmt (SLocal l) (SLocal l').
Proof. intros [t H]. exists t. constructor; assumption. Qed.
Lemma edits_break a l o o' : edits_opt o o' -> edits (EBreak a l o) (EBreak a l o').
Proof. intros [t H]. exists t. constructor; assumption. Qed.
Lemma edits_return a o o' : edits_opt o o' -> edits (EReturn a o) (EReturn a o').
Proof. intros [t H]. exists t. constructor; assumption. Qed.
Lemma edits_some x y : edits x y -> edits_opt (Some x) (Some y).
Proof. intros [t H]. exists t. constructor; assumption. Qed.
Lemma edits_closure a ps b b' : edits b b' -> edits (EClosure a ps b) (EClosure a ps b').
Proof. intros [t H]. exists t. constructor; assumption. Qed.

Lemma arm_edits (f : expr -> expr -> Prop) x x' :
  match x with Arm _ _ g b _ => opt_all (fun e => forall e', f e e' -> edits e e') g /\ (forall e', f b e' -> edits b e') end ->
  t_arm f x x' -> edits_arm x x'.
Proof.
  destruct x. cbn. intros [H1 H2] (g' & b' & -> & K1 & K2). apply edits_arm_parts; [|auto].
  apply opt2_edits. eapply opt2_impl; eassumption.
Qed.
Lemma local_edits (f : expr -> expr -> Prop) x x' :
  match x with Local _ _ _ i d => opt_all (fun e => forall e', f e e' -> edits e e') i
     /\ opt_all (fun e => forall e', f e e' -> edits e e') d end ->
  t_local f x x' -> edits_local x x'.
Proof.
  destruct x. cbn. intros [H1 H2] (g' & b' & -> & K1 & K2).
  apply edits_local_parts; apply opt2_edits; eapply opt2_impl; eassumption.
Qed.
Lemma stmt_edits (fe : expr -> expr -> Prop) (fl : local -> local -> Prop) s s' :
  match s with SExpr e _ => forall e', fe e e' -> edits e e' | SLocal l => forall l', fl l l' -> edits_local l l' | _ => True end ->
  t_stmt fe fl s s' -> edits_stmt s s'.
Proof.
  destruct s; cbn; intros H; [intros (l' & -> & K)|intros ->|intros (l' & -> & K)|intros ->];
    [apply edits_slocal; auto|apply edits_stmt_refl|apply edits_sexpr; auto|apply edits_stmt_refl].
Qed.

(** Hypotheses for the children of an expression. *)
Definition kids (He : expr -> Prop) (Hs : stmt -> Prop) (Ha : arm -> Prop) (e : expr) : Prop :=
  match e with
  | EBlock _ _ b | EBlk _ _ b | ELoop _ _ b => Forall Hs b
  | EMatch _ s arms => He s /\ Forall Ha arms
  | EIf _ c t els => He c /\ Forall Hs t /\ opt_all He els
  | ELet _ _ x | ETry _ x | EClosure _ _ x | EParen _ x => He x
  | EWhile _ _ c b | EFor _ _ _ c b => He c /\ Forall Hs b
  | EBreak _ _ x | EReturn _ x => opt_all He x
  | EMethodCall _ r _ l | ECall _ r l => He r /\ Forall He l
  | EOther _ _ l => Forall He l
  | EContinue _ _ | EMacro _ _ | EPath _ _ _ | EVerbatim _ => True
  end.

Lemma kids_all (He : expr -> Prop) (Hs : stmt -> Prop) (Ha : arm -> Prop) e :
  (forall x, He x) -> (forall x, Hs x) -> (forall x, Ha x) -> kids He Hs Ha e.
Proof.
  intros. assert (O : forall o, opt_all He o) by (destruct o; cbn; auto).
  destruct e; cbn; repeat split; auto; apply Forall_forall; auto.
Qed.

Lemma walk_edits V e e' :
  kids (fun x => forall x', o_expr V x x' -> edits x x') (fun x => forall x', o_stmt V x x' -> edits_stmt x x')
       (fun x => forall x', o_arm V x x' -> edits_arm x x') e ->
  t_walk V e e' -> edits e e'.
Proof.
  assert (L : forall b b', Forall (fun x => forall x', o_stmt V x x' -> edits_stmt x x') b ->
                all2 (o_stmt V) b b' -> exists t, ed_stmts (fun _ => true) t b b').
  { intros b b' H K. apply all2_edits_stmt. eapply all2_impl; eassumption. }
  assert (LE : forall b b', Forall (fun x => forall x', o_expr V x x' -> edits x x') b ->
                all2 (o_expr V) b b' -> exists t, ed_exprs (fun _ => true) t b b').
  { intros b b' H K. apply all2_edits. eapply all2_impl; eassumption. }
  assert (LA : forall b b', Forall (fun x => forall x', o_arm V x x' -> edits_arm x x') b ->
                all2 (o_arm V) b b' -> exists t, ed_arms (fun _ => true) t b b').
  { intros b b' H K. apply all2_edits_arm. eapply all2_impl; eassumption. }
  assert (O : forall b b', opt_all (fun x => forall x', o_expr V x x' -> edits x x') b ->
                opt2 (o_expr V) b b' -> exists t, ed_opt (fun _ => true) t b b').
  { intros b b' H K. apply opt2_edits. eapply opt2_impl; eassumption. }
  destruct e; cbn [kids t_walk]; intros K W;
    repeat match goal with H : exists _, _ |- _ => destruct H | H : _ /\ _ |- _ => destruct H end; subst;
    try (exists []; constructor; fail);
    repeat match goal with
      | K : Forall _ ?b, H : all2 (o_stmt V) ?b _ |- _ => apply (L _ _ K) in H; destruct H
      | K : Forall _ ?b, H : all2 (o_expr V) ?b _ |- _ => apply (LE _ _ K) in H; destruct H
      | K : Forall _ ?b, H : all2 (o_arm V) ?b _ |- _ => apply (LA _ _ K) in H; destruct H
      | K : opt_all _ ?b, H : opt2 _ ?b _ |- _ => apply (O _ _ K) in H; destruct H
      | K : forall _, o_expr V ?b _ -> _, H : o_expr V ?b _ |- _ => apply K in H; destruct H
      end;
    eexists; constructor; eassumption.
Qed.

(** ** The parts *)

Section Parts.
  Variable P : ctx.

  Lemma wraps_arm_edits a p g b b' c : wraps P b b' -> edits_arm (Arm a p g b c) (Arm a p g b' true).
  Proof. intros [v ->]. eexists. constructor. Qed.

  Lemma c_arm_edits x x' : c_arm P x x' -> edits_arm x x'.
  Proof.
    unfold c_arm. destruct (skip_arm P x); [intros ->; apply edits_arm_refl|].
    destruct x. intros (b' & -> & W). apply wraps_arm_edits. assumption.
  Qed.

  Lemma c_if_edits : forall e e', c_if P e e' -> edits e e'.
  Proof.
    destruct (ast_ind (fun e => forall e', c_if P e e' -> edits e e') (fun _ => True) (fun _ => True) (fun _ => True)) as (H & _);
      [..|exact H]; cbv beta; intros; try exact I; cbn [c_if] in *; try (subst; apply edits_refl).
    destruct H2 as (t' & els' & -> & B & K).
    assert (BT : forall els, edits (EIf a c t els) (EIf a c t' els)).
    { intros els0. unfold c_block in B. destruct (skip_block P t); [subst; apply edits_refl|].
      destruct B as (e' & -> & v & ->). eexists. apply ee_then. }
    destruct els as [els|]; [|contradiction]. destruct els; try contradiction.
    - destruct K as (b' & -> & B'). eapply edits_trans; [apply BT|].
      unfold c_block in B'. destruct (skip_block P b); [subst; apply edits_refl|].
      destruct B' as (e' & -> & v & ->). eexists. apply ee_else.
    - destruct K as (e2 & -> & K). cbn [opt_all] in H1. eapply edits_trans; [apply BT|].
      apply edits_if; [apply edits_refl|apply edits_stmts_refl|]. apply edits_some. apply H1. exact K.
  Qed.

  Lemma c_loop_edits :
    (forall e label nested e', c_loop P label nested e e' -> edits e e')
    /\ (forall s label nested s', c_loop_stmt P label nested s s' -> edits_stmt s s')
    /\ (forall x label nested x', c_loop_arm P label nested x x' -> edits_arm x x')
    /\ (forall x label nested x', c_loop_local P label nested x x' -> edits_local x x').
  Proof.
    assert (O : forall A (R : option string -> bool -> A -> A -> Prop) (Q : A -> A -> Prop) o la n,
      opt_all (fun x => forall la n y, R la n x y -> Q x y) o -> opt_all (fun x => forall y, R la n x y -> Q x y) o).
    { intros A R Q [] la n; cbn; eauto. }
    assert (L : forall A (R : option string -> bool -> A -> A -> Prop) (Q : A -> A -> Prop) l la n,
      Forall (fun x => forall la n y, R la n x y -> Q x y) l -> Forall (fun x => forall y, R la n x y -> Q x y) l).
    { intros. eapply Forall_impl; [|eassumption]. cbn. eauto. }
    assert (W : forall la n e e',
      kids (fun x => forall la n x', c_loop P la n x x' -> edits x x')
           (fun x => forall la n x', c_loop_stmt P la n x x' -> edits_stmt x x')
           (fun x => forall la n x', c_loop_arm P la n x x' -> edits_arm x x') e ->
      t_walk (RVis (c_loop P la n) (c_loop_stmt P la n) (c_loop_arm P la n) (c_loop_local P la n)) e e' -> edits e e').
    { intros la n e e' K. apply walk_edits. cbn [o_expr o_stmt o_arm].
      destruct e; cbn [kids] in *; repeat match goal with H : _ /\ _ |- _ => destruct H end; repeat split; eauto;
        try (apply L; assumption); try (apply O; assumption). }
    apply ast_ind; intros.
    all: try match goal with
      | H : c_loop_arm _ ?l ?n _ _ |- _ => refine (arm_edits (c_loop P l n) _ _ _ H); split; [apply O; assumption|eauto]
      | H : c_loop_local _ ?l ?n _ _ |- _ => refine (local_edits (c_loop P l n) _ _ _ H); split; apply O; assumption
      | H : c_loop_stmt _ ?l ?n _ _ |- _ => refine (stmt_edits (c_loop P l n) (c_loop_local P l n) _ _ _ H); eauto
      end.
    all: match goal with H : c_loop _ _ _ _ _ |- _ => revert H end;
      cbn [c_loop e_attrs]; try (destruct (any_empty_attr a NEVER); [intros ->; apply edits_refl|]).
    all: try (apply W; cbn [kids]; auto; fail).
    - destruct k; try (apply W; cbn [kids]; auto; fail). intros ->; apply edits_refl.
    - destruct label; [apply W; cbn [kids]; auto|intros ->; apply edits_refl].
    - destruct label; [apply W; cbn [kids]; auto|intros ->; apply edits_refl].
    - destruct label; [apply W; cbn [kids]; auto|intros ->; apply edits_refl].
    - destruct (own_break label nested l).
      + destruct e as [y|].
        * cbn [opt_all] in H. intros (y' & Y & K). apply H in Y. destruct (is_marker_expr P y).
          -- subst. apply edits_break. apply edits_some. assumption.
          -- destruct K as (y2 & -> & v & ->). eapply edits_trans; [apply edits_break, edits_some; eassumption|].
             eexists. apply (ee_wrap_break _ _ _ _ _ (Some y')).
        * intros (x' & -> & v & ->). eexists. apply (ee_wrap_break _ _ _ _ _ None).
      + intros (x' & -> & K). apply edits_break, opt2_edits. eapply opt2_impl; [|exact K]. apply O. exact H.
    - intros ->; apply edits_refl.
  Qed.

  Lemma t_last_edits (f : expr -> expr -> Prop) b b' :
    Forall (fun s => match s with SExpr e _ => forall e', f e e' -> edits e e' | _ => True end) b ->
    t_last f b b' -> edits_stmts b b'.
  Proof.
    intros H. revert b'. induction H as [|s b H K IH]; intros b'; cbn [t_last]; [intros ->; apply edits_stmts_refl|].
    destruct b.
    - destruct s as [| |e []|]; try (intros ->; apply edits_stmts_refl).
      intros (e' & -> & F). apply all2_edits_stmt. cbn. exists (SExpr e' false), []. split; [reflexivity|].
      split; [|reflexivity]. apply edits_sexpr. auto.
    - intros (r' & -> & F). apply IH in F. destruct F as [t F]. destruct (edits_stmt_refl s) as [t' G].
      exists (t' ++ t). constructor; assumption.
  Qed.

  Lemma c_expr_edits : forall e e', c_expr P e e' -> edits e e'.
  Proof.
    destruct (ast_ind (fun e => forall e', c_expr P e e' -> edits e e')
      (fun s => match s with SExpr e _ => forall e', c_expr P e e' -> edits e e' | _ => True end)
      (fun _ => True) (fun _ => True)) as (H & _); [..|exact H]; cbv beta; intros; try exact I; try (apply H; assumption);
      match goal with H : c_expr _ _ _ |- _ => revert H end; cbn [c_expr];
      (destruct (negb (visit_last P) || _); [intros ->; apply edits_refl|]); try (intros ->; apply edits_refl).
    - intros (b' & -> & K). apply edits_block. eapply t_last_edits; eassumption.
    - destruct k; try (intros ->; apply edits_refl).
      intros (b' & -> & K). apply edits_blk. eapply t_last_edits; eassumption.
    - intros (b' & -> & K). apply edits_match; [apply edits_refl|]. eapply all2_mono; [apply c_arm_edits|exact K].
    - apply c_if_edits.
    - intros (b' & -> & K). apply edits_loop. apply all2_edits_stmt. eapply all2_mono; [|exact K]. intros. eapply c_loop_edits; eassumption.
    - intros (b' & -> & K). apply edits_method; [auto|]. clear. induction args; cbn; [reflexivity|].
      eexists _, _. split; [reflexivity|]. split; [apply edits_refl|assumption].
    - intros (b' & -> & K). apply edits_paren. auto.
  Qed.

  Lemma t_return_edits sc e e' : t_return P sc e e' -> edits e e'.
  Proof.
    unfold t_return. destruct (_ && _); [|intros ->; apply edits_refl].
    destruct e; try (intros ->; apply edits_refl).
    destruct (match e with Some y => _ | None => _ end); [intros ->; apply edits_refl|].
    intros (x' & -> & v & ->). eexists. constructor.
  Qed.
  Lemma t_try_edits sc e e' : t_try P sc e e' -> edits e e'.
  Proof.
    unfold t_try. destruct (_ && _); [|intros ->; apply edits_refl].
    destruct e; try (intros ->; apply edits_refl).
    destruct (is_marker_expr P e); [intros ->; apply edits_refl|].
    intros (v & ->). eexists. constructor.
  Qed.
  Lemma t_marker_edits e e' : t_marker P e e' -> edits e e'.
  Proof.
    unfold t_marker. destruct e; try (intros ->; apply edits_refl). destruct m as [p x].
    destruct (is_ident p (cx_marker P)) eqn:E; [|intros ->; apply edits_refl].
    intros (y & v & -> & ->). eexists. eapply ee_marker; [|exact E]. reflexivity.
  Qed.
End Parts.

Lemma drops_edits e n x a' :
  In n ["auto_enum"; "nested"; "never"; "rec"] -> find_remove_attr (e_attrs e) n = Some (x, a') -> edits e (set_attrs e a').
Proof. intros I H. exists []. apply ee_attr. eapply find_remove_drops; eassumption. Qed.
Lemma set_attrs_same e : set_attrs e (e_attrs e) = e.
Proof. destruct e; reflexivity. Qed.

Lemma t_attrs_expr sc e a' : t_attrs sc (e_attrs e) a' -> edits e (set_attrs e a').
Proof.
  unfold t_attrs. destruct (sc_foreign sc); [intros ->; rewrite set_attrs_same; apply edits_refl|].
  intros (_ & H). destruct (find_remove_attr (e_attrs e) NEVER) as [[x a1]|] eqn:F.
  - destruct H as (_ & ->). apply (drops_edits e NEVER x); cbn; auto.
  - subst. rewrite set_attrs_same. apply edits_refl.
Qed.
Lemma t_attrs_arm sc a a' p g b c : t_attrs sc a a' -> edits_arm (Arm a p g b c) (Arm a' p g b c).
Proof.
  unfold t_attrs. destruct (sc_foreign sc); [intros ->; apply edits_arm_refl|].
  intros (_ & H). destruct (find_remove_attr a NEVER) as [[x a1]|] eqn:F.
  - destruct H as (_ & ->). exists []. apply ea_attr. eapply (find_remove_drops _ NEVER); cbn; eauto.
  - subst. apply edits_arm_refl.
Qed.
Lemma t_attrs_local sc a a' p g b c : t_attrs sc a a' -> edits_local (Local a p g b c) (Local a' p g b c).
Proof.
  unfold t_attrs. destruct (sc_foreign sc); [intros ->; apply edits_local_refl|].
  intros (_ & H). destruct (find_remove_attr a NEVER) as [[x a1]|] eqn:F.
  - destruct H as (_ & ->). exists []. apply el_attr. eapply (find_remove_drops _ NEVER); cbn; eauto.
  - subst. apply edits_local_refl.
Qed.

(** ** The engine *)

Section Engine.
  Variables (hash : node -> N) (ta : bool).

  Record makes_edits (T : tengine) : Prop := MakesEdits {
    me_vexpr : forall P sc b e e', q_vexpr T P sc b e e' -> edits e e';
    me_vstmt : forall P sc s s', q_vstmt T P sc s s' -> edits_stmt s s';
    me_varm : forall P sc x x', q_varm T P sc x x' -> edits_arm x x';
    me_vlocal : forall P sc x x', q_vlocal T P sc x x' -> edits_local x x';
    me_dexpr : forall P e e', q_dexpr T P e e' -> edits e e';
    me_dstmt : forall P s s', q_dstmt T P s s' -> edits_stmt s s'
  }.

  Variable T : tengine.
  Hypothesis G : makes_edits T.

  Lemma vwalk_edits sc P e e' : t_walk (tv_vis T sc P) e e' -> edits e e'.
  Proof.
    apply walk_edits. apply kids_all; intros x x' H; cbn in H;
      [eapply me_vexpr|eapply me_vstmt|eapply me_varm]; eassumption.
  Qed.
  Lemma dwalk_edits P e e' : t_walk (td_vis T P) e e' -> edits e e'.
  Proof.
    apply walk_edits. apply kids_all; intros x x' H; cbn in H;
      [eapply me_dexpr; eassumption|eapply me_dstmt; eassumption|].
    eapply arm_edits; [|exact H]. destruct x. split; [destruct guard; cbn; [|exact I]|]; intros; eapply me_dexpr; eassumption.
  Qed.

  Lemma body_edits P e e' : t_body ta T P e e' -> edits e e'.
  Proof.
    intros (e1 & k & C & _ & [(_ & _ & D)|D]); (eapply edits_trans; [eapply c_expr_edits; eassumption|]);
      [eapply me_dexpr|eapply me_vexpr]; eassumption.
  Qed.
  Lemma expand_edits P e e' : t_expand ta T P e e' -> edits e e'.
  Proof.
    unfold t_expand. destruct e; try apply body_edits. destruct (visit_last P); [|apply body_edits].
    intros (b' & -> & B). apply edits_closure. eapply body_edits; eassumption.
  Qed.
  Lemma build_edits P e1 e e' : edits e1 e -> t_build_expr P e e' -> edits e1 e'.
  Proof. intros [t E] [->|(n & N & ->)]; [exists t; assumption|]. eexists. apply ee_enum; eassumption. Qed.
  Lemma parent_edits P e semi e' : t_parent_expr ta T P e semi e' -> edits e e'.
  Proof.
    unfold t_parent_expr. destruct (is_dummy P); [apply (me_dexpr _ G)|]. intros (e1 & X & B).
    eapply build_edits; [eapply expand_edits; eassumption|exact B].
  Qed.

  Lemma type_edits P a p t i d : edits_local (Local a p t i d) (Local a p (t_type ta P t) i d).
  Proof.
    unfold t_type. destruct t as [t|]; [|apply edits_local_refl].
    destruct (ta && _) eqn:E; [|apply edits_local_refl]. apply andb_prop in E. destruct E as [_ E].
    exists []. apply el_type. apply (proj1 (collect_has_impl (cx_args P))).
    unfold collect_impl_trait in E. cbn in E. destruct (collect_ty (cx_args P) t); [discriminate|congruence].
  Qed.

  Lemma parent_local_edits P l l' : t_parent_local ta T P l l' -> edits_local l l'.
  Proof.
    destruct l as [a p t i d]. cbn [t_parent_local]. cbv zeta. intros (i' & d' & -> & H).
    eapply edits_local_trans; [apply (type_edits P)|]. apply edits_local_parts; destruct (is_dummy _).
    - destruct H as [H1 H2]. apply opt2_edits; eapply opt2_mono; [|eassumption]; intros; eapply me_dexpr; eassumption.
    - destruct H as (-> & e & e1 & e2 & -> & -> & X & B). apply edits_some.
      eapply build_edits; [eapply expand_edits; eassumption|exact B].
    - destruct H as [H1 H2]. apply opt2_edits; eapply opt2_mono; [|eassumption]; intros; eapply me_dexpr; eassumption.
    - destruct H as (-> & _). apply edits_opt_refl.
  Qed.

  Lemma vs_expr_edits V P e semi e' :
    (forall C e e', t_walk (V C) e e' -> edits e e') -> t_vs_expr hash ta T V P e semi e' -> edits e e'.
  Proof.
    intros W. unfold t_vs_expr. destruct (find_remove_attr (e_attrs e) NAME) as [[at_ a']|] eqn:F; [|apply W].
    cbv zeta. intros (p & toks & C & e1 & _ & _ & K & L).
    eapply edits_trans; [eapply drops_edits; [|exact F]; cbn; auto|].
    eapply edits_trans; [eapply W; exact K|eapply parent_edits; exact L].
  Qed.

  Lemma vs_stmt_edits V P s s' :
    (forall C e e', t_walk (V C) e e' -> edits e e') -> (forall C l l', o_local (V C) l l' -> edits_local l l') ->
    t_vs_stmt hash ta T V P s s' -> edits_stmt s s'.
  Proof.
    intros W L. destruct s as [[a p t i d]| | |]; cbn [t_vs_stmt]; try (intros ->; apply edits_stmt_refl).
    - destruct (find_remove_attr a NAME) as [[at_ a']|] eqn:F.
      + cbv zeta. intros (toks & C & l1 & l' & _ & _ & K & -> & M). apply edits_slocal.
        eapply edits_local_trans; [exists []; apply el_attr; eapply (find_remove_drops _ NAME); [cbn; auto|exact F]|].
        eapply edits_local_trans; [eapply L; exact K|eapply parent_local_edits; exact M].
      + intros (l' & -> & K). apply edits_slocal. eapply L; exact K.
    - intros (e' & -> & K). apply edits_sexpr. eapply vs_expr_edits; eassumption.
  Qed.

  Lemma visit_expr_edits P sc semi e e' : t_visit_expr hash ta T P sc semi e e' -> edits e e'.
  Proof.
    unfold t_visit_expr. cbv zeta. set (sc1 := check_expr _ _). intros (e1 & e2 & e3 & H1 & H2 & H3 & H4).
    assert (E1 : edits e e1).
    { destruct (cx_mode P); [subst; apply edits_refl|eapply t_return_edits; exact H1|eapply t_try_edits; exact H1]. }
    assert (E2 : edits e1 e2).
    { destruct (sc_foreign sc1); [subst; apply edits_refl|].
      destruct (find_remove_attr (e_attrs e1) NESTED) as [[at_ a']|] eqn:F; [|subst; apply edits_refl].
      destruct H2 as (_ & H2 & _). eapply edits_trans; [eapply drops_edits; [|exact F]; cbn; auto|].
      eapply c_expr_edits; exact H2. }
    assert (E3 : edits e2 e3) by (eapply vs_expr_edits; [intros; eapply vwalk_edits; eassumption|exact H3]).
    assert (E4 : edits e3 e').
    { destruct (negb (sc_foreign sc1) || _); [|subst; apply edits_refl].
      destruct H4 as (e4 & a' & M & A & ->). eapply edits_trans; [eapply t_marker_edits; exact M|].
      eapply t_attrs_expr; exact A. }
    eauto using edits_trans.
  Qed.

  Lemma visit_arm_edits P sc x x' : t_visit_arm T P sc x x' -> edits_arm x x'.
  Proof.
    destruct x as [a p g b c]. cbn [t_visit_arm]. intros (a1 & b1 & g2 & b2 & a2 & H1 & Hg & Hb & A & ->).
    eapply edits_arm_trans; [|eapply t_attrs_arm; exact A].
    eapply edits_arm_trans with (e2 := Arm a1 p g b1 c).
    - destruct (sc_foreign sc); [destruct H1 as [-> ->]; apply edits_arm_refl|].
      destruct (find_remove_attr a NESTED) as [[at_ a']|] eqn:F; [|destruct H1 as [-> ->]; apply edits_arm_refl].
      destruct H1 as (-> & _ & K & _). eapply edits_arm_trans.
      + exists []. apply ea_attr. eapply (find_remove_drops _ NESTED); [cbn; auto|exact F].
      + apply edits_arm_parts; [apply edits_opt_refl|eapply c_expr_edits; exact K].
    - apply edits_arm_parts; [|eapply me_vexpr; eassumption].
      apply opt2_edits. eapply opt2_mono; [|exact Hg]. intros; eapply me_vexpr; eassumption.
  Qed.

  Lemma visit_local_edits P sc x x' : t_visit_local T P sc x x' -> edits_local x x'.
  Proof.
    destruct x as [a p t i d]. cbn [t_visit_local]. intros (a1 & i1 & i2 & d2 & a2 & H1 & Hi & Hd & A & ->).
    eapply edits_local_trans; [|eapply t_attrs_local; exact A].
    eapply edits_local_trans with (e2 := Local a1 p t i1 d).
    - destruct (sc_foreign sc); [destruct H1 as [-> ->]; apply edits_local_refl|].
      destruct (find_remove_attr a NESTED) as [[at_ a']|] eqn:F; [|destruct H1 as [-> ->]; apply edits_local_refl].
      destruct H1 as (-> & K). eapply edits_local_trans.
      + exists []. apply el_attr. eapply (find_remove_drops _ NESTED); [cbn; auto|exact F].
      + apply edits_local_parts; [|apply edits_opt_refl].
        apply opt2_edits. eapply opt2_mono; [|exact K]. intros x y (_ & Q & _). eapply c_expr_edits; exact Q.
    - apply edits_local_parts; apply opt2_edits; (eapply opt2_mono; [|eassumption]); intros; eapply me_vexpr; eassumption.
  Qed.

  Lemma step_edits : makes_edits (t_step hash ta T).
  Proof.
    constructor; cbn [q_vexpr q_vstmt q_varm q_vlocal q_dexpr q_dstmt t_step].
    - apply visit_expr_edits.
    - intros P sc s s'. unfold t_visit_stmt. destruct s.
      + apply vs_stmt_edits; [intros; eapply vwalk_edits; eassumption|intros C x x' H; cbn in H; eapply me_vlocal; eassumption].
      + apply vs_stmt_edits; [intros; eapply vwalk_edits; eassumption|intros C x x' H; cbn in H; eapply me_vlocal; eassumption].
      + intros (e' & -> & K). apply edits_sexpr. eapply me_vexpr; eassumption.
      + apply vs_stmt_edits; [intros; eapply vwalk_edits; eassumption|intros C x x' H; cbn in H; eapply me_vlocal; eassumption].
    - apply visit_arm_edits.
    - apply visit_local_edits.
    - intros P e e'. apply vs_expr_edits. intros; eapply dwalk_edits; eassumption.
    - intros P s s'. apply vs_stmt_edits; [intros; eapply dwalk_edits; eassumption|].
      intros C l l' H. cbn in H. eapply local_edits; [|exact H].
      destruct l. split; [destruct init|destruct div]; cbn; try exact I; intros; eapply me_dexpr; eassumption.
  Qed.
End Engine.

Theorem engine_edits hash ta n : makes_edits (tengine_n hash ta n).
Proof.
  induction n as [|n IH]; [constructor; cbn; intros; contradiction|].
  cbn [tengine_n]. apply step_edits. exact IH.
Qed.
