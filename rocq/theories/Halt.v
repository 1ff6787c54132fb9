(** Runs that end for all large enough recursion depths. *)

Require Import Coq.Strings.String Coq.Lists.List Coq.Bool.Bool Coq.Arith.Arith Coq.NArith.NArith Lia.
Require Import Verif.Syntax Verif.Context Verif.ExprModel Verif.TypeAnalysis Verif.AutoEnum.
Require Import Verif.AstInd Verif.Edits Verif.AttrFold Verif.RunLemmas Verif.EditsRun Verif.VisitRun.
Require Import Verif.Grammar.
Import ListNotations.
Open Scope string_scope.
Open Scope list_scope.

(** ** Families of runs indexed by the depth *)

Definition halts {A} (m : nat -> M A) (cx : ctx) : Prop :=
  exists N a cx', forall n, N <= n -> m n cx = ROk (a, cx').

Lemma halts_ret {A} (a : A) cx : halts (fun _ => ret a) cx.
Proof. exists 0, a, cx. reflexivity. Qed.

Lemma halts_const {A} (m : M A) cx a cx' : m cx = ROk (a, cx') -> halts (fun _ => m) cx.
Proof. exists 0, a, cx'. auto. Qed.

Lemma halts_bind {A B} (m : nat -> M A) (k : nat -> A -> M B) cx :
  halts m cx ->
  (forall n a cx1, m n cx = ROk (a, cx1) -> halts (fun n => k n a) cx1) ->
  halts (fun n => bind (m n) (k n)) cx.
Proof.
  intros (N & a & cx1 & H) HK. destruct (HK N a cx1 (H N (le_n _))) as (N2 & b & cx2 & H2).
  exists (max N N2), b, cx2. intros n L. unfold bind. rewrite H by lia. apply H2. lia.
Qed.

Lemma halts_S {A} (m : nat -> M A) cx : halts (fun n => m (S n)) cx -> halts m cx.
Proof.
  intros (N & a & cx' & H). exists (S N), a, cx'. intros n L. destruct n; [lia|]. apply H. lia.
Qed.

Lemma halts_mapM {A B} (f : nat -> A -> M B) l :
  Forall (fun x => forall cx, halts (fun n => f n x) cx) l ->
  forall cx, halts (fun n => mapM (f n) l) cx.
Proof.
  induction 1 as [|x r H _ IH]; intros cx; cbn [mapM]; [apply halts_ret|].
  apply (halts_bind (fun n => f n x) (fun n y => bind (mapM (f n) r) (fun ys => ret (y :: ys)))); auto.
  intros _ y cx1 _. apply (halts_bind (fun n => mapM (f n) r) (fun n ys => ret (y :: ys))); auto.
  intros. apply halts_ret.
Qed.

Lemma halts_optM {A B} (f : nat -> A -> M B) o :
  opt_all (fun x => forall cx, halts (fun n => f n x) cx) o ->
  forall cx, halts (fun n => optM (f n) o) cx.
Proof.
  destruct o as [x|]; cbn [optM opt_all]; intros H cx; [|apply halts_ret].
  apply (halts_bind (fun n => f n x) (fun n y => ret (Some y))); auto. intros. apply halts_ret.
Qed.

Lemma halts_gets {A} (f : ctx -> A) cx : halts (fun _ => gets f) cx.
Proof. eapply halts_const. reflexivity. Qed.

Lemma halts_modify f cx : halts (fun _ => modify f) cx.
Proof. eapply halts_const. reflexivity. Qed.

(** Splits a [bind] inside [halts]. *)
Ltac hbind :=
  match goal with
  | |- halts (fun n => bind (@?m n) (@?k n)) ?cx => apply (halts_bind m k cx)
  end.

Section Walk.
  Variable V : nat -> vis.
  Notation he x := (forall cx, halts (fun n => on_expr (V n) x) cx).
  Notation hs x := (forall cx, halts (fun n => on_stmt (V n) x) cx).
  Notation ha x := (forall cx, halts (fun n => on_arm (V n) x) cx).

  Lemma halts_walk_expr e :
    fold_expr and True (fun x => he x) (fun x => hs x) (fun x => ha x) e ->
    forall cx, halts (fun n => walk_expr (V n) e) cx.
  Proof.
    destruct e; cbn [fold_expr walk_expr]; intros H cx;
      repeat match goal with
      | HH : _ /\ _ |- _ => destruct HH
      | HH : fold_list and True _ _ |- _ => apply (proj1 (fold_list_and _ _)) in HH
      | HH : fold_opt True _ _ |- _ => apply (proj1 (fold_opt_and _ _)) in HH
      end;
      repeat first
        [ apply halts_ret
        | hbind; [solve [auto | apply halts_mapM; assumption | apply halts_optM; assumption]
                 |intros ? ? ? _] ].
  Qed.
End Walk.

Lemma halts_walk_arm (f : nat -> expr -> M expr) x :
  fold_arm and True (fun x => forall cx, halts (fun n => f n x) cx) x ->
  forall cx, halts (fun n => walk_arm (f n) x) cx.
Proof.
  destruct x as [a p g b c]; cbn [fold_arm walk_arm]. intros [Hg Hb] cx.
  apply fold_opt_and in Hg.
  hbind; [apply halts_optM; assumption|]. intros _ g' cx1 _. hbind; [apply Hb|].
  intros. apply halts_ret.
Qed.

Lemma halts_walk_local (f : nat -> expr -> M expr) x :
  fold_local and True (fun x => forall cx, halts (fun n => f n x) cx) x ->
  forall cx, halts (fun n => walk_local (f n) x) cx.
Proof.
  destruct x as [a p t i d]; cbn [fold_local walk_local]. intros [Hi Hd] cx.
  apply fold_opt_and in Hi. apply fold_opt_and in Hd.
  hbind; [apply halts_optM; assumption|]. intros _ g' cx1 _.
  hbind; [apply halts_optM; assumption|]. intros. apply halts_ret.
Qed.

(** ** Functions without recursion through the engine *)

Definition tot {A} (m : M A) : Prop := forall cx, exists a cx', m cx = ROk (a, cx').

Lemma tot_halts {A} (m : M A) cx : tot m -> halts (fun _ => m) cx.
Proof. intros H. destruct (H cx) as (a & cx' & E). eapply halts_const. eassumption. Qed.

Lemma tot_ret {A} (a : A) : tot (ret a).
Proof. intros cx. eexists _, _. reflexivity. Qed.
Lemma tot_gets {A} (f : ctx -> A) : tot (gets f).
Proof. intros cx. eexists _, _. reflexivity. Qed.
Lemma tot_modify f : tot (modify f).
Proof. intros cx. eexists _, _. reflexivity. Qed.
Lemma tot_error e : tot (error e).
Proof. intros cx. eexists _, _. reflexivity. Qed.
Lemma tot_next a e : tot (next_expr_with_attrs a e).
Proof. intros cx. eexists _, _. reflexivity. Qed.
Lemma tot_bind {A B} (m : M A) (k : A -> M B) : tot m -> (forall a, tot (k a)) -> tot (bind m k).
Proof.
  intros H HK cx. destruct (H cx) as (a & cx1 & E). unfold bind. rewrite E. apply HK.
Qed.
Lemma tot_replace o : tot (replace_boxed_expr o).
Proof.
  intros cx. unfold replace_boxed_expr. destruct (is_marker_expr _ _); eexists _, _; reflexivity.
Qed.
Lemma tot_mapM {A B} (f : A -> M B) l : Forall (fun x => tot (f x)) l -> tot (mapM f l).
Proof.
  induction 1; cbn [mapM]; [apply tot_ret|]. apply tot_bind; [assumption|]. intros.
  apply tot_bind; [assumption|]. intros. apply tot_ret.
Qed.
Lemma tot_optM {A B} (f : A -> M B) o : opt_all (fun x => tot (f x)) o -> tot (optM f o).
Proof.
  destruct o; cbn; intros; [|apply tot_ret]. apply tot_bind; [assumption|]. intros. apply tot_ret.
Qed.

(** Proves [tot] of a composed function. *)
Ltac totstep :=
  match goal with
  | |- tot (bind _ _) => apply tot_bind; [|intros]
  | |- tot (ret _) => apply tot_ret
  | |- tot (gets _) => apply tot_gets
  | |- tot (modify _) => apply tot_modify
  | |- tot (error _) => apply tot_error
  | |- tot (next_expr_with_attrs _ _) => apply tot_next
  | |- tot (next_expr _) => apply tot_next
  | |- tot (replace_boxed_expr _) => apply tot_replace
  | |- tot (mapM _ _) => apply tot_mapM
  | |- tot (optM _ _) => apply tot_optM
  | |- tot (if ?b then _ else _) => destruct b
  end.

(** [LoopVisitor] never fails. *)
Lemma loop_tot :
  (forall e label nested, tot (loop_expr label nested e))
  /\ (forall s label nested, tot (loop_stmt label nested s))
  /\ (forall x label nested, tot (loop_arm label nested x))
  /\ (forall x label nested, tot (loop_local label nested x)).
Proof.
  apply ast_ind; intros; cbn [loop_expr loop_stmt loop_arm loop_local walk_stmt walk_arm walk_local];
    try (destruct (any_empty_attr _ _); [apply tot_ret|]);
    repeat match goal with
    | H : Forall (fun x => forall l b, tot (@?f l b x)) _ |- _ =>
        let H' := fresh "L" in
        assert (H' : forall l b, Forall (fun x => tot (f l b x)) _)
          by (intros; eapply Forall_impl; [|exact H]; cbn; auto); clear H
    | H : opt_all (fun x => forall l b, tot (@?f l b x)) _ |- _ =>
        let H' := fresh "O" in
        assert (H' : forall l b, opt_all (fun x => tot (f l b x)) _)
          by (match type of H with opt_all _ ?o => destruct o; cbn in *; auto end); clear H
    end;
    try (destruct k); try (destruct label); cbn [walk_expr on_expr on_stmt on_arm on_local];
    repeat (totstep; auto).
  all: try (destruct e; repeat (totstep; auto); cbn in *; auto).
  all: match goal with H : opt_all _ ?o |- opt_all _ ?o => destruct o; cbn in *; auto end.
Qed.

(** ** [wf] *)

Lemma fold_list_forallb {A} (f : A -> bool) l : fold_list andb true f l = forallb f l.
Proof. induction l as [|x r IH]; [reflexivity|]. cbn. f_equal. Qed.

Lemma visit_last_block_tot b : tot (visit_last_block b).
Proof. unfold visit_last_block. repeat totstep. Qed.

Lemma visit_last_if_tot e : wf_expr e = true -> tot (visit_last_expr_if e).
Proof.
  revert e. destruct (ast_ind (fun e => wf_expr e = true -> tot (visit_last_expr_if e))
                 (fun _ => True) (fun _ => True) (fun _ => True)) as (H & _); [..|exact H];
    cbv beta; try (intros; exact I); try (intros; apply tot_ret).
  intros a c t els _ _ IH W. cbn [visit_last_expr_if].
  apply tot_bind; [apply visit_last_block_tot|]. intros t'.
  cbn [wf_expr fold_expr] in W. apply andb_prop in W. destruct W as [W1 W].
  apply andb_prop in W. destruct W as [_ W]. apply andb_prop in W. destruct W as [_ W].
  apply tot_bind; [|intros; apply tot_ret].
  destruct els as [x|]; [|repeat totstep].
  cbn in IH, W. destruct x; try discriminate W1.
  - repeat totstep. apply visit_last_block_tot.
  - apply tot_bind; [apply IH; assumption|]. intros. apply tot_ret.
Qed.

Lemma map_last_tot f b :
  Forall (fun s => match s with SExpr e false => tot (f e) | _ => True end) b ->
  tot (map_last_expr f b).
Proof.
  induction b as [|s r IH]; cbn [map_last_expr]; intros H; [apply tot_ret|].
  inversion H as [|? ? H1 H2]; subst. destruct r.
  - destruct s as [| |e [|]|]; repeat totstep. assumption.
  - apply tot_bind; [auto|]. intros. apply tot_ret.
Qed.

Lemma wf_stmts_forall b : fold_list andb true wf_stmt b = true -> Forall (fun s => wf_stmt s = true) b.
Proof. rewrite fold_list_forallb. intros H. apply Forall_forall, forallb_forall. assumption. Qed.

Lemma child_expr_tot : forall e, wf_expr e = true -> tot (child_expr e).
Proof.
  destruct (ast_ind (fun e => wf_expr e = true -> tot (child_expr e))
                 (fun s => match s with SExpr e _ => wf_expr e = true -> tot (child_expr e) | _ => True end)
                 (fun _ => True) (fun _ => True)) as (HH & _); [..|exact HH];
    cbv beta; try (intros; exact I); try (intros; assumption); try (intros e semi H; exact H).
  all: intros; cbn [child_expr]; apply tot_bind; try apply tot_gets; intros stop;
    destruct stop; try apply tot_ret; repeat totstep.
  - apply map_last_tot. cbn [wf_expr fold_expr] in H0. apply wf_stmts_forall in H0.
    rewrite Forall_forall in *. intros s Hs. specialize (H s Hs). specialize (H0 s Hs).
    destruct s as [| |e [|]|]; auto.
  - destruct k; repeat totstep. apply map_last_tot. cbn [wf_expr fold_expr] in H0. apply wf_stmts_forall in H0.
    rewrite Forall_forall in *. intros s Hs. specialize (H s Hs). specialize (H0 s Hs).
    destruct s as [| |e [|]|]; auto.
  - apply Forall_all. intros []. unfold visit_last_arm. repeat totstep.
  - apply visit_last_if_tot. assumption.
  - unfold visit_last_expr_loop. apply tot_mapM, Forall_all. intros. apply loop_tot.
  - apply H. cbn [wf_expr fold_expr andb] in H1. apply andb_prop in H1. tauto.
  - apply H. exact H0.
Qed.

(** Edits keep [wf]. *)
Lemma wf_edit mk :
    (forall t e e', ed_expr mk t e e' ->
       (wf_expr e = true -> wf_expr e' = true) /\ (is_branch e = true -> is_branch e' = true))
    /\ (forall t l l', ed_exprs mk t l l' ->
          fold_list andb true wf_expr l = true -> fold_list andb true wf_expr l' = true)
    /\ (forall t o o', ed_opt mk t o o' ->
          (fold_opt true wf_expr o = true -> fold_opt true wf_expr o' = true)
          /\ (fold_opt true is_branch o = true -> fold_opt true is_branch o' = true))
    /\ (forall t s s', ed_stmt mk t s s' -> wf_stmt s = true -> wf_stmt s' = true)
    /\ (forall t l l', ed_stmts mk t l l' ->
          fold_list andb true wf_stmt l = true -> fold_list andb true wf_stmt l' = true)
    /\ (forall t x x', ed_arm mk t x x' -> wf_arm x = true -> wf_arm x' = true)
    /\ (forall t l l', ed_arms mk t l l' ->
          fold_list andb true wf_arm l = true -> fold_list andb true wf_arm l' = true)
    /\ (forall t x x', ed_local mk t x x' -> wf_local x = true -> wf_local x' = true).
Proof.
  apply (ed_ind mk); intros;
    repeat match goal with HH : _ /\ _ |- _ => destruct HH end;
    try solve [split; auto]; try solve [auto].
  all: try match goal with |- _ /\ _ => split end; intros;
    cbn [wf_expr wf_stmt wf_arm wf_local fold_expr fold_stmt fold_arm fold_local fold_opt
         fold_list fold_right is_branch wrap wrap_branch operand question_arms] in *;
    rewrite ?andb_true_iff, ?andb_true_r in *; try discriminate; try tauto.
  - destruct e; cbn [set_attrs]; auto.
  - destruct e; cbn [set_attrs] in *; auto.
  - destruct o; cbn in *; repeat split; tauto.
  - destruct o; cbn in *; repeat split; tauto.
Qed.
