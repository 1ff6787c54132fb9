(** Proof: the nested attributes of accepted code (Requests.v), for the outermost attribute. *)

Require Import Coq.Strings.String Coq.Lists.List Coq.Bool.Bool Coq.NArith.NArith.
Require Import Verif.Syntax Verif.Context Verif.ExprModel Verif.AutoEnum Verif.Edits Verif.Tails Verif.Twin Verif.TwinRun.
Require Import Verif.RunLemmas Verif.VisitRun Verif.TypeAnalysis Verif.Changes Verif.ChangesRun Verif.ChangesTop Verif.Nodes Verif.Annotations Verif.AnnotRun Verif.Requests.
Import ListNotations.
Open Scope string_scope.
Open Scope list_scope.

Section Top.
  Variables (hash : node -> N) (ta : bool) (n : nat).
  Let T := tengine_n hash ta n.
  Let G : changes T := changes_engine hash ta n.

  Lemma closure_all e : all requests tt e = true -> below_closure (all requests tt) e = true.
  Proof. destruct e; auto. rewrite R_all. rewrite andb_true_iff. intros [_ H]. exact H. Qed.
  Lemma body_requests P e e' : t_body ta T P e e' -> all requests tt e = true.
  Proof. intros H. eapply (proj1 (proj2 accepted_requests)). eapply body_of; [exact G|exact H]. Qed.
  Lemma quiet_requests P e e' : q_dexpr T P e e' -> all requests tt e = true.
  Proof. intros H. eapply (proj1 (proj2 (proj2 accepted_requests))). eapply (g_dexpr _ G P scope0). exact H. Qed.
  Lemma expand_requests P e e' : t_expand ta T P e e' -> below_closure (all requests tt) e = true.
  Proof.
    unfold t_expand. destruct e; try (intros H; apply body_requests in H; apply closure_all; exact H).
    destruct (visit_last P).
    - intros (b' & _ & H). apply body_requests in H. exact H.
    - intros H. apply body_requests in H. apply closure_all. exact H.
  Qed.
  Lemma parent_requests P e semi e' : t_parent_expr ta T P e semi e' -> if semi then all requests tt e = true else below_closure (all requests tt) e = true.
  Proof.
    unfold t_parent_expr. destruct (is_dummy P).
    - intros H. apply quiet_requests in H. destruct semi; [exact H|apply closure_all; exact H].
    - intros (e1 & H & _). destruct semi; [|eapply expand_requests; exact H].
      unfold t_expand in H. cbn [semi_ctx] in H. assert (V : visit_last (set_last LNever P) = false) by reflexivity. rewrite V in H.
      destruct e; eapply body_requests; exact H.
  Qed.
  Lemma stmts_requests (Q : stmt -> stmt -> Prop) b b' : (forall s s', Q s s' -> all_stmt requests tt s = true) -> all2 Q b b' -> all_block requests tt b = true.
  Proof.
    intros H A. unfold all_block. revert b' A. induction b as [|s b IH]; intros b' A; [reflexivity|]. cbn in A. destruct A as (s' & r & _ & A1 & A2).
    cbn. rewrite (H _ _ A1). exact (IH _ A2).
  Qed.
  Theorem input_requests P i i' : t_input ta T P i i' -> in_code requests tt i = true.
  Proof.
    destruct i as [s|e|]; cbn [t_input]; [| |contradiction].
    - intros (s' & _ & H). destruct s as [[a p t i0 d]|it|e semi|a mc semi]; cbn [t_parent_stmt] in H.
      + destruct H as (l' & _ & H). cbn [t_parent_local] in H. cbv zeta in H. destruct H as (j & d' & _ & H).
        destruct (is_dummy _).
        * destruct H as [H _]. destruct i0 as [e|]; [|reflexivity]. cbn in H. destruct H as (e' & _ & H). cbn. apply closure_all. eapply quiet_requests. exact H.
        * destruct H as (_ & e & e1 & e2 & -> & _ & H & _). cbn. eapply expand_requests. exact H.
      + destruct it as [a sg out b| |]; try contradiction. destruct H as (b' & _ & H). unfold t_parent_fn in H. cbv zeta in H. cbn.
        destruct (is_dummy _).
        * eapply stmts_requests; [|exact H]. intros s s1 K. eapply (proj2 (proj2 (proj2 accepted_requests))). eapply (g_dstmt _ G _ scope0). exact K.
        * destruct H as (_ & b1 & k & _ & TB & H).
          assert (X : all_block requests tt b1 = true).
          { destruct H as [(_ & _ & H)|(b2 & H & _)]; (eapply stmts_requests; [|exact H]); intros s s1 K.
            - eapply (proj2 (proj2 (proj2 accepted_requests))). eapply (g_dstmt _ G _ scope0). exact K.
            - eapply (proj1 accepted_requests). eapply (g_vstmt _ G). exact K. }
          rewrite <- (body_all requests R_added (who_of (fn_ctx ta P out b) scope0) (from 0 k) b b1); [exact X|exact TB].
      + destruct H as (e' & _ & H). apply parent_requests in H. destruct semi; exact H.
      + reflexivity.
    - intros (e' & _ & H). apply parent_requests in H. exact H.
  Qed.
  Theorem attribute_requests args i i' cx : attribute hash ta n args i = ROk (Code i' cx) -> in_code requests tt i = true.
  Proof. intros H. apply attribute_twin in H. destruct H as (P & _ & H). eapply input_requests. exact H. Qed.

  (** Where the attribute may stand. *)
  Lemma dummy_nothing P t : cx_traits P = [] -> is_dummy (t_collect ta P t) = true ->
    cx_args P = [] /\ (ta = true -> forall t0, t = Some t0 -> collect_ty [] t0 = []).
  Proof.
    unfold is_dummy, t_collect. intros TR H. destruct t as [t0|]; [destruct ta eqn:TA|]; cbn in H.
    - destruct (cx_args P) eqn:A; [|discriminate]. split; [reflexivity|]. intros _ t1 E. injection E as <-.
      rewrite TR in H. cbn in H. destruct (collect_ty [] t0); [reflexivity|discriminate].
    - destruct (cx_args P); [|discriminate]. split; [reflexivity|]. discriminate.
    - destruct (cx_args P); [|discriminate]. split; [reflexivity|]. discriminate.
  Qed.
  Theorem attribute_place args i i' cx : attribute hash ta n args i = ROk (Code i' cx) ->
    exists ps mo, parse_args args = inr (ps, mo) /\
    match i with
    | InBad => False
    | InStmt (SItem it) => exists a sg out b, it = IFn a sg out b
        /\ (b = [] -> ps = [] /\ (ta = true -> forall t, out = Some t -> collect_ty [] t = []))
    | InStmt (SLocal (Local _ _ t None _)) => ps = [] /\ (ta = true -> forall t0, t = Some t0 -> collect_ty [] t0 = [])
    | _ => True
    end.
  Proof.
    intros H. apply attribute_twin in H. destruct H as (P & E & H). apply ctx_new_ok in E. destruct E as (cur & ps & mo & HP & _ & _ & ->).
    exists ps, mo. split; [exact HP|]. destruct i as [s|e|]; cbn [t_input] in H; [|exact I|exact H]. destruct H as (s' & _ & H).
    destruct s as [[a p t i0 d]|it|e semi|a mc semi]; cbn [t_parent_stmt] in H; try exact I.
    - destruct i0; [exact I|]. destruct H as (l' & _ & H). cbn [t_parent_local] in H. cbv zeta in H. destruct H as (j & d' & _ & H).
      destruct (is_dummy _) eqn:D; [|destruct H as (_ & e & e1 & e2 & X & _); discriminate].
      apply dummy_nothing in D; [exact D|reflexivity].
    - destruct it as [a sg out b| |]; try contradiction. exists a, sg, out, b. split; [reflexivity|]. intros ->.
      destruct H as (b' & _ & H). unfold t_parent_fn in H. cbv zeta in H. destruct (is_dummy _) eqn:D; [|destruct H as (NE & _); congruence].
      unfold fn_ctx in D. apply dummy_nothing in D; [exact D|reflexivity].
  Qed.
End Top.
