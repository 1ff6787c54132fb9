(** Induction over the changes of Changes.v. *)

Require Import Coq.Strings.String Coq.Lists.List Coq.Bool.Bool.
Require Import Verif.Syntax Verif.ExprModel Verif.Edits Verif.NoValueSpec Verif.Tails Verif.ArgsSpec Verif.Changes.
Import ListNotations.
Open Scope string_scope.
Open Scope list_scope.

(** ** Parts *)

Definition seq2_map {A} (R Q : list string -> A -> A -> Prop) (f : forall t x x', R t x x' -> Q t x x') :
  forall t l l', seq2 R t l l' -> seq2 Q t l l' :=
  fix go t l l' (H : seq2 R t l l') : seq2 Q t l l' :=
    match H with
    | sq_nil _ => sq_nil Q
    | sq_cons _ t1 t2 x x' l l' H1 H2 => sq_cons Q t1 t2 x x' l l' (f _ _ _ H1) (go _ _ _ H2)
    end.
Definition maybe2_map {A} (R Q : list string -> A -> A -> Prop) (f : forall t x x', R t x x' -> Q t x x') :
  forall t l l', maybe2 R t l l' -> maybe2 Q t l l' :=
  fun t l l' H => match H with mb_none _ => mb_none Q | mb_some _ t x x' H1 => mb_some Q t x x' (f _ _ _ H1) end.

Section Map.
  Variables (Re Qe : list string -> expr -> expr -> Prop) (Rs Qs : list string -> stmt -> stmt -> Prop)
            (Ra Qa : list string -> arm -> arm -> Prop).
  Variables (fe : forall t x x', Re t x x' -> Qe t x x') (fs : forall t x x', Rs t x x' -> Qs t x x')
            (fa : forall t x x', Ra t x x' -> Qa t x x').
  Definition parts_map t e e' (H : parts Re Rs Ra t e e') : parts Qe Qs Qa t e e'.
  Proof.
    destruct H;
      repeat match goal with
             | H : seq2 Re _ _ _ |- _ => apply (seq2_map _ _ fe) in H
             | H : seq2 Rs _ _ _ |- _ => apply (seq2_map _ _ fs) in H
             | H : seq2 Ra _ _ _ |- _ => apply (seq2_map _ _ fa) in H
             | H : maybe2 Re _ _ _ |- _ => apply (maybe2_map _ _ fe) in H
             | H : Re _ _ _ |- _ => apply fe in H
             end; constructor; assumption.
  Defined.
End Map.

Section Induction.
  Variables (Pd Pu : who -> bool -> expr -> expr -> Prop) (Ps Pqs : who -> stmt -> stmt -> Prop) (Pa Pqa : who -> arm -> arm -> Prop)
            (Pl Pql Pxl : who -> local -> local -> Prop) (Pq Px Pi Pb : who -> expr -> expr -> Prop).

  Let De w := fun (_ : list string) e e' => done w false e e' /\ Pd w false e e'.
  Let Ds w := fun (_ : list string) e e' => done_stmt w e e' /\ Ps w e e'.
  Let Da w := fun (_ : list string) e e' => done_arm w e e' /\ Pa w e e'.
  Let Qe w := fun (_ : list string) e e' => quiet w e e' /\ Pq w e e'.
  Let Qs w := fun (_ : list string) e e' => quiet_stmt w e e' /\ Pqs w e e'.
  Let Qa w := fun (_ : list string) e e' => quiet_arm w e e' /\ Pqa w e e'.

  Record cases : Prop := {
    c_dn : forall w (semi : bool) e e1 e2 e3 e',
      exit_step (enter e w) e e1 -> nested_step (enter e w) e1 e2 -> under (enter e w) semi e2 e3 -> Pu (enter e w) semi e2 e3 ->
      close_step (enter e w) e3 e' -> Pd w semi e e';
    c_un_parts : forall w (semi : bool) e e', attr_named "auto_enum" (e_attrs e) = false ->
      parts (De w) (Ds w) (Da w) [] e e' -> Pu w semi e e';
    c_un_child : forall w (semi : bool) e p toks a' e1 c e', removes "auto_enum" (e_attrs e) (MList p toks) a' ->
      parts (De (lent w)) (Ds (lent w)) (Da (lent w)) [] (set_attrs e a') e1 ->
      child w toks c -> expands (if semi then set_branches false c else c) e1 e' ->
      Px (if semi then set_branches false c else c) e1 e' -> Pu w semi e e';
    c_ds_expr : forall w e e' semi, done w semi e e' -> Pd w semi e e' -> Ps w (SExpr e semi) (SExpr e' semi);
    c_ds_item : forall w i, Ps w (SItem i) (SItem i);
    c_ds_macro : forall w a m (semi : bool), Ps w (SMacro a m semi) (SMacro a m semi);
    c_ds_local : forall w a p t i d l', attr_named "auto_enum" a = false -> done_local w (Local a p t i d) l' ->
      Pl w (Local a p t i d) l' -> Ps w (SLocal (Local a p t i d)) (SLocal l');
    c_ds_child : forall w a x toks a' p t i d l1 c l', removes "auto_enum" a x a' ->
      (x = MPath (attr_path x) /\ toks = [] \/ x = MList (attr_path x) toks) ->
      done_local (lent (past a w)) (Local a' p t i d) l1 -> Pl (lent (past a w)) (Local a' p t i d) l1 ->
      child w toks c -> expands_local c l1 l' -> Pxl c l1 l' -> Ps w (SLocal (Local a p t i d)) (SLocal l');
    c_da : forall w x a p g b c g' b' a', nested_arm w x (Arm a p g b c) ->
      maybe2 (De w) [] g g' -> done w false b b' -> Pd w false b b' -> attrs_step w a a' -> Pa w x (Arm a' p g' b' c);
    c_dl : forall w x a p t i d i' d' a', nested_local w x (Local a p t i d) ->
      maybe2 (De w) [] i i' -> maybe2 (De w) [] d d' -> attrs_step w a a' -> Pl w x (Local a' p t i' d');
    c_qt_parts : forall w e e', attr_named "auto_enum" (e_attrs e) = false ->
      parts (Qe w) (Qs w) (Qa w) [] e e' -> Pq w e e';
    c_qt_child : forall w e p toks a' e1 c e', removes "auto_enum" (e_attrs e) (MList p toks) a' ->
      parts (Qe (lent w)) (Qs (lent w)) (Qa (lent w)) [] (set_attrs e a') e1 ->
      child w toks c -> expands c e1 e' -> Px c e1 e' -> Pq w e e';
    c_qs_expr : forall w e e' semi, attr_named "auto_enum" (e_attrs e) = false -> quiet w e e' -> Pq w e e' -> Pqs w (SExpr e semi) (SExpr e' semi);
    c_qs_child : forall w e p toks a' e1 c e' (semi : bool), removes "auto_enum" (e_attrs e) (MList p toks) a' ->
      parts (Qe (lent w)) (Qs (lent w)) (Qa (lent w)) [] (set_attrs e a') e1 ->
      child w toks c -> expands (if semi then set_branches false c else c) e1 e' ->
      Px (if semi then set_branches false c else c) e1 e' -> Pqs w (SExpr e semi) (SExpr e' semi);
    c_qs_item : forall w i, Pqs w (SItem i) (SItem i);
    c_qs_macro : forall w a m (semi : bool), Pqs w (SMacro a m semi) (SMacro a m semi);
    c_qs_local : forall w a p t i d l', attr_named "auto_enum" a = false -> quiet_local w (Local a p t i d) l' ->
      Pql w (Local a p t i d) l' -> Pqs w (SLocal (Local a p t i d)) (SLocal l');
    c_qs_let : forall w a x toks a' p t i d l1 c l', removes "auto_enum" a x a' ->
      (x = MPath (attr_path x) /\ toks = [] \/ x = MList (attr_path x) toks) ->
      quiet_local (lent w) (Local a' p t i d) l1 -> Pql (lent w) (Local a' p t i d) l1 ->
      child w toks c -> expands_local c l1 l' -> Pxl c l1 l' -> Pqs w (SLocal (Local a p t i d)) (SLocal l');
    c_qa : forall w a p g b c g' b', maybe2 (Qe w) [] g g' -> quiet w b b' -> Pq w b b' -> Pqa w (Arm a p g b c) (Arm a p g' b' c);
    c_ql : forall w a p t i d i' d', maybe2 (Qe w) [] i i' -> maybe2 (Qe w) [] d d' -> Pql w (Local a p t i d) (Local a p t i' d');
    c_ex_quiet : forall w e e', w_given w = false -> quiet w e e' -> Pq w e e' -> Px w e e';
    c_ex_code : forall w e e1 e', w_given w = true -> inside w e e1 -> Pi w e e1 -> declared (w_enum w) e1 e' -> Px w e e';
    c_el_quiet : forall w a p t t' i d i' d', w_given w = false -> t' = t \/ t' = None ->
      maybe2 (Qe w) [] i i' -> maybe2 (Qe w) [] d d' -> Pxl w (Local a p t i d) (Local a p t' i' d');
    c_el_code : forall w a p t t' e e1 e' d, t' = t \/ t' = None -> inside w e e1 -> Pi w e e1 -> declared (w_enum w) e1 e' ->
      Pxl w (Local a p t (Some e) d) (Local a p t' (Some e') d);
    c_in_closure : forall w a ps b b' x, w_branches w = true -> x = TakesReturns \/ x = TakesQuestions ->
      body (set_branches (match x with TakesQuestions => false | _ => true end) (set_exits x w)) b b' ->
      Pb (set_branches (match x with TakesQuestions => false | _ => true end) (set_exits x w)) b b' ->
      Pi w (EClosure a ps b) (EClosure a ps b');
    c_in_other : forall w e e', match e with EClosure _ _ _ => w_branches w = false | _ => True end -> body w e e' -> Pb w e e' -> Pi w e e';
    c_bd_done : forall w e e1 k e', branches w (from 0 k) e e1 -> done w false e1 e' -> Pd w false e1 e' -> Pb w e e';
    c_bd_early : forall w e e1 e', w_given w = false -> w_exits w = TakesReturns -> branches w [] e e1 -> quiet w e1 e' -> Pq w e1 e' ->
      Pb w e e'
  }.
  Variable C : cases.

  Fixpoint ind_done w semi e e' (H : done w semi e e') {struct H} : Pd w semi e e'
  with ind_under w semi e e' (H : under w semi e e') {struct H} : Pu w semi e e'
  with ind_stmt w s s' (H : done_stmt w s s') {struct H} : Ps w s s'
  with ind_arm w s s' (H : done_arm w s s') {struct H} : Pa w s s'
  with ind_local w s s' (H : done_local w s s') {struct H} : Pl w s s'
  with ind_quiet w e e' (H : quiet w e e') {struct H} : Pq w e e'
  with ind_qstmt w e e' (H : quiet_stmt w e e') {struct H} : Pqs w e e'
  with ind_qarm w e e' (H : quiet_arm w e e') {struct H} : Pqa w e e'
  with ind_qlocal w e e' (H : quiet_local w e e') {struct H} : Pql w e e'
  with ind_expands w e e' (H : expands w e e') {struct H} : Px w e e'
  with ind_xlocal w e e' (H : expands_local w e e') {struct H} : Pxl w e e'
  with ind_inside w e e' (H : inside w e e') {struct H} : Pi w e e'
  with ind_body w e e' (H : body w e e') {struct H} : Pb w e e'.
  Proof.
    - destruct H. eapply (c_dn C); eauto.
    - destruct H.
      + eapply (c_un_parts C); [eassumption|].
        eapply parts_map; [| | |eassumption]; cbn; intros; (split; [assumption|auto]).
      + eapply (c_un_child C); [eassumption| |eassumption|eassumption|auto].
        eapply parts_map; [| | |eassumption]; cbn; intros; (split; [assumption|auto]).
    - destruct H.
      + apply (c_ds_expr C); auto.
      + apply (c_ds_item C).
      + apply (c_ds_macro C).
      + apply (c_ds_local C); auto.
      + eapply (c_ds_child C); eauto.
    - destruct H. eapply (c_da C); [eassumption| |eassumption|auto|eassumption].
      eapply maybe2_map; [|eassumption]. cbn. intros. split; [assumption|auto].
    - destruct H. eapply (c_dl C); [eassumption| | |eassumption];
        (eapply maybe2_map; [|eassumption]; cbn; intros; (split; [assumption|auto])).
    - destruct H.
      + eapply (c_qt_parts C); [eassumption|].
        eapply parts_map; [| | |eassumption]; cbn; intros; (split; [assumption|auto]).
      + eapply (c_qt_child C); [eassumption| |eassumption|eassumption|auto].
        eapply parts_map; [| | |eassumption]; cbn; intros; (split; [assumption|auto]).
    - destruct H.
      + apply (c_qs_expr C); auto.
      + eapply (c_qs_child C); [eassumption| |eassumption|eassumption|auto].
        eapply parts_map; [| | |eassumption]; cbn; intros; (split; [assumption|auto]).
      + apply (c_qs_item C).
      + apply (c_qs_macro C).
      + apply (c_qs_local C); auto.
      + eapply (c_qs_let C); eauto.
    - destruct H. apply (c_qa C); [|assumption|auto].
      eapply maybe2_map; [|eassumption]. cbn. intros. split; [assumption|auto].
    - destruct H. apply (c_ql C);
        (eapply maybe2_map; [|eassumption]; cbn; intros; (split; [assumption|auto])).
    - destruct H.
      + apply (c_ex_quiet C); auto.
      + eapply (c_ex_code C); eauto.
    - destruct H.
      + apply (c_el_quiet C); [assumption|assumption| |];
        (eapply maybe2_map; [|eassumption]; cbn; intros; (split; [assumption|auto])).
      + eapply (c_el_code C); eauto.
    - destruct H.
      + eapply (c_in_closure C); eauto.
      + apply (c_in_other C); auto.
    - destruct H.
      + eapply (c_bd_done C); eauto.
      + eapply (c_bd_early C); eauto.
  Qed.
End Induction.
