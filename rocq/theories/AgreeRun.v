(** When the generated implementations apply, and what their associated types are. *)

Require Import Coq.Strings.String Coq.Lists.List Coq.Bool.Bool.
Require Import Verif.Derive Verif.DeriveTable Verif.EnumDerive Verif.DeriveSpec Verif.DeriveEval Verif.DeriveRun Verif.ForwardRun Verif.RequestRun.
Require Import Verif.DeriveTop Verif.AgreeSpec.
Import ListNotations.
Open Scope string_scope.
Open Scope list_scope.

Section Types.
  Context {T : Type} (W : setting T).

  (** The implementation applies to the fields that fit, and its associated types are theirs. *)
  Definition impl_fits (d : enum_data) (g : gimpl) : Prop :=
    forall tr, gi_trait g = Some tr ->
    (Forall (holds_in W) (gi_where g) <->
     fits W (fun t => In t (field_types d)) (gn_where (d_generics d)) (map fst (gi_assoc g)) tr)
    /\ (forall n x, In (n, x) (gi_assoc g) -> exists t, In t (field_types d) /\ x = AProj t tr n).
  Definition derive_fits (f : derive_fn) : Prop :=
    forall d pin its, f d = inr (pin, its) -> Forall (fun it => exists g, it = GImpl g /\ impl_fits d g) its.

  Lemma user_where l : Forall (holds_in W) (map WUser l) <-> forall w, In w l -> user W w.
  Proof. rewrite Forall_map, Forall_forall. reflexivity. Qed.
  Lemma static_where l : Forall (holds_in W) (map WStatic l) <-> forall t, In t l -> static W t.
  Proof. rewrite Forall_map, Forall_forall. reflexivity. Qed.

  Lemma bounds_where d tr binds :
    (forall n s, In (n, s) binds -> declaring tr n = s) ->
    (Forall (holds_in W) (field_bounds d tr binds) <->
     (forall t, In t (field_types d) -> has W t tr)
     /\ forall n s t u, In (n, s) binds -> In t (field_types d) -> In u (field_types d) -> type_of W t s n = type_of W u s n).
  Proof.
    intros D. unfold field_bounds. destruct (field_types d) as [|t0 l].
    - split; [intros _; split; [intros t []|intros n s t u _ []]|constructor].
    - split.
      + intros H. inversion H as [|? ? H1 H2]; subst. rewrite Forall_map, Forall_forall in H2.
        assert (A : forall n s t, In (n, s) binds -> In t (t0 :: l) -> type_of W t s n = type_of W t0 s n).
        { intros n s t B [->|Ht]; [reflexivity|]. destruct (H2 t Ht) as [_ E]. rewrite <- (D _ _ B). apply (E n (AProj t0 (declaring tr n) n)).
          rewrite (D _ _ B). apply in_map_iff. exists (n, s). auto. }
        split; [intros t [<-|Ht]; [apply H1|apply (H2 t Ht)]|]. intros n s t u B Ht Hu. rewrite (A n s t B Ht), (A n s u B Hu). reflexivity.
      + intros [H1 H2]. constructor; [split; [apply H1; left; reflexivity|intros n x []]|]. rewrite Forall_map, Forall_forall. intros u Hu.
        split; [apply H1; right; exact Hu|]. intros n x Hx. apply in_map_iff in Hx. destruct Hx as ([m s] & E & B). injection E as <- <-. cbn.
        rewrite (D _ _ B). apply (H2 _ _ _ _ B); [right; exact Hu|left; reflexivity].
  Qed.

  (** The bindings of a trait are those that it should have. *)
  Definition binds_right (path : string) (sup : option string) (td : trait_def) : bool :=
    forallb (fun b => tref_eqb (declaring (tref_of path td) (fst b)) (snd b)
               && (existsb (String.eqb (fst b)) (td_types td) && tref_eqb (snd b) (tref_of path td)
                   || existsb (fun x => (fst x =? path) && (snd (snd x) =? fst b) && tref_eqb (snd b) (TRef (fst (snd x)) (tr_args (tref_of path td)))) inherited))
      (binds_of path sup td)
    && forallb (fun x => negb (fst x =? path)
                 || existsb (fun b => (fst b =? snd (snd x)) && tref_eqb (snd b) (TRef (fst (snd x)) (tr_args (tref_of path td))))
                      (binds_of path sup td)) inherited
    && negb (existsb (String.eqb path) closure_traits).

  Lemma from_trait_assoc d path sup td :
    gi_assoc (from_trait d path sup td)
    = match field_types d with [] => [] | t :: _ => map (fun n => (n, AProj t (tref_of path td) n)) (td_types td) end.
  Proof.
    unfold from_trait. cbv zeta. fold (tref_of path td).
    match goal with |- context [append_items d _ _ ?j] => set (i2 := j) end.
    assert (K : gi_trait i2 = Some (tref_of path td) /\ gi_assoc i2 = []).
    { unfold i2. match goal with |- gi_trait (fold_left _ ?l ?j) = _ /\ _ =>
        destruct (fold_where_trait (fun w => w) l j) as (A1 & _ & _ & A4 & _); rewrite A1, A4 end.
      match goal with |- gi_trait (fold_left _ ?l ?j) = _ /\ _ =>
        destruct (fold_param_trait (fun p : string => [p]) l j) as (A1' & _ & _ & A4' & _); rewrite A1', A4' end.
      split; reflexivity. }
    destruct K as [K1 K2]. unfold append_items. rewrite K1.
    assert (M : forall ms i, gi_assoc (fold_left (fun i m => push_method d m i) ms i) = gi_assoc i).
    { induction ms as [|m ms IH]; intros i; [reflexivity|]. cbn [fold_left]. rewrite IH. unfold push_method. destruct (gi_trait i); reflexivity. }
    cbv zeta. rewrite M. destruct (field_types d) as [|t l]; [exact K2|].
    assert (N : forall types i, gi_assoc (fold_left (fun i n => push_assoc (n, AProj t (tref_of path td) n) i) types i)
                                = gi_assoc i ++ map (fun n => (n, AProj t (tref_of path td) n)) types).
    { induction types as [|y ys IH]; intros i; cbn [fold_left map]; [symmetry; apply app_nil_r|]. rewrite IH. cbn. rewrite <- app_assoc. reflexivity. }
    rewrite N, K2. reflexivity.
  Qed.

  Lemma from_trait_fits d path sup td g st :
    binds_right path sup td = true ->
    gi_trait g = gi_trait (from_trait d path sup td) -> gi_assoc g = gi_assoc (from_trait d path sup td) ->
    gi_where g = gi_where (from_trait d path sup td) ++ map WStatic st ->
    (path = "::std::error::Error" /\ st = field_types d \/ path <> "::std::error::Error" /\ st = []) -> impl_fits d g.
  Proof.
    intros B E1 E2 E3 ES tr ET. destruct (from_trait_shape d path sup td) as (H1 & _ & H3 & _). rewrite E1, H1 in ET. injection ET as <-.
    unfold binds_right in B. apply andb_true_iff in B. destruct B as [B B3]. apply andb_true_iff in B. destruct B as [B1 B2].
    rewrite forallb_forall in B1, B2. apply negb_true_iff in B3.
    assert (D : forall n s, In (n, s) (binds_of path sup td) -> declaring (tref_of path td) n = s).
    { intros n s Hb. specialize (B1 _ Hb). apply andb_true_iff in B1. apply tref_eqb_eq. exact (proj1 B1). }
    assert (A : gi_assoc g = match field_types d with [] => [] | t :: _ => map (fun n => (n, AProj t (tref_of path td) n)) (td_types td) end).
    { rewrite E2. apply from_trait_assoc. }
    assert (AN : forall t, In t (field_types d) -> map fst (gi_assoc g) = td_types td).
    { intros t Ht. rewrite A. destruct (field_types d) as [|t0 l]; [destruct Ht|]. rewrite map_map. cbn. apply map_id. }
    split.
    - rewrite E3, H3, <- app_assoc, !Forall_app, (user_where (gn_where (d_generics d))), (bounds_where _ _ _ D), static_where. split.
      + intros (F1 & (F2 & F3) & F4). constructor.
        * exact F1.
        * exact F2.
        * intros n t u Hn Ht Hu. rewrite (AN t Ht) in Hn. apply (F3 n _ t u); try assumption. unfold binds_of. apply in_or_app. right.
          apply in_map_iff. exists n. auto.
        * intros own n t u Hin Ht Hu. specialize (B2 _ Hin). cbn [fst snd] in B2. change (tr_path (tref_of path td)) with path in B2.
          rewrite String.eqb_refl in B2. cbn [negb orb] in B2. apply existsb_exists in B2. destruct B2 as ([n' s] & Hb & E).
          apply andb_true_iff in E. destruct E as [EA EB]. cbn [fst snd] in EA, EB. apply String.eqb_eq in EA. apply tref_eqb_eq in EB. subst n' s.
          apply (F3 _ _ _ _ Hb); assumption.
        * intros E t Ht. change (tr_path (tref_of path td)) with path in E. destruct ES as [[_ ->]|[ES _]]; [apply F4; exact Ht|congruence].
        * intros Hc. change (tr_path (tref_of path td)) with path in Hc. exfalso.
          assert (existsb (String.eqb path) closure_traits = true) by (apply existsb_exists; exists path; split; [exact Hc|apply String.eqb_refl]). congruence.
      + intros F. split; [apply F|]. split; [split; [apply F|]|].
        * intros n s t u Hb Ht Hu. specialize (B1 _ Hb). apply andb_true_iff in B1. destruct B1 as [_ B1]. cbn [fst snd] in B1. apply orb_true_iff in B1. destruct B1 as [B1|B1].
          -- apply andb_true_iff in B1. destruct B1 as [BA BB]. apply tref_eqb_eq in BB. subst s. apply existsb_exists in BA. destruct BA as (m & Hm & Em).
             apply String.eqb_eq in Em. subst m. apply (fits_types _ _ _ _ _ F); try assumption. rewrite (AN t Ht). exact Hm.
          -- apply existsb_exists in B1. destruct B1 as ([p [own m]] & Hi & E). cbn [fst snd] in E. apply andb_true_iff in E. destruct E as [E EC].
             apply andb_true_iff in E. destruct E as [EA EB]. apply String.eqb_eq in EA. apply String.eqb_eq in EB. apply tref_eqb_eq in EC. subst p m s.
             apply (fits_inherited _ _ _ _ _ F); assumption.
        * destruct ES as [[ES ->]|[_ ->]]; [|intros t []]. apply (fits_static _ _ _ _ _ F). exact ES.
    - intros n x Hx. rewrite A in Hx. destruct (field_types d) as [|t0 l]; [destruct Hx|]. apply in_map_iff in Hx. destruct Hx as (m & E & _).
      injection E as -> <-. exists t0. split; [left; reflexivity|reflexivity].
  Qed.

  Lemma by_trait_fits path sup td : binds_right path sup td && negb (path =? "::std::error::Error") = true -> derive_fits (by_trait path sup td).
  Proof.
    intros B d pin its H. injection H as <- <-. constructor; [|constructor]. eexists. split; [reflexivity|].
    apply andb_true_iff in B. destruct B as [B N]. apply negb_true_iff, String.eqb_neq in N.
    eapply from_trait_fits with (st := []); [exact B|reflexivity|reflexivity|symmetry; apply app_nil_r|]. right. auto.
  Qed.
  Lemma by_pin_fits path td ms : binds_right path None td && negb (path =? "::std::error::Error") = true -> derive_fits (by_pin path td ms).
  Proof.
    intros B d pin its H. injection H as <- <-. constructor; [|constructor]. eexists. split; [reflexivity|].
    apply andb_true_iff in B. destruct B as [B N]. apply negb_true_iff, String.eqb_neq in N.
    match goal with |- impl_fits d (fold_left ?f ms ?j) => assert (K : gi_trait (fold_left f ms j) = gi_trait j /\ gi_assoc (fold_left f ms j) = gi_assoc j
      /\ gi_where (fold_left f ms j) = gi_where j) end.
    { match goal with |- context [from_trait ?a ?b ?c ?e] => generalize (from_trait a b c e) end.
      induction ms as [|m ms IH]; intros i; [auto|]. cbn [fold_left]. destruct (IH (push_item (pin_method d m) i)) as (-> & -> & ->). auto. }
    destruct K as (K1 & K2 & K3). eapply from_trait_fits with (st := []); [exact B|exact K1|exact K2|rewrite K3; symmetry; apply app_nil_r|]. right. auto.
  Qed.

  Ltac inherited_cases H := cbn [tr_path] in H; unfold inherited in H; repeat (destruct H as [H|H]; [try discriminate H|]); [..|destruct H].
  Lemma fn_where path d :
    In path closure_traits ->
    (Forall (holds_in W) (gi_where (fn_impl path d)) <->
     fits W (fun t => In t (field_types d)) (gn_where (d_generics d)) [] (TRef path ["(__T,)"])).
  Proof.
    intros HP. destruct (fn_impl_shape path d) as (_ & _ & ->). rewrite Forall_app, user_where, Forall_map, Forall_forall.
    assert (D : declaring (TRef path ["(__T,)"]) "Output" = TRef "::core::ops::FnOnce" ["(__T,)"]).
    { destruct HP as [<-|[<-|[<-|[]]]]; reflexivity. }
    cbn [holds_in]. split.
    - intros [F1 F2].
      assert (R : forall t, In t (field_types d) -> type_of W t (TRef "::core::ops::FnOnce" ["(__T,)"]) "Output" = param_is W "__U").
      { intros t Ht. rewrite <- D. apply (proj2 (F2 t Ht) "Output" (AParam "__U")). left. reflexivity. }
      constructor; cbn [tr_path tr_args].
      + exact F1.
      + intros t Ht. apply F2. exact Ht.
      + intros n t u [].
      + intros own n t u Hin Ht Hu.
        assert (X : own = "::core::ops::FnOnce" /\ n = "Output").
        { destruct HP as [<-|[<-|[<-|[]]]]; inherited_cases Hin; injection Hin as <- <-; auto. }
        destruct X as [-> ->]. rewrite (R t Ht), (R u Hu). reflexivity.
      + intros ->. destruct HP as [E|[E|[E|[]]]]; discriminate E.
      + intros _. exact R.
    - intros F. split; [apply F|]. intros t Ht. split; [apply (fits_trait _ _ _ _ _ F); exact Ht|]. intros n x [E|[]]. injection E as <- <-.
      rewrite D. apply (fits_result _ _ _ _ _ F HP). exact Ht.
  Qed.
  Lemma fn_assoc path d : gi_assoc (fn_impl path d) = [].
  Proof.
    unfold fn_impl. cbv zeta. match goal with |- gi_assoc (fold_left _ ?l ?j) = _ =>
      destruct (fold_where_trait (fun f => WBound f (TRef path ["(__T,)"]) [("Output", AParam "__U")]) l j) as (_ & _ & _ & A4 & _); rewrite A4 end.
    reflexivity.
  Qed.
  Lemma fn_method_fits path d m : In path closure_traits -> impl_fits d (push_method d m (fn_impl path d)).
  Proof.
    intros HP tr ET. destruct (fn_impl_shape path d) as (H1 & _ & _). unfold push_method in *. rewrite H1 in *.
    cbn [gi_trait gi_where gi_assoc push_item] in *. rewrite H1 in ET. injection ET as <-. rewrite fn_assoc.
    split; [exact (fn_where path d HP)|intros n x []].
  Qed.
  Lemma fn_fits : derive_fits core_ops_fn__derive.
  Proof.
    intros d pin its H. injection H as <- <-. constructor; [|constructor]. eexists. split; [reflexivity|]. apply fn_method_fits. cbn. auto.
  Qed.
  Lemma fn_mut_fits : derive_fits core_ops_fn_mut_derive.
  Proof.
    intros d pin its H. injection H as <- <-. constructor; [|constructor]. eexists. split; [reflexivity|]. apply fn_method_fits. cbn. auto.
  Qed.
  Lemma fn_once_fits : derive_fits core_ops_fn_once_derive.
  Proof.
    intros d pin its H. injection H as <- <-. constructor; [|constructor]. eexists. split; [reflexivity|]. intros tr ET.
    destruct (fn_impl_shape "::core::ops::FnOnce" d) as (H1 & H2 & H3).
    destruct (append_items_trait d _ ["Output"] [Sig "call_once" ROwn ["args"]] _ H1) as (K1 & K2 & K3 & _).
    rewrite K1 in ET. injection ET as <-. rewrite K3, fn_where by (cbn; auto).
    assert (A : gi_assoc (append_items d ["Output"] [Sig "call_once" ROwn ["args"]] (fn_impl "::core::ops::FnOnce" d))
                = match field_types d with [] => [] | t :: _ => [("Output", AProj t (TRef "::core::ops::FnOnce" ["(__T,)"]) "Output")] end).
    { unfold append_items. rewrite H1. cbv zeta. cbn [fold_left].
      assert (M : forall i, gi_assoc (push_method d (Sig "call_once" ROwn ["args"]) i) = gi_assoc i) by (intros i; unfold push_method; destruct (gi_trait i); reflexivity).
      rewrite M. destruct (field_types d); cbn; rewrite fn_assoc; reflexivity. }
    split.
    - split; intros F; constructor; try apply F; intros n t u Hn Ht Hu; [|destruct Hn].
      rewrite A in Hn. destruct (field_types d) as [|t0 l] eqn:EF; [destruct Hn|]. cbn [map fst In] in Hn. destruct Hn as [<-|[]].
      pose proof (fits_result _ _ _ _ _ F ltac:(cbn; auto)) as R. cbn [tr_args] in R. rewrite (R t Ht), (R u Hu). reflexivity.
    - intros n x Hx. rewrite A in Hx. destruct (field_types d) as [|t0 l]; [destruct Hx|]. destruct Hx as [E|[]]. injection E as <- <-.
      exists t0. split; [left; reflexivity|reflexivity].
  Qed.
  Lemma error_fits : derive_fits std_error_derive.
  Proof.
    intros d pin its H. unfold std_error_derive in H. cbv zeta in H. injection H as <- <-. constructor; [|constructor]. eexists. split; [reflexivity|].
    match goal with |- impl_fits d (push_item _ (fold_left _ ?l ?j)) => destruct (fold_where_trait (fun f => WStatic f) l j) as (K1 & _ & K3 & K4 & _) end.
    eapply from_trait_fits with (path := "::std::error::Error") (sup := None) (st := field_types d); [|exact K1|exact K4|exact K3|left; auto].
    vm_compute. reflexivity.
  Qed.
  Lemma transpose_fits : derive_fits ty_impls_transpose_derive.
  Proof.
    intros d pin its H. pose proof (transpose_derive_ok d pin its H) as (_ & K & _). cbn in K. revert K. apply Forall_impl.
    intros it (g & -> & E). exists g. split; [reflexivity|]. intros tr E'. congruence.
  Qed.

  Lemma derives_fit : Forall (fun e => derive_fits (en_derive e)) derives.
  Proof.
    unfold derives.
    repeat (constructor; [cbn [en_derive];
      first [apply fn_fits|apply fn_mut_fits|apply fn_once_fits|apply error_fits|apply transpose_fits
            |apply by_trait_fits; vm_compute; reflexivity|apply by_pin_fits; vm_compute; reflexivity]|]).
    constructor.
  Qed.

  Lemma output_fits feat ts i o g :
    enum_derive feat ts i = inr o -> In (GImpl g) (do_items o) -> exists d, parse_data i = Some d /\ impl_fits d g.
  Proof.
    intros H Hg. destruct (expansion _ _ _ _ H) as (d & ps & D & _ & _ & E & F). exists d. split; [exact D|]. rewrite E in Hg. clear E.
    unfold all_items in Hg. apply in_app_or in Hg. destruct Hg as [Hg|Hg].
    - apply in_flat_map in Hg. destruct Hg as (r & Hr & Hg). rewrite Forall_forall in F. specialize (F r Hr).
      unfold contrib in Hg. destruct (get_derive feat (fst r)) as [f|] eqn:G; [|destruct Hg]. specialize (F f eq_refl).
      destruct (ForwardRun.get_derive_ok _ _ _ G) as (k & e & n & L & _ & _ & _ & EF & _).
      destruct (f d) as [?|[pin its]] eqn:FD; [destruct Hg|].
      assert (A : derive_fits f).
      { pose proof derives_fit as DA. rewrite Forall_forall in DA. rewrite EF. apply DA. eapply nth_error_In, L. }
      specialize (A d pin its FD). rewrite Forall_forall in A. destruct (A _ Hg) as (g' & E & Hg'). injection E as <-. exact Hg'.
    - destruct (existsb (fun r => fst (contrib feat d r)) _); [|destruct Hg]. destruct Hg as [E|[E|[]]]; [|discriminate E].
      injection E as <-. eapply from_trait_fits with (path := "::core::marker::Unpin") (sup := None) (st := []);
        [|reflexivity|reflexivity|symmetry; apply app_nil_r|right; split; [discriminate|reflexivity]].
      vm_compute. reflexivity.
  Qed.

  Lemma fits_field (P Q : toks -> Prop) wh names tr : (forall t, P t <-> Q t) -> fits W P wh names tr -> fits W Q wh names tr.
  Proof.
    intros E F. constructor.
    - apply F.
    - intros t Ht. apply F, E. exact Ht.
    - intros n t u Hn Ht Hu. apply (fits_types _ _ _ _ _ F); [exact Hn|apply E; exact Ht|apply E; exact Hu].
    - intros own n t u Hin Ht Hu. apply (fits_inherited _ _ _ _ _ F); [exact Hin|apply E; exact Ht|apply E; exact Hu].
    - intros X t Ht. apply (fits_static _ _ _ _ _ F X). apply E. exact Ht.
    - intros X t Ht. apply (fits_result _ _ _ _ _ F X). apply E. exact Ht.
  Qed.
End Types.
