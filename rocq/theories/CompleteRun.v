(** Every generated implementation has what its trait demands. *)

Require Import Coq.Strings.String Coq.Lists.List Coq.Bool.Bool Coq.Arith.Arith.
Require Import Verif.Syntax Verif.Context Verif.TypeAnalysis Verif.Derive Verif.DeriveTable Verif.EnumDerive
  Verif.DeriveEval Verif.DeriveSpec Verif.CompleteSpec Verif.DeriveRun Verif.ForwardRun Verif.ArgsSpec
  Verif.RequestRun.
Import ListNotations.
Open Scope string_scope.
Open Scope list_scope.

(** What [meets] looks at. *)
Definition outline (g : gimpl) : bool * list string * list (string * recv * nat) :=
  (gi_unsafe g, map fst (gi_assoc g), map (fun m => (gm_name m, gm_recv m, length (gm_params m))) (gi_methods g)).
Definition sig_outline (m : msig) : string * recv * nat := (ms_name m, ms_recv m, length (ms_params m)).
Definition pin_outline (m : pinmeth) : string * recv * nat := (pm_name m, RPin, length (pm_params m)).

Lemma outline_params {A} (f : A -> toks) : forall l i, outline (fold_left (fun i p => push_param (f p) i) l i) = outline i.
Proof. induction l as [|x l IH]; intros i; [reflexivity|]. cbn. rewrite IH. reflexivity. Qed.
Lemma outline_where {A} (f : A -> wpred) : forall l i, outline (fold_left (fun i p => push_where (f p) i) l i) = outline i.
Proof. induction l as [|x l IH]; intros i; [reflexivity|]. cbn. rewrite IH. reflexivity. Qed.
Lemma outline_assoc t tr : forall l i,
  outline (fold_left (fun i n => push_assoc (n, AProj t tr n) i) l i)
  = (fst (fst (outline i)), snd (fst (outline i)) ++ l, snd (outline i)).
Proof.
  induction l as [|x l IH]; intros i; cbn [fold_left]; [rewrite app_nil_r; reflexivity|].
  rewrite IH. unfold outline, push_assoc. cbn. rewrite map_app, <- app_assoc. reflexivity.
Qed.
Lemma outline_item m i :
  outline (push_item m i) = (fst (outline i), snd (outline i) ++ [(gm_name m, gm_recv m, length (gm_params m))]).
Proof. unfold outline, push_item. cbn. rewrite map_app. reflexivity. Qed.
Lemma outline_pins d : forall l i,
  outline (fold_left (fun i p => push_item (pin_method d p) i) l i) = (fst (outline i), snd (outline i) ++ map pin_outline l).
Proof.
  induction l as [|x l IH]; intros i; cbn [fold_left map]; [rewrite app_nil_r; destruct (outline i); reflexivity|].
  rewrite IH, outline_item. cbn [fst snd]. rewrite <- app_assoc. reflexivity.
Qed.
Lemma outline_methods d tr : forall l i, gi_trait i = Some tr ->
  outline (fold_left (fun i m => push_method d m i) l i) = (fst (outline i), snd (outline i) ++ map sig_outline l).
Proof.
  induction l as [|x l IH]; intros i H; cbn [fold_left map]; [rewrite app_nil_r; destruct (outline i); reflexivity|].
  unfold push_method at 2. rewrite H, IH by exact H. rewrite outline_item. cbn [fst snd]. rewrite <- app_assoc. reflexivity.
Qed.

Lemma outline_append d tr types ms i :
  field_types d <> [] -> gi_trait i = Some tr ->
  outline (append_items d types ms i)
  = (fst (fst (outline i)), snd (fst (outline i)) ++ types, snd (outline i) ++ map sig_outline ms).
Proof.
  intros N H. unfold append_items. rewrite H. destruct (field_types d) as [|t l]; [congruence|]. cbv zeta.
  rewrite (outline_methods d tr).
  - rewrite outline_assoc. reflexivity.
  - rewrite (proj1 (fold_assoc_trait (fun n => (n, AProj t tr n)) types i)). exact H.
Qed.

Lemma outline_from_trait d path sup td :
  field_types d <> [] ->
  outline (from_trait d path sup td) = (td_unsafe td, td_types td, map sig_outline (td_methods td)).
Proof.
  intros N. unfold from_trait. cbv zeta. fold (tref_of path td).
  match goal with |- context [field_bounds d _ ?b] => set (bb := b) end.
  set (i0 := set_unsafe (td_unsafe td) (set_trait (tref_of path td) (impl_new d))).
  pose proof (fold_param_trait (fun p : string => [p]) (td_params td) i0) as (A1 & _).
  pose proof (outline_params (fun p : string => [p]) (td_params td) i0) as B1.
  set (i1 := fold_left (fun i p => push_param [p] i) (td_params td) i0) in *.
  pose proof (fold_where_trait (fun w => w) (field_bounds d (tref_of path td) bb) i1) as (A2 & _).
  pose proof (outline_where (fun w => w) (field_bounds d (tref_of path td) bb) i1) as B2.
  set (i2 := fold_left (fun i w => push_where w i) (field_bounds d (tref_of path td) bb) i1) in *.
  rewrite (outline_append d (tref_of path td)); [|exact N|rewrite A2, A1; reflexivity].
  rewrite B2, B1. unfold i0. destruct td. reflexivity.
Qed.

(** The outline of the derive functions. *)
Definition has_outline (f : derive_fn) (x : bool * list string * list (string * recv * nat)) : Prop :=
  forall d pin its, field_types d <> [] -> f d = inr (pin, its) -> exists g, its = [GImpl g] /\ outline g = x.

Lemma by_trait_outline path sup td :
  has_outline (by_trait path sup td) (td_unsafe td, td_types td, map sig_outline (td_methods td)).
Proof. intros d pin its N H. injection H as <- <-. eexists. split; [reflexivity|]. apply outline_from_trait, N. Qed.

Lemma by_pin_outline path td ms :
  has_outline (by_pin path td ms)
    (td_unsafe td, td_types td, map sig_outline (td_methods td) ++ map pin_outline ms).
Proof.
  intros d pin its N H. injection H as <- <-. eexists. split; [reflexivity|].
  rewrite outline_pins, outline_from_trait by exact N. reflexivity.
Qed.

Lemma outline_fn path d : outline (fn_impl path d) = (false, [], []).
Proof. unfold fn_impl. cbv zeta. rewrite (outline_where (fun f => WBound f (TRef path ["(__T,)"]) [("Output", AParam "__U")])). reflexivity. Qed.

Lemma fn_outline : has_outline core_ops_fn__derive (false, [], [("call", RRef, 1)]).
Proof.
  intros d pin its N H. injection H as <- <-. eexists. split; [reflexivity|].
  unfold push_method. rewrite (proj1 (fn_impl_shape "::core::ops::Fn" d)), outline_item, outline_fn. reflexivity.
Qed.
Lemma fn_mut_outline : has_outline core_ops_fn_mut_derive (false, [], [("call_mut", RMut, 1)]).
Proof.
  intros d pin its N H. injection H as <- <-. eexists. split; [reflexivity|].
  unfold push_method. rewrite (proj1 (fn_impl_shape "::core::ops::FnMut" d)), outline_item, outline_fn. reflexivity.
Qed.
Lemma fn_once_outline : has_outline core_ops_fn_once_derive (false, ["Output"], [("call_once", ROwn, 1)]).
Proof.
  intros d pin its N H. injection H as <- <-. eexists. split; [reflexivity|].
  rewrite (outline_append d _ _ _ _ N (proj1 (fn_impl_shape "::core::ops::FnOnce" d))), outline_fn. reflexivity.
Qed.
Lemma error_outline : has_outline std_error_derive (false, [], [("description", RRef, 0); ("source", RRef, 0)]).
Proof.
  intros d pin its N H. unfold std_error_derive in H. cbv zeta in H. injection H as <- <-. eexists. split; [reflexivity|].
  rewrite outline_item, (outline_where (fun f => WStatic f)), outline_from_trait by exact N. reflexivity.
Qed.

(** ** The table *)

(** The demand of a name. *)
Definition demand_of (s : string) : option demand :=
  option_map snd (find (fun x => fst x =? s) demands).

(** A checked form of [meets]. *)
Definition recv_eqb (a b : recv) : bool :=
  match a, b with RRef, RRef | RMut, RMut | ROwn, ROwn | RPin, RPin => true | _, _ => false end.
Definition meth_eqb (a b : string * recv * nat) : bool :=
  (fst (fst a) =? fst (fst b)) && recv_eqb (snd (fst a)) (snd (fst b)) && (snd a =? snd b)%nat.
Definition meets_b (x : bool * list string * list (string * recv * nat)) (d : demand) : bool :=
  Bool.eqb (fst (fst x)) (dm_unsafe d) && toks_eqb (snd (fst x)) (dm_types d)
  && forallb (fun m => existsb (meth_eqb m) (snd x)) (dm_methods d)
  && nodupb (map (fun m => fst (fst m)) (snd x)).

Lemma meth_eqb_eq a b : meth_eqb a b = true -> a = b.
Proof.
  destruct a as [[m r] n], b as [[m' r'] n']. unfold meth_eqb. cbn. rewrite !andb_true_iff.
  intros [[H1 H2] H3]. apply String.eqb_eq in H1. apply Nat.eqb_eq in H3. destruct r, r'; try discriminate H2; congruence.
Qed.

Lemma meets_checked g d : meets_b (outline g) d = true -> meets g d.
Proof.
  unfold meets_b, outline. cbn [fst snd]. rewrite !andb_true_iff. intros [[[H1 H2] H3] H4].
  split; [apply Bool.eqb_prop, H1|]. split; [apply toks_eqb_eq, H2|]. split.
  - intros m r n Hin. rewrite forallb_forall in H3. specialize (H3 _ Hin). apply existsb_exists in H3.
    destruct H3 as (y & Hy & E). apply meth_eqb_eq in E. subst y. apply in_map_iff in Hy. destruct Hy as (x & E & Hx).
    injection E as <- <- <-. exists x. auto.
  - apply nodup_dec_params in H4. rewrite map_map in H4. exact H4.
Qed.

(** A line of the table: some outline, that meets the demands of each name it has. *)
Definition line_complete (e : entry) (n : option string) : Prop :=
  n = None \/ exists x, has_outline (en_derive e) x
    /\ forall l, In l documented -> In (hd "" (en_names e)) (doc_names l) ->
         exists d, demand_of (hd "" (doc_names l)) = Some d /\ meets_b x d = true.

Definition outline_meets (names : list string) (x : bool * list string * list (string * recv * nat)) : bool :=
  forallb (fun l => if existsb (String.eqb (hd "" names)) (doc_names l) then
                      match demand_of (hd "" (doc_names l)) with Some d => meets_b x d | None => false end
                    else true) documented.

Lemma line_complete_b e n x :
  has_outline (en_derive e) x -> outline_meets (en_names e) x = true -> line_complete e n.
Proof.
  intros H B. right. exists x. split; [exact H|]. intros l Hl Hin. unfold outline_meets in B. rewrite forallb_forall in B.
  specialize (B l Hl). assert (X : existsb (String.eqb (hd "" (en_names e))) (doc_names l) = true).
  { apply existsb_exists. exists (hd "" (en_names e)). split; [exact Hin|apply String.eqb_refl]. }
  rewrite X in B. destruct (demand_of _) as [d|]; [|discriminate B]. eauto.
Qed.

Lemma table_complete : Forall2 line_complete derives entry_traits.
Proof.
  unfold derives, entry_traits.
  repeat (constructor;
    [first [left; reflexivity
           |eapply line_complete_b;
              [first [apply fn_outline|apply fn_mut_outline|apply fn_once_outline|apply error_outline
                     |apply by_trait_outline|apply by_pin_outline]|vm_compute; reflexivity]]|]).
  constructor.
Qed.

Theorem implementation_complete feat ts i o ps p l :
  enum_derive feat ts i = inr o -> arg_list (map Trait ps) ts -> In p ps ->
  In l documented -> In (path_text p) (doc_names l) -> (forall f, doc_feature l = Some f -> feat f = true) ->
  exists d g t, In (hd "" (doc_names l), d) demands
    /\ In (GImpl g) (do_items o) /\ gi_trait g = Some t /\ tr_path t = doc_trait l /\ meets g d.
Proof.
  intros H HA Hp Hl Hn Hf. destruct (expansion _ _ _ _ H) as (d & ps' & D & HA' & E1 & E2 & F).
  assert (ps' = ps).
  { assert (P1 : parse_traits ts = Some (map named ps')) by (apply parse_traits_grammar; eauto).
    assert (P2 : parse_traits ts = Some (map named ps)) by (apply parse_traits_grammar; eauto).
    rewrite P1 in P2. injection P2 as P2. apply (f_equal (map snd)) in P2. rewrite !map_map in P2. cbn in P2.
    rewrite !map_id in P2. exact P2. }
  subst ps'.
  assert (L : In (doc_feature l, doc_names l, Some (doc_trait l)) lines).
  { apply lines_documented. unfold doc_lines. apply in_or_app. left. apply in_map_iff. exists l. auto. }
  destruct (lines_line _ _ _ L) as (k & e & Hk & Ef & En).
  assert (He : enabled feat (en_feature e) = true) by (apply enabled_spec; rewrite Ef; exact Hf).
  assert (Hs : In (path_text p) (en_names e)) by (rewrite En; exact Hn).
  assert (C : covered feat (path_text p) (requests feat (map named ps)))
    by (apply (proj1 (requests_cover feat (map named ps) (named p) (in_map named _ _ Hp)))).
  destruct (covered_items _ _ _ _ _ _ _ F C Hk Hs He) as (pin & its & Ed & Hits).
  assert (T : line_complete e (Some (doc_trait l))).
  { destruct Hk as [K1 K2]. pose proof table_complete as T. revert k K1 K2.
    induction T as [|x y l1 l2 Hxy _ IH]; intros [|k] K1 K2; try discriminate.
    - injection K1 as <-. injection K2 as <-. exact Hxy.
    - eapply IH; eauto. }
  destruct T as [T|(x & Hx & Hm)]; [discriminate T|].
  assert (NE : field_types d <> []).
  { destruct (parse_data_spec _ _ D) as (_ & _ & N & _). unfold field_types. clear - D. unfold parse_data in D.
    destruct (ei_variants i) as [|v0 l0] eqn:Ev; [discriminate D|]. cbn in D.
    destruct (variant_type v0); [|discriminate D]. destruct (variant_types l0); [|discriminate D].
    injection D as <-. discriminate. }
  destruct (Hx d pin its NE Ed) as (g & -> & Eo).
  assert (Hok : derive_ok (Some (doc_trait l)) (en_derive e)).
  { destruct (get_derive_found feat (path_text p) (en_derive e)) as (k' & e' & n' & L' & Hs' & _ & _ & Ok).
    - apply (get_derive_line _ _ _ _ _ Hk Hs He).
    - assert (k' = k).
      { apply (names_entry derives all_names_nodup k' k e' e (path_text p)); auto; [apply L'|apply Hk]. }
      subst k'. destruct Hk as [K1 K2], L' as [K1' K2']. rewrite K2 in K2'. injection K2' as <-. exact Ok. }
  destruct (Hok d pin [GImpl g] Ed) as (_ & (g' & t & Eg & Et & Ep) & _). injection Eg as <-.
  destruct (Hm l Hl) as (dm & Edm & Mb).
  { rewrite En. destruct (doc_names l); [destruct Hn|left; reflexivity]. }
  exists dm, g, t. split; [|split; [rewrite E2; apply Hits; left; reflexivity|]].
  - unfold demand_of in Edm. destruct (find _ demands) as [[s y]|] eqn:Fd; [|discriminate Edm]. injection Edm as <-.
    apply find_some in Fd. destruct Fd as [Fi Fe]. apply String.eqb_eq in Fe. cbn in Fe. subst s. exact Fi.
  - split; [exact Et|]. split; [exact Ep|]. apply meets_checked. rewrite Eo. exact Mb.
Qed.
