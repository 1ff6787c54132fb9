(** Contracts of held values carry over to the enum. *)

Require Import Coq.Strings.String Coq.Lists.List Coq.Bool.Bool Coq.Arith.Arith Coq.micromega.Lia.
Require Import Verif.Syntax Verif.Context Verif.TypeAnalysis Verif.Derive Verif.DeriveTable Verif.EnumDerive
  Verif.DeriveEval Verif.DeriveSpec Verif.Contracts Verif.DeriveRun Verif.ForwardRun Verif.ArgsSpec
  Verif.RequestRun Verif.OnceRun.
Import ListNotations.
Open Scope string_scope.
Open Scope list_scope.

(** ** Which implementation a trait has *)

(** An implementation in the output comes from the line of its trait. *)
Lemma impl_from_line feat ts i o d g t path k e :
  enum_derive feat ts i = inr o -> parse_data i = Some d ->
  In (GImpl g) (do_items o) -> gi_trait g = Some t -> tr_path t = path ->
  line k e (Some path) -> versioned path = false ->
  exists pin its, en_derive e d = inr (pin, its) /\ In (GImpl g) its.
Proof.
  intros H D Hg Eg Et L Hv. destruct (expansion _ _ _ _ H) as (d' & ps & D' & HA & E1 & E2 & F).
  assert (d' = d) by congruence. subst d'. rewrite E2 in Hg. unfold all_items in Hg.
  apply in_app_or in Hg. destruct Hg as [Hg|Hg].
  - apply in_flat_map in Hg. destruct Hg as (r & Hr & Hg). rewrite Forall_forall in F.
    assert (Z : In path (flat_map item_paths (snd (contrib feat d r)))).
    { apply in_flat_map. exists (GImpl g). split; [exact Hg|]. cbn. rewrite Eg. left. exact Et. }
    destruct (contrib_paths feat d r (F r Hr) path Z) as (_ & k' & e' & L' & Hs & He).
    assert (k' = k) by (destruct L, L'; eapply unversioned_unique; eauto). subst k'.
    assert (e' = e) by (destruct L, L'; congruence). subst e'.
    pose proof (F r Hr _ (get_derive_line feat _ _ _ _ L Hs He)) as Hc.
    exists (fst (contrib feat d r)), (snd (contrib feat d r)). split; [rewrite Hc; destruct (contrib feat d r); reflexivity|].
    exact Hg.
  - exfalso. destruct (existsb (fun r => fst (contrib feat d r)) (requests feat (map named ps))); [|destruct Hg].
    destruct Hg as [E|[E|[]]]; [|discriminate E]. injection E as <-.
    destruct (unpin_shape d) as (U1 & _). rewrite U1 in Eg. injection Eg as <-. cbn in Et. subst path.
    destruct L as [_ L]. apply (unpin_not_listed k), L.
Qed.

(** A list whose elements all come from one list finds what that list finds. *)
Lemma find_flat {A} (p : gmethod -> bool) (f : A -> list gmethod) ms : forall l,
  (forall g, In g l -> f g = [] \/ f g = ms) -> (exists g, In g l /\ f g = ms) ->
  find p (flat_map f l) = find p ms.
Proof.
  assert (App : forall a b, find p (a ++ b) = match find p a with Some x => Some x | None => find p b end).
  { induction a as [|x a IH]; intros b; cbn; [reflexivity|]. destruct (p x); [reflexivity|apply IH]. }
  assert (Z : forall l, (forall g, In g l -> f g = [] \/ f g = ms) -> find p ms = None ->
              find p (flat_map f l) = None).
  { induction l as [|g l IH]; intros H N; [reflexivity|]. cbn. rewrite App.
    destruct (H g (or_introl eq_refl)) as [-> | ->]; cbn; rewrite ?N; apply IH; auto; intros x Hx; apply H; right; exact Hx. }
  induction l as [|g l IH]; intros H (g0 & Hin & E); [destruct Hin|]. cbn. rewrite App.
  assert (H' : forall x, In x l -> f x = [] \/ f x = ms) by (intros x Hx; apply H; right; exact Hx).
  destruct (H g (or_introl eq_refl)) as [Eg|Eg]; rewrite Eg.
  - cbn. destruct Hin as [->|Hin]; [|apply IH; eauto].
    rewrite Eg in E. subst ms. apply Z; [exact H'|reflexivity].
  - destruct (find p ms) eqn:M; [reflexivity|]. apply Z; auto.
Qed.

Lemma find_sig_in d tr m rc ps : forall l,
  NoDup (map ms_name l) -> In (Sig m rc ps) l ->
  find (fun g => gm_name g =? m) (map (forward d tr) l) = Some (forward d tr (Sig m rc ps)).
Proof.
  induction l as [|s l IH]; intros ND Hin; [destruct Hin|]. inversion ND as [|? ? Hn ND']; subst.
  cbn [map find]. cbn [forward gm_name]. destruct (ms_name s =? m) eqn:E.
  - apply String.eqb_eq in E. destruct Hin as [->|Hin]; [reflexivity|].
    exfalso. apply Hn. rewrite E. apply in_map_iff. exists (Sig m rc ps). auto.
  - destruct Hin as [->|Hin]; [cbn in E; rewrite String.eqb_refl in E; discriminate E|]. apply IH; assumption.
Qed.

(** The methods of a trait that is implemented by forwarding everything. *)
Lemma find_forward feat ts i o d path sup td k e m rc ps :
  enum_derive feat ts i = inr o -> parse_data i = Some d ->
  line k e (Some path) -> versioned path = false -> en_derive e = by_trait path sup td ->
  NoDup (map ms_name (td_methods td)) -> In (Sig m rc ps) (td_methods td) ->
  implements o path ->
  find_method o (tref_of path td) m = Some (forward d (tref_of path td) (Sig m rc ps)).
Proof.
  intros H D L Hv Ee ND Hin (g0 & t0 & Hg0 & Eg0 & Et0).
  destruct (from_trait_shape d path sup td) as (F1 & F2 & _).
  assert (U : forall g t, In (GImpl g) (do_items o) -> gi_trait g = Some t -> tr_path t = path ->
              g = from_trait d path sup td).
  { intros g t Hg Eg Et. destruct (impl_from_line _ _ _ _ _ _ _ _ _ _ H D Hg Eg Et L Hv) as (pin & its & E & Hi).
    rewrite Ee in E. injection E as <- <-. destruct Hi as [Hi|[]]. congruence. }
  unfold find_method, trait_methods.
  assert (Imp : forall g, In g (impls_of o) <-> In (GImpl g) (do_items o)).
  { intros g. unfold impls_of. rewrite in_flat_map. split.
    - intros ([g'|] & Hi & Hg); [destruct Hg as [->|[]]; exact Hi|destruct Hg].
    - intros Hi. exists (GImpl g). split; [exact Hi|left; reflexivity]. }
  rewrite (find_flat _ _ (map (forward d (tref_of path td)) (td_methods td))).
  - apply find_sig_in; assumption.
  - intros g Hg. apply Imp in Hg. destruct (gi_trait g) as [t|] eqn:Eg; [|left; reflexivity].
    destruct (tref_eqb t (tref_of path td)) eqn:Et; [|left; reflexivity]. right.
    apply tref_eqb_eq in Et. subst t. rewrite (U g _ Hg Eg eq_refl). exact F2.
  - exists g0. split; [apply Imp, Hg0|]. rewrite (U g0 t0 Hg0 Eg0 Et0), F1.
    assert (B : tref_eqb (tref_of path td) (tref_of path td) = true) by (apply tref_eqb_eq; reflexivity).
    rewrite B. exact F2.
Qed.

(** ** Requested traits have their methods *)

Definition iter_tr : trait_ref := TRef "::core::iter::Iterator" [].
Definition dei_tr : trait_ref := TRef "::core::iter::DoubleEndedIterator" [].
Definition esi_tr : trait_ref := TRef "::core::iter::ExactSizeIterator" [].

(** The trait of a name, from the documentation. *)
Lemma means_doc feat s l :
  In l documented -> In s (doc_names l) -> (forall f, doc_feature l = Some f -> feat f = true) ->
  means feat s (doc_trait l).
Proof. intros H1 H2 H3. exists l. auto. Qed.

Lemma has_iterator feat ts i o d :
  enum_derive feat ts i = inr o -> parse_data i = Some d -> implements o "::core::iter::Iterator" ->
  find_method o iter_tr "next" = Some (forward d iter_tr (Sig "next" RMut []))
  /\ find_method o iter_tr "size_hint" = Some (forward d iter_tr (Sig "size_hint" RRef [])).
Proof.
  intros H D Hi. split;
    (refine (find_forward feat ts i o d "::core::iter::Iterator" None _ 12 (Entry None core_iter_iterator_NAME core_iter_iterator_derive) _ _ _ H D _ eq_refl eq_refl _ _ Hi);
     [split; reflexivity|apply nodup_dec_params; reflexivity|cbn; auto]).
Qed.

Lemma has_dei feat ts i o d :
  enum_derive feat ts i = inr o -> parse_data i = Some d -> implements o "::core::iter::DoubleEndedIterator" ->
  find_method o dei_tr "next_back" = Some (forward d dei_tr (Sig "next_back" RMut [])).
Proof.
  intros H D Hi.
  refine (find_forward feat ts i o d "::core::iter::DoubleEndedIterator" (Some "Item") _ 13 (Entry None core_iter_double_ended_iterator_NAME core_iter_double_ended_iterator_derive) _ _ _ H D _ eq_refl eq_refl _ _ Hi);
     [split; reflexivity|apply nodup_dec_params; reflexivity|cbn; auto].
Qed.

Lemma has_esi feat ts i o d :
  enum_derive feat ts i = inr o -> parse_data i = Some d -> implements o "::core::iter::ExactSizeIterator" ->
  find_method o esi_tr "len" = Some (forward d esi_tr (Sig "len" RRef [])).
Proof.
  intros H D Hi.
  refine (find_forward feat ts i o d "::core::iter::ExactSizeIterator" (Some "Item") _ 14 (Entry None core_iter_exact_size_iterator_NAME core_iter_exact_size_iterator_derive) _ _ _ H D _ eq_refl eq_refl _ _ Hi);
     [split; reflexivity|apply nodup_dec_params; reflexivity|cbn; auto].
Qed.

Lemma has_fmt feat ts i o d name k :
  enum_derive feat ts i = inr o -> parse_data i = Some d ->
  (name = "Debug" /\ k = 2 \/ name = "Display" /\ k = 3) ->
  implements o (String.append "::core::fmt::" name) ->
  let tr := TRef (String.append "::core::fmt::" name) [] in
  find_method o tr "fmt" = Some (forward d tr (Sig "fmt" RRef ["f"])).
Proof.
  intros H D [[-> ->]|[-> ->]] Hi tr.
  - refine (find_forward feat ts i o d "::core::fmt::Debug" None _ 2 (Entry None core_fmt_debug_NAME core_fmt_debug_derive) _ _ _ H D _ eq_refl eq_refl _ _ Hi);
     [split; reflexivity|apply nodup_dec_params; reflexivity|cbn; auto].
  - refine (find_forward feat ts i o d "::core::fmt::Display" None _ 3 (Entry None core_fmt_display_NAME core_fmt_display_derive) _ _ _ H D _ eq_refl eq_refl _ _ Hi);
     [split; reflexivity|apply nodup_dec_params; reflexivity|cbn; auto].
Qed.

(** ** Lists are determined by their tokens *)

Lemma arg_list_unique ps qs ts : arg_list (map Trait ps) ts -> arg_list (map Trait qs) ts -> ps = qs.
Proof.
  intros HA HB.
  assert (A1 : parse_traits ts = Some (map named ps)) by (apply parse_traits_grammar; eauto).
  assert (A2 : parse_traits ts = Some (map named qs)) by (apply parse_traits_grammar; eauto).
  assert (E : map named ps = map named qs) by congruence. revert E. clear.
  revert qs. induction ps as [|a l IH]; intros [|b m] E; try discriminate; [reflexivity|].
  injection E as _ -> E. f_equal. apply IH, E.
Qed.

Lemma requested_trait feat ts i o ps p tr :
  enum_derive feat ts i = inr o -> arg_list (map Trait ps) ts -> In p ps -> means feat (path_text p) tr ->
  implements o tr.
Proof.
  intros H HA Hp M. destruct (requested_implemented _ _ _ _ H) as (qs & HB & HI & _).
  rewrite (arg_list_unique _ _ _ HA HB) in Hp. eapply HI; eauto.
Qed.

(** ** Contracts *)

Section Run.
  Context {V : Type}.

  (** The enum and the value it holds give the same answers. *)
  Definition agree (o : doutput) (f g : observer (V := V)) : Prop :=
    forall cs, Forall (forwarded o) cs -> f cs = g cs.

  Lemma enum_agrees (I : inner V) feat ts i o v t a x w :
    enum_derive feat ts i = inr o -> distinct_variants i -> has_variant i v t ->
    w_mem w a = Some (VEnum (ei_ident i) v x) ->
    agree o (of_enum I o a w) (of_value I t a x).
  Proof.
    intros H DV HV Hw cs Hcs. unfold of_enum, of_value.
    destruct (history_forwards I feat ts i o v t a H DV HV cs x w Hw) as (w' & E & _).
    - rewrite Forall_forall in *. intros c Hc. apply (Hcs c Hc).
    - rewrite Forall_forall in *. intros c Hc. apply (Hcs c Hc).
    - rewrite E. reflexivity.
  Qed.

  Lemma agree_answer o (f g : observer (V := V)) cs c :
    agree o f g -> Forall (forwarded o) cs -> forwarded o c -> answer f cs c = answer g cs c.
  Proof.
    intros A H1 H2. unfold answer. rewrite (A (cs ++ [c])); [reflexivity|].
    apply Forall_app. split; [exact H1|]. constructor; [exact H2|constructor].
  Qed.

  Lemma forwarded_next feat ts i o d :
    enum_derive feat ts i = inr o -> parse_data i = Some d -> implements o "::core::iter::Iterator" ->
    forwarded o (next (V := V)) /\ forwarded o (size_hint (V := V)).
  Proof.
    intros H D Hi. destruct (has_iterator _ _ _ _ _ H D Hi) as [H1 H2].
    split; (split; [|intros [E _]; discriminate E]); eexists; (split; [eassumption|]); cbn; auto.
  Qed.

  Lemma forwarded_next_back feat ts i o d :
    enum_derive feat ts i = inr o -> parse_data i = Some d -> implements o "::core::iter::DoubleEndedIterator" ->
    forwarded o (next_back (V := V)).
  Proof.
    intros H D Hi. pose proof (has_dei _ _ _ _ _ H D Hi) as H1.
    split; [|intros [E _]; discriminate E]. eexists. split; [eassumption|]. cbn. auto.
  Qed.

  Lemma forwarded_len feat ts i o d :
    enum_derive feat ts i = inr o -> parse_data i = Some d -> implements o "::core::iter::ExactSizeIterator" ->
    forwarded o (len (V := V)).
  Proof.
    intros H D Hi. pose proof (has_esi _ _ _ _ _ H D Hi) as H1.
    split; [|intros [E _]; discriminate E]. eexists. split; [eassumption|]. cbn. auto.
  Qed.

  Lemma forwarded_repeat o (c : call V) n : forwarded o c -> Forall (forwarded o) (repeat c n).
  Proof. intros H. induction n; constructor; auto. Qed.

  Lemma fused_carries o (f g : observer (V := V)) :
    agree o f g -> forwarded o (next (V := V)) -> fused (forwarded o) g -> fused (forwarded o) f.
  Proof.
    intros A Hn HF cs cs' H1 H2 E. rewrite (agree_answer o f g) in E by assumption.
    rewrite (agree_answer o f g); auto. apply Forall_app. split; [exact H1|]. constructor; assumption.
  Qed.

  Lemma exact_carries o hint (f g : observer (V := V)) :
    agree o f g -> forwarded o (next (V := V)) -> forwarded o (size_hint (V := V)) ->
    exact (forwarded o) hint g -> exact (forwarded o) hint f.
  Proof.
    intros A Hn Hs HE cs Hcs. destruct (HE cs Hcs) as (n & E1 & E2 & E3). exists n. split; [|split].
    - rewrite (agree_answer o f g); auto.
    - intros k Hk. destruct (E2 k Hk) as (x & Ex). exists x. rewrite (agree_answer o f g); auto.
      apply Forall_app. split; [exact Hcs|apply forwarded_repeat, Hn].
    - rewrite (agree_answer o f g); auto. apply Forall_app. split; [exact Hcs|apply forwarded_repeat, Hn].
  Qed.

  Lemma len_carries o hint num (f g : observer (V := V)) :
    agree o f g -> forwarded o (size_hint (V := V)) -> forwarded o (len (V := V)) ->
    len_agrees (forwarded o) hint num g -> len_agrees (forwarded o) hint num f.
  Proof.
    intros A Hs Hl HE cs Hcs. destruct (HE cs Hcs) as (n & E1 & E2). exists n.
    rewrite !(agree_answer o f g); auto.
  Qed.

  Lemma both_carries o (f g : observer (V := V)) :
    agree o f g -> forwarded o (next (V := V)) -> forwarded o (next_back (V := V)) ->
    both_ends (forwarded o) g -> both_ends (forwarded o) f.
  Proof.
    intros A Hn Hb HE cs Hcs. destruct (HE cs Hcs) as (l & El). exists l. intros bs.
    destruct (El bs) as (before & Lb & Eb). exists before. split; [exact Lb|]. rewrite A; [exact Eb|].
    apply Forall_app. split; [exact Hcs|]. apply Forall_forall. intros c Hc. apply in_map_iff in Hc.
    destruct Hc as (b & <- & _). destruct b; assumption.
  Qed.

End Run.

Lemma doc_in (feat : features) name tr (P : In (Doc [name] None tr) documented) : means feat name tr.
Proof. exists (Doc [name] None tr). repeat split; auto; [left; reflexivity|discriminate]. Qed.

Lemma need_in feat name f deps dep :
  In (name, f, deps) needed -> In dep deps -> (forall x, f = Some x -> feat x = true) -> needs feat name dep.
Proof. intros H1 H2 H3. exists f, deps. auto. Qed.

Lemma iterator_implied feat ts i o ps p :
  enum_derive feat ts i = inr o -> arg_list (map Trait ps) ts -> In p ps ->
  path_text p = "Iterator" \/ path_text p = "DoubleEndedIterator" \/ path_text p = "ExactSizeIterator"
  \/ path_text p = "FusedIterator" \/ (path_text p = "TrustedLen" /\ feat "trusted_len" = true) ->
  implements o "::core::iter::Iterator".
Proof.
  intros H HA Hp HT.
  assert (M : means feat "Iterator" "::core::iter::Iterator") by (apply doc_in; cbn; tauto).
  destruct HT as [E|HT]; [eapply requested_trait; eauto; rewrite E; exact M|].
  assert (N : needs feat (path_text p) "Iterator").
  { destruct HT as [E|[E|[E|[E F]]]]; rewrite E.
    - eapply (need_in feat _ None ["Iterator"]); [cbn; tauto|left; reflexivity|discriminate].
    - eapply (need_in feat _ None ["Iterator"]); [cbn; tauto|left; reflexivity|discriminate].
    - eapply (need_in feat _ None ["Iterator"]); [cbn; tauto|left; reflexivity|discriminate].
    - eapply (need_in feat _ (Some "trusted_len") ["Iterator"]); [cbn; tauto|left; reflexivity|].
      intros x Ex. injection Ex as <-. exact F. }
  eapply supertraits; eauto.
Qed.
