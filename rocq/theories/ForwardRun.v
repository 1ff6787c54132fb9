(** Expansions of [#[enum_derive]] and calls of the generated methods. *)

Require Import Coq.Strings.String Coq.Lists.List Coq.Bool.Bool Coq.Arith.Arith Coq.micromega.Lia.
Require Import Verif.Syntax Verif.Context Verif.Derive Verif.DeriveTable Verif.EnumDerive
  Verif.DeriveEval Verif.DeriveSpec Verif.DeriveRun.
Import ListNotations.
Open Scope string_scope.
Open Scope list_scope.

(** ** The loop *)

(** What one request contributes. *)
Definition contrib (feat : features) (d : enum_data) (r : request) : bool * list gitem :=
  match get_derive feat (fst r) with
  | Some f => match f d with inr x => x | inl _ => (false, []) end
  | None => (false, [])
  end.

(** The paths one request passes on to [#[derive]]. *)
Definition passed (feat : features) (r : request) : list path :=
  match get_derive feat (fst r), snd r with None, Some p => [p] | _, _ => [] end.

Lemma process_ok feat d : forall rs st st',
  process feat d rs st = inr st' ->
  ds_derive st' = ds_derive st ++ flat_map (passed feat) rs
  /\ ds_items st' = ds_items st ++ flat_map (fun r => snd (contrib feat d r)) rs
  /\ ds_pin st' = ds_pin st || existsb (fun r => fst (contrib feat d r)) rs
  /\ Forall (fun r => forall f, get_derive feat (fst r) = Some f -> f d = inr (contrib feat d r)) rs.
Proof.
  induction rs as [|[s arg] rs IH]; intros st st' H.
  - cbn in H. injection H as <-. cbn. rewrite !app_nil_r, orb_false_r. repeat split; constructor.
  - cbn [process] in H. destruct (get_derive feat s) as [f|] eqn:G.
    + destruct (f d) as [msg|[pin its]] eqn:F; [discriminate H|].
      apply IH in H. cbn [ds_derive ds_items ds_pin] in H. destruct H as (H1 & H2 & H3 & H4).
      assert (C : contrib feat d (s, arg) = (pin, its)) by (unfold contrib; cbn [fst]; rewrite G, F; reflexivity).
      cbn [flat_map existsb]. rewrite C. cbn [fst snd].
      assert (P : passed feat (s, arg) = []) by (unfold passed; cbn [fst]; rewrite G; reflexivity).
      rewrite P. cbn [app]. split; [exact H1|]. split; [rewrite H2, <- app_assoc; reflexivity|].
      split; [rewrite H3, orb_assoc; reflexivity|].
      constructor; [|exact H4]. intros f' E. cbn [fst] in E. rewrite C. congruence.
    + assert (C : contrib feat d (s, arg) = (false, [])) by (unfold contrib; cbn [fst]; rewrite G; reflexivity).
      cbn [flat_map existsb]. rewrite C. cbn [fst snd app].
      destruct arg as [p|].
      * apply IH in H. cbn [ds_derive ds_items ds_pin] in H. destruct H as (H1 & H2 & H3 & H4).
        assert (P : passed feat (s, Some p) = [p]) by (unfold passed; cbn [fst snd]; rewrite G; reflexivity).
        rewrite P. split; [rewrite H1, <- app_assoc; reflexivity|]. split; [exact H2|].
        split; [exact H3|]. constructor; [|exact H4]. intros f' E. cbn [fst] in E. congruence.
      * apply IH in H. destruct H as (H1 & H2 & H3 & H4).
        assert (P : passed feat (s, None) = []) by (unfold passed; cbn [fst snd]; rewrite G; reflexivity).
        rewrite P. split; [exact H1|]. split; [exact H2|].
        split; [exact H3|]. constructor; [|exact H4]. intros f' E. cbn [fst] in E. congruence.
Qed.

(** A derive function that is found comes from an enabled line of the table. *)
Lemma get_derive_ok feat s f :
  get_derive feat s = Some f ->
  exists k e n, nth_error derives k = Some e /\ nth_error entry_traits k = Some n
    /\ enabled feat (en_feature e) = true /\ In s (en_names e) /\ f = en_derive e /\ derive_ok n f.
Proof.
  unfold get_derive. destruct (find _ derives) as [e|] eqn:F; [|discriminate].
  intros E. injection E as <-. apply find_some in F. destruct F as [Hin Hb].
  apply andb_true_iff in Hb. destruct Hb as [H1 H2]. unfold names_it in H2.
  apply existsb_exists in H2. destruct H2 as (x & Hx & Ex). apply String.eqb_eq in Ex. subst x.
  apply In_nth_error in Hin. destruct Hin as [k Hk].
  pose proof derives_ok as HF.
  assert (G : forall (l : list entry) ns, Forall2 (fun e n => derive_ok n (en_derive e)) l ns ->
    forall k e, nth_error l k = Some e -> exists n, nth_error ns k = Some n /\ derive_ok n (en_derive e)).
  { clear. induction 1 as [|e n l ns H _ IH]; intros [|k] e' E; try discriminate E.
    - injection E as <-. exists n. split; [reflexivity|exact H].
    - apply IH, E. }
  destruct (G _ _ HF _ _ Hk) as (n & Hn & Hok).
  exists k, e, n. split; [exact Hk|]. split; [exact Hn|]. split; [exact H1|]. split; [exact Hx|].
  split; [reflexivity|exact Hok].
Qed.

(** ** Expansions *)

(** The items of an expansion. *)
Definition all_items (feat : features) (d : enum_data) (rs : list request) : list gitem :=
  flat_map (fun r => snd (contrib feat d r)) rs
  ++ (if existsb (fun r => fst (contrib feat d r)) rs then [GImpl (unpin_impl d); must_not_drop d] else []).

Lemma enum_derive_inv feat ts i o :
  enum_derive feat ts i = inr o ->
  exists d args, parse_data i = Some d /\ parse_traits ts = Some args
    /\ do_enum o = add_derive (flat_map (passed feat) (requests feat args)) (d_item d)
    /\ do_items o = all_items feat d (requests feat args)
    /\ Forall (fun r => forall f, get_derive feat (fst r) = Some f -> f d = inr (contrib feat d r))
         (requests feat args).
Proof.
  unfold enum_derive. destruct (parse_data i) as [d|]; [|discriminate].
  destruct (parse_traits ts) as [args|]; [|discriminate].
  destruct (process feat d (requests feat args) (DState [] [] false)) as [e|st] eqn:P; [discriminate|].
  intros E. injection E as <-. apply process_ok in P. cbn [ds_derive ds_items ds_pin app orb] in P.
  destruct P as (P1 & P2 & P3 & P4). exists d, args. repeat split; auto.
  - cbn. rewrite P1. reflexivity.
  - cbn. unfold all_items. rewrite <- P3, <- P2. destruct (ds_pin st); [reflexivity|].
    rewrite app_nil_r. reflexivity.
Qed.

Lemma variant_types_spec : forall l ts,
  variant_types l = Some ts ->
  length ts = length l
  /\ forall v t, In (v, t) (combine (map vi_ident l) ts) <-> In (VariantItem v (FTuple [t]) None) l.
Proof.
  induction l as [|x l IH]; intros ts H; cbn in H.
  - injection H as <-. split; [reflexivity|]. intros v t. split; intros [].
  - destruct (variant_type x) as [t0|] eqn:X; [|discriminate H].
    destruct (variant_types l) as [ts0|] eqn:L; [|discriminate H]. injection H as <-.
    destruct (IH ts0 eq_refl) as [I1 I2]. split; [cbn; rewrite I1; reflexivity|].
    assert (Ex : x = VariantItem (vi_ident x) (FTuple [t0]) None).
    { destruct x as [vi vf vd]. unfold variant_type in X. cbn in X |- *.
      destruct vd; [discriminate X|]. destruct vf as [|[|y [|? ?]]|]; try discriminate X.
      injection X as ->. reflexivity. }
    intros v t. cbn [map combine In]. rewrite I2. split; (intros [E|E]; [left|right; exact E]).
    + injection E as <- <-. exact Ex.
    + rewrite E in Ex. cbn in Ex. injection Ex as <-. rewrite E. reflexivity.
Qed.

Lemma parse_data_spec i d :
  parse_data i = Some d ->
  d_item d = i /\ length (d_types d) = length (ei_variants i) /\ ei_variants i <> []
  /\ (forall v t, In (v, t) (arms_of d) <-> has_variant i v t).
Proof.
  unfold parse_data. destruct (ei_variants i) as [|v l] eqn:E; [discriminate|]. rewrite <- E.
  destruct (variant_types (ei_variants i)) as [ts|] eqn:T; [|discriminate].
  intros H. injection H as <-. cbn. destruct (variant_types_spec _ _ T) as [T1 T2].
  repeat split; auto; try congruence; unfold arms_of, has_variant, variant_idents; cbn; apply T2.
Qed.

Lemma arms_fst d i : parse_data i = Some d -> map fst (arms_of d) = map vi_ident (ei_variants i).
Proof.
  intros H. destruct (parse_data_spec _ _ H) as (E & L & _). subst i.
  unfold arms_of, variant_idents, field_types.
  assert (L' : length (map vi_ident (ei_variants (d_item d))) = length (d_types d)) by (rewrite map_length; auto).
  revert L'. generalize (map vi_ident (ei_variants (d_item d))) (d_types d). clear.
  induction l as [|x l IH]; intros [|y m] L; cbn in *; try discriminate; auto. f_equal. apply IH. lia.
Qed.

Lemma unpin_shape d :
  gi_trait (unpin_impl d) = Some (TRef "::core::marker::Unpin" []) /\ gi_methods (unpin_impl d) = []
  /\ gi_where (unpin_impl d)
     = map WUser (gn_where (d_generics d))
       ++ map (fun t => WBound t (TRef "::core::marker::Unpin" []) []) (field_types d).
Proof.
  destruct (from_trait_shape d "::core::marker::Unpin" None (TraitDef false [] None [] [])) as (H1 & H2 & H3 & _).
  unfold unpin_impl. rewrite H1, H2, H3. repeat split. unfold field_bounds, tref_of, binds_of. cbn.
  destruct (field_types d) as [|t ts]; reflexivity.
Qed.

(** Every implementation in the output is of a known shape. *)
Lemma output_impls feat d rs :
  Forall (fun r => forall f, get_derive feat (fst r) = Some f -> f d = inr (contrib feat d r)) rs ->
  forall g, In (GImpl g) (all_items feat d rs) ->
  impl_ok d g.
Proof.
  intros HF g Hg. unfold all_items in Hg. apply in_app_or in Hg. destruct Hg as [Hg|Hg].
  - apply in_flat_map in Hg. destruct Hg as (r & Hr & Hg).
    rewrite Forall_forall in HF. specialize (HF r Hr).
    unfold contrib in Hg. destruct (get_derive feat (fst r)) as [f|] eqn:G; [|destruct Hg].
    specialize (HF f eq_refl). destruct (get_derive_ok _ _ _ G) as (k & e & n & _ & _ & _ & _ & _ & Hok).
    destruct (f d) as [?|[pin its]] eqn:F; [destruct Hg|].
    destruct (Hok d pin its F) as (_ & _ & H). rewrite Forall_forall in H.
    destruct (H _ Hg) as (g' & E & Hg'). injection E as <-. exact Hg'.
  - destruct (existsb (fun r => fst (contrib feat d r)) rs); [|destruct Hg]. destruct Hg as [E|[E|[]]]; [|discriminate E].
    injection E as <-. unfold impl_ok. destruct (unpin_shape d) as (H1 & H2 & H3).
    rewrite H1, H2, H3. split; [constructor|]. intros t Ht. exists [].
    apply in_or_app. right. apply in_map_iff. exists t. auto.
Qed.

Lemma toks_eqb_eq : forall a b, toks_eqb a b = true <-> a = b.
Proof.
  induction a as [|x a IH]; intros [|y b]; cbn; try (split; congruence).
  rewrite andb_true_iff, IH, String.eqb_eq. split; [intros [-> ->]; reflexivity|].
  intros E. injection E as -> ->. auto.
Qed.

Lemma tref_eqb_eq a b : tref_eqb a b = true <-> a = b.
Proof.
  destruct a as [p l], b as [q m]. unfold tref_eqb. cbn. rewrite andb_true_iff, toks_eqb_eq, String.eqb_eq.
  split; [intros [-> ->]; reflexivity|]. intros E. injection E as -> ->. auto.
Qed.

Lemma find_method_in o tr m gm :
  find_method o tr m = Some gm ->
  gm_name gm = m /\ exists g, In (GImpl g) (do_items o) /\ gi_trait g = Some tr /\ In gm (gi_methods g).
Proof.
  unfold find_method. intros H. apply find_some in H. destruct H as [Hin Hn].
  apply String.eqb_eq in Hn. split; [exact Hn|].
  unfold trait_methods in Hin. apply in_flat_map in Hin. destruct Hin as (g & Hg & Hm).
  unfold impls_of in Hg. apply in_flat_map in Hg. destruct Hg as (it & Hit & Hg).
  destruct it as [g'|]; [|destruct Hg]. destruct Hg as [->|[]].
  destruct (gi_trait g) as [t|] eqn:T; [|destruct Hm].
  destruct (tref_eqb t tr) eqn:E; [|destruct Hm]. apply tref_eqb_eq in E. subst t.
  exists g. repeat split; auto.
Qed.

(** The methods found in an output forward, except [Error::source]. *)
Lemma found_ok feat ts i o d tr m gm :
  enum_derive feat ts i = inr o -> parse_data i = Some d -> find_method o tr m = Some gm ->
  gm_name gm = m /\ method_ok d tr gm.
Proof.
  intros H D F. destruct (enum_derive_inv _ _ _ _ H) as (d' & args & D' & _ & _ & Hi & HF).
  assert (d' = d) by congruence. subst d'.
  apply find_method_in in F. destruct F as (En & g & Hg & Hg' & Hm). split; [exact En|].
  rewrite Hi in Hg. pose proof (output_impls _ _ _ HF g Hg) as Hok.
  unfold impl_ok in Hok. rewrite Hg' in Hok. destruct Hok as [Hok _].
  rewrite Forall_forall in Hok. apply Hok, Hm.
Qed.

(** ** Calls *)

Section Run.
  Context {V : Type}.

  Lemma lookups_cons (x : string) (y : val V) env l :
    ~ In x l -> lookups ((x, y) :: env) l = lookups env l.
  Proof.
    induction l as [|s l IH]; intros H; [reflexivity|]. cbn [lookups find fst].
    destruct (x =? s) eqn:E; [apply String.eqb_eq in E; subst s; exfalso; apply H; left; reflexivity|].
    rewrite IH; [reflexivity|]. intros K. apply H. right. exact K.
  Qed.

  Lemma lookups_all : forall (ps : list string) (args : list (val V)),
    NoDup ps -> length args = length ps -> lookups (combine ps args) ps = Some args.
  Proof.
    induction ps as [|p ps IH]; intros [|a args] ND L; try discriminate L; [reflexivity|].
    inversion ND as [|? ? Hn ND']; subst. cbn [combine lookups find fst].
    rewrite String.eqb_refl, (lookups_cons p a _ _ Hn), IH; auto.
  Qed.

  Lemma find_arm (e v : string) (t : toks) (b : toks -> body) : forall l,
    NoDup (map fst l) -> In (v, t) l ->
    find (fun a => (ma_enum a =? e) && (ma_variant a =? v)) (map (fun a => MArm e (fst a) (b (snd a))) l)
    = Some (MArm e v (b t)).
  Proof.
    induction l as [|[v0 t0] l IH]; intros ND Hin; [destruct Hin|].
    inversion ND as [|? ? Hn ND']; subst. cbn [map find ma_enum ma_variant fst snd].
    rewrite String.eqb_refl. cbn [andb].
    destruct (v0 =? v) eqn:E.
    - apply String.eqb_eq in E. subst v0. destruct Hin as [E|Hin]; [injection E as <-; reflexivity|].
      exfalso. apply Hn. apply in_map_iff. exists (v, t). split; [reflexivity|exact Hin].
    - destruct Hin as [E'|Hin]; [injection E' as -> ->; rewrite String.eqb_refl in E; discriminate E|].
      apply IH; assumption.
  Qed.

  (** A forwarding method called on the enum at an address. *)
  Lemma forward_call (I : inner V) d tr gm v t a p (pinned : bool) args w :
    forwards d tr gm -> NoDup (map fst (arms_of d)) -> In (v, t) (arms_of d) ->
    (if pinned then gm_recv gm = RPin else gm_recv gm = RRef \/ gm_recv gm = RMut) ->
    length args = length (gm_params gm) ->
    w_mem w a = Some (VEnum (d_ident d) v p) ->
    let acc := if pinned then ByPin a else ByRef a in
    let r := I t tr (gm_name gm) acc p args in
    call_method I gm (if pinned then VPin (VRef a) else VRef a) args w
    = Some (fst r, World (write (w_mem w) a (VEnum (d_ident d) v (snd r))) (w_log w ++ [acc])).
  Proof.
    intros [ND Hf] NV Hin Hr HL Hw. cbv zeta. unfold call_method. rewrite HL, Nat.eqb_refl, andb_true_r.
    destruct Hf as [(Er & Es & Ea)|(Er & Es & Ea)]; destruct pinned;
      try (destruct Hr; congruence); try congruence.
    - rewrite Hr, Es. cbn [receives scrutinee]. rewrite Hw, Ea.
      rewrite (find_arm (d_ident d) v t (fun t => BCall t tr (gm_name gm) (BPin BX) (gm_params gm)) _ NV Hin).
      cbn [ma_body eval_body]. rewrite (lookups_all _ _ ND HL). cbn [call_inner]. rewrite Hw. reflexivity.
    - rewrite Es. assert (R : receives (gm_recv gm) (VRef a : val V) = true) by (destruct Hr as [->| ->]; reflexivity).
      rewrite R. cbn [scrutinee]. rewrite Hw, Ea.
      rewrite (find_arm (d_ident d) v t (fun t => BCall t tr (gm_name gm) BX (gm_params gm)) _ NV Hin).
      cbn [ma_body eval_body]. rewrite (lookups_all _ _ ND HL). cbn [call_inner]. rewrite Hw. reflexivity.
  Qed.

  (** A payload that is an owned value, not a reference into the memory of the model. *)
  Definition owned (p : val V) : Prop :=
    match p with VRef _ | VField _ | VPin _ => False | _ => True end.

  (** A forwarding method that consumes the enum. *)
  Lemma forward_own (I : inner V) d tr gm v t p args w :
    forwards d tr gm -> NoDup (map fst (arms_of d)) -> In (v, t) (arms_of d) ->
    gm_recv gm = ROwn -> owned p ->
    length args = length (gm_params gm) ->
    call_method I gm (VEnum (d_ident d) v p) args w
    = Some (fst (I t tr (gm_name gm) ByMove p args), World (w_mem w) (w_log w ++ [ByMove])).
  Proof.
    intros [ND Hf] NV Hin Hr Ho HL. unfold call_method. rewrite HL, Nat.eqb_refl, andb_true_r, Hr.
    destruct Hf as [(Er & _)|(Er & Es & Ea)]; [congruence|].
    rewrite Es. cbn [receives scrutinee]. rewrite Ea.
    rewrite (find_arm (d_ident d) v t (fun t => BCall t tr (gm_name gm) BX (gm_params gm)) _ NV Hin).
    cbn [ma_body eval_body]. rewrite (lookups_all _ _ ND HL).
    destruct p; try (destruct Ho); reflexivity.
  Qed.

  (** Writing. *)
  Lemma write_same (h : memory V) a x : write h a x a = Some x.
  Proof. unfold write. rewrite Nat.eqb_refl. reflexivity. Qed.
  Lemma write_other (h : memory V) a b x : b <> a -> write h a x b = h b.
  Proof. unfold write. intros H. destruct (b =? a)%nat eqn:E; [apply Nat.eqb_eq in E; contradiction|reflexivity]. Qed.

  (** The memory differs only in the value held by the enum. *)
  Definition holds_after (w w' : world V) (a : nat) (x : val V) : Prop :=
    w_mem w' a = Some x /\ forall b, b <> a -> w_mem w' b = w_mem w b.

  Theorem history_forwards (I : inner V) feat ts i o v t a :
    enum_derive feat ts i = inr o -> distinct_variants i -> has_variant i v t ->
    forall cs p w,
    w_mem w a = Some (VEnum (ei_ident i) v p) ->
    Forall (implemented o) cs -> Forall (fun c => ~ is_source (c_trait c) (c_method c)) cs ->
    exists w', through_enum I o a cs w = Some (fst (direct I t a p cs), w')
      /\ holds_after w w' a (VEnum (ei_ident i) v (snd (direct I t a p cs)))
      /\ w_log w' = w_log w ++ map (fun c => reach c a) cs.
  Proof.
    intros H DV HV. destruct (enum_derive_inv _ _ _ _ H) as (d & args & D & _).
    destruct (parse_data_spec _ _ D) as (Ei & _ & _ & Harm).
    assert (NV : NoDup (map fst (arms_of d))) by (rewrite (arms_fst _ _ D); exact DV).
    apply Harm in HV. assert (Eid : d_ident d = ei_ident i) by (unfold d_ident; rewrite Ei; reflexivity).
    induction cs as [|c cs IH]; intros p w Hw HI HS.
    - exists w. cbn. rewrite app_nil_r. repeat split; auto.
    - inversion HI as [|? ? (gm & Hf & Hr & HL) HI']; subst.
      inversion HS as [|? ? Hns HS']; subst.
      destruct (found_ok _ _ _ _ _ _ _ _ H D Hf) as [En [Hok|[Hsrc _]]].
      2:{ exfalso. apply Hns. rewrite <- En. exact Hsrc. }
      rewrite <- Eid in Hw.
      pose proof (forward_call I d (c_trait c) gm v t a p (c_pinned c) (c_args c) w Hok NV HV Hr HL Hw) as HC.
      cbv zeta in HC. cbn [through_enum]. rewrite Hf.
      rewrite HC. clear HC. rewrite En. fold (reach c a).
      set (x := I t (c_trait c) (c_method c) (reach c a) p (c_args c)).
      set (w1 := World _ _).
      destruct (IH (snd x) w1) as (w' & E' & (M1 & M2) & L'); auto.
      { unfold w1. cbn [w_mem]. rewrite write_same, Eid. reflexivity. }
      rewrite E'. exists w'. cbn [direct]. fold x. cbn [fst snd]. split; [reflexivity|]. split.
      + split; [exact M1|]. intros b Hb. rewrite (M2 b Hb). unfold w1. cbn [w_mem].
        apply write_other, Hb.
      + rewrite L'. unfold w1. cbn [w_log map]. rewrite <- app_assoc. reflexivity.
  Qed.

  Theorem consuming_forwards (I : inner V) feat ts i o v t tr m gm p args w :
    enum_derive feat ts i = inr o -> distinct_variants i -> has_variant i v t ->
    find_method o tr m = Some gm -> gm_recv gm = ROwn -> length args = length (gm_params gm) -> owned p ->
    call_method I gm (VEnum (ei_ident i) v p) args w
    = Some (fst (I t tr m ByMove p args), World (w_mem w) (w_log w ++ [ByMove])).
  Proof.
    intros H DV HV Hf Hr HL Ho. destruct (enum_derive_inv _ _ _ _ H) as (d & args' & D & _).
    destruct (parse_data_spec _ _ D) as (Ei & _ & _ & Harm).
    assert (NV : NoDup (map fst (arms_of d))) by (rewrite (arms_fst _ _ D); exact DV).
    apply Harm in HV. destruct (found_ok _ _ _ _ _ _ _ _ H D Hf) as [En [Hok|[_ ->]]].
    - rewrite <- En, <- Ei. apply (forward_own I d tr gm v t p args w); auto.
    - discriminate Hr.
  Qed.

End Run.
