(** Consequences for callers: bounds, pinned histories, error chains, transposition, generated enums. *)

Require Import Coq.Strings.String Coq.Lists.List Coq.Bool.Bool Coq.Arith.Arith Coq.micromega.Lia.
Require Import Verif.Syntax Verif.Context Verif.TypeAnalysis Verif.AutoEnum Verif.Edits Verif.Derive Verif.DeriveTable
  Verif.EnumDerive Verif.DeriveEval Verif.DeriveSpec Verif.Contracts Verif.DeriveRun Verif.ForwardRun Verif.ArgsSpec
  Verif.RequestRun Verif.OnceRun Verif.ContractRun Verif.TransposeRun Verif.RefuseRun.
Import ListNotations.
Open Scope string_scope.
Open Scope list_scope.

(** ** Bounds *)

Lemma has_variant_field i v t : has_variant i v t -> In t (all_fields i).
Proof.
  intros H. unfold all_fields. apply in_flat_map. eexists. split; [exact H|]. left. reflexivity.
Qed.

Lemma field_has_variant feat ts i o t :
  enum_derive feat ts i = inr o -> In t (all_fields i) -> exists v, has_variant i v t.
Proof.
  intros H Ht. destruct (expansion _ _ _ _ H) as (d & ps & D & _).
  assert (N : newtype_variants i) by (apply newtype_spec; eauto). destruct N as [_ N]. rewrite Forall_forall in N.
  unfold all_fields in Ht. apply in_flat_map in Ht. destruct Ht as (v & Hv & Ht).
  destruct (N v Hv) as (t' & E1 & E2). rewrite E1 in Ht. destruct Ht as [<-|[]].
  exists (vi_ident v). unfold has_variant. destruct v as [n f ds]. cbn in *. subst. exact Hv.
Qed.

Lemma bounds feat ts i o g tr v t holds :
  enum_derive feat ts i = inr o -> In (GImpl g) (do_items o) -> gi_trait g = Some tr -> has_variant i v t ->
  applies holds g -> exists b, holds (WBound t tr b).
Proof.
  intros H Hg Ht HV HA. destruct (expansion _ _ _ _ H) as (d & ps & D & _ & _ & E & F).
  rewrite E in Hg. pose proof (output_impls _ _ _ F g Hg) as K. unfold impl_ok in K. rewrite Ht in K.
  destruct K as [_ K]. destruct (K t) as (b & Hb).
  - rewrite (all_fields_types _ _ D). eapply has_variant_field; eauto.
  - exists b. unfold applies in HA. rewrite Forall_forall in HA. auto.
Qed.

Lemma pin_dec o : projects_pin o \/ ~ projects_pin o.
Proof.
  destruct (existsb (fun it => match it with
                               | GImpl g => existsb (fun m => match gm_scrut m with SPinned => true | SSelf => false end) (gi_methods g)
                               | GMustNotDrop _ _ _ => false end) (do_items o)) eqn:E.
  - left. apply existsb_exists in E. destruct E as ([g|? ? ?] & Hin & E); [|discriminate E].
    apply existsb_exists in E. destruct E as (m & Hm & E). exists g, m. destruct (gm_scrut m) eqn:S; [discriminate E|auto].
  - right. intros (g & m & Hg & Hm & S). rewrite <- not_true_iff_false in E. apply E.
    apply existsb_exists. exists (GImpl g). split; [exact Hg|]. apply existsb_exists. exists m. rewrite S. auto.
Qed.

Lemma unpin_exactly feat ts i o u holds :
  enum_derive feat ts i = inr o -> In u (unpin_impls o) ->
  (applies holds u <->
   (forall x, In x (gn_where (ei_generics i)) -> holds (WUser x))
   /\ forall v t, has_variant i v t -> holds (WBound t (TRef unpin_path []) [])).
Proof.
  intros H Hu. destruct (guards _ _ _ _ H) as [G1 G2].
  assert (W : gi_where u = map WUser (gn_where (ei_generics i))
                       ++ map (fun v => WBound v (TRef unpin_path []) []) (all_fields i)).
  { destruct (pin_dec o) as [P|P].
    - destruct (G1 P) as (u' & E & _ & _ & W & _). rewrite E in Hu. destruct Hu as [<-|[]]. exact W.
    - destruct (G2 P) as [E _]. rewrite E in Hu. destruct Hu. }
  unfold applies. rewrite W, Forall_app, !Forall_map, !Forall_forall. split.
  - intros [A B]. split; [exact A|]. intros v t HV. apply B. eapply has_variant_field; eauto.
  - intros [A B]. split; [exact A|]. intros t Ht. destruct (field_has_variant _ _ _ _ _ H Ht) as (v & HV). eauto.
Qed.

(** ** Pinned histories *)

Section Run.
  Context {V : Type}.

  Lemma pinned_history (I : inner V) feat ts i o v t a cs p w :
    enum_derive feat ts i = inr o -> distinct_variants i -> has_variant i v t ->
    w_mem w a = Some (VEnum (ei_ident i) v p) ->
    Forall (forwarded o) cs -> Forall (fun c => c_pinned c = true) cs ->
    exists r w', through_enum I o a cs w = Some (r, w')
      /\ w_log w' = w_log w ++ repeat (ByPin a) (length cs)
      /\ (exists q, w_mem w' a = Some (VEnum (ei_ident i) v q)) /\ forall b, b <> a -> w_mem w' b = w_mem w b.
  Proof.
    intros H DV HV Hw HF HP.
    destruct (history_forwards I _ _ _ _ v t a H DV HV cs p w Hw) as (w' & E & [M1 M2] & L).
    - eapply Forall_impl; [|exact HF]. intros c Hc. apply Hc.
    - eapply Forall_impl; [|exact HF]. intros c Hc. apply Hc.
    - eexists _, w'. split; [exact E|]. split; [|split; [eauto|exact M2]]. rewrite L. f_equal.
      clear - HP. induction HP as [|c l Hc _ IH]; [reflexivity|]. cbn. rewrite IH. unfold reach. rewrite Hc. reflexivity.
  Qed.

  (** ** Errors *)

  Lemma error_implied feat ts i o ps p :
    enum_derive feat ts i = inr o -> arg_list (map Trait ps) ts -> In p ps ->
    path_text p = "Error" -> feat "std" = true ->
    implements o "::std::error::Error" /\ implements o "::core::fmt::Debug" /\ implements o "::core::fmt::Display".
  Proof.
    intros H HA Hp E F.
    assert (N : forall x, Some "std" = Some x -> feat x = true) by (intros x X; injection X as <-; exact F).
    split; [|split].
    - apply (requested_trait _ _ _ _ _ _ _ H HA Hp). rewrite E.
      exists (Doc ["Error"] (Some "std") "::std::error::Error"). cbn. repeat split; auto 60.
    - apply (supertraits _ _ _ _ _ _ "Debug" _ H HA Hp).
      + rewrite E. exists (Some "std"), ["Display"; "Debug"]. cbn. repeat split; auto 60.
      + exists (Doc ["Debug"; "fmt::Debug"] None "::core::fmt::Debug"). cbn. repeat split; auto 60. discriminate.
    - apply (supertraits _ _ _ _ _ _ "Display" _ H HA Hp).
      + rewrite E. exists (Some "std"), ["Display"; "Debug"]. cbn. repeat split; auto 60.
      + exists (Doc ["Display"; "fmt::Display"] None "::core::fmt::Display"). cbn. repeat split; auto 60. discriminate.
  Qed.

  (** The call of [fmt] for a trait. *)
  Definition fmt_call (tr : string) (f : val V) : call V := Call (TRef tr []) "fmt" false [f].

  Lemma fmt_forwarded feat ts i o d name f :
    enum_derive feat ts i = inr o -> parse_data i = Some d -> (name = "Debug" \/ name = "Display") ->
    implements o (String.append "::core::fmt::" name) -> forwarded o (fmt_call (String.append "::core::fmt::" name) f).
  Proof.
    intros H D N Im.
    assert (K : exists k, (name = "Debug" /\ k = 2) \/ (name = "Display" /\ k = 3)) by (destruct N; eauto).
    destruct K as (k & K). pose proof (has_fmt _ _ _ _ _ name k H D K Im) as E. split.
    - exists (forward d (TRef (String.append "::core::fmt::" name) []) (Sig "fmt" RRef ["f"])).
      split; [exact E|]. split; [left; reflexivity|reflexivity].
    - intros [_ X]. discriminate X.
  Qed.

  Lemma source_is_held (I : inner V) feat ts i o v t x :
    enum_derive feat ts i = inr o -> has_variant i v t -> implements o "::std::error::Error" ->
    source_of I o (VEnum (ei_ident i) v x) = Some x.
  Proof.
    intros H HV Im. unfold source_of.
    destruct (source_answer I _ _ _ _ v t 0 x (World (fun _ => Some (VEnum (ei_ident i) v x)) []) H HV Im eq_refl)
      as (m & E1 & E2).
    unfold error_tr in E1. rewrite E1, E2. reflexivity.
  Qed.

  Lemma chain (I : inner V) (src : val V -> option (val V)) : forall ls x,
    Forall (fun l => forall y, src (VEnum (fst (fst l)) (snd l) y) = source_of I (snd (fst l)) (VEnum (fst (fst l)) (snd l) y)) ls ->
    Forall (fun l => exists feat ts i t, enum_derive feat ts i = inr (snd (fst l)) /\ fst (fst l) = ei_ident i
                       /\ has_variant i (snd l) t /\ implements (snd (fst l)) "::std::error::Error") ls ->
    forall n, follow src (length ls + n) (layered ls x) = follow src n x.
  Proof.
    induction ls as [|[[e o] v] ls IH]; intros x HS HO n; [reflexivity|].
    inversion HS as [|? ? S1 S2]; subst. inversion HO as [|? ? (feat & ts & i & t & O1 & O2 & O3 & O4) O5]; subst.
    cbn [length plus follow layered]. cbn [fst snd] in *. rewrite S1, O2, (source_is_held I _ _ _ _ _ _ _ O1 O3 O4).
    apply IH; assumption.
  Qed.

  (** ** Transposition *)

  Lemma both_results_eq i d : parse_data i = Some d ->
    both_results (all_fields i) = map (fun x => result_of (fst x) (snd x)) (combine (all_fields i) (err_fields d)).
  Proof.
    intros D. rewrite (err_fields_eq _ _ D). unfold both_results.
    generalize (seq 0 (length (all_fields i))) as l. generalize (all_fields i) as fs.
    induction fs as [|t fs IH]; intros [|k l]; try reflexivity. cbn [combine map fst snd]. rewrite IH. reflexivity.
  Qed.
  Lemma results_eq l : results l = map (fun t => result_of t ["__E"]) l.
  Proof. reflexivity. Qed.

  Lemma transposition (I : inner V) feat ts i o ps p :
    enum_derive feat ts i = inr o -> arg_list (map Trait ps) ts -> In p ps -> is_transpose feat (path_text p) ->
    exists m1 m2 m3 m4,
      find_inherent o (options (all_fields i)) "transpose" = Some m1
      /\ find_inherent o (both_results (all_fields i)) "transpose" = Some m2
      /\ find_inherent o (results (all_fields i)) "transpose_ok" = Some m3
      /\ find_inherent o (failures (all_fields i)) "transpose_err" = Some m4
      /\ forall v t x w, has_variant i v t ->
           let call m y := call_method I m (VEnum (ei_ident i) v y) [] w in
           let held := VEnum (ei_ident i) v x in
           call m1 (VSome x) = Some (VSome held, w) /\ call m1 VNone = Some (VNone, w)
           /\ call m2 (VOk x) = Some (VOk held, w) /\ call m2 (VErr x) = Some (VErr held, w)
           /\ call m3 (VOk x) = Some (VOk held, w) /\ call m3 (VErr x) = Some (VErr x, w)
           /\ call m4 (VErr x) = Some (VErr held, w) /\ call m4 (VOk x) = Some (VOk x, w).
  Proof.
    intros H HA Hp M. destruct (expansion _ _ _ _ H) as (d & ps' & D & _).
    destruct (four feat ts i o ps p H HA Hp M d D) as (F1 & F2 & F3 & F4).
    rewrite <- (both_results_eq _ _ D) in F2.
    eexists _, _, _, _. split; [exact F1|]. split; [exact F2|]. split; [exact F3|]. split; [exact F4|].
    assert (Ei : d_ident d = ei_ident i) by (destruct (parse_data_spec _ _ D) as (E & _); unfold d_ident; rewrite E; reflexivity).
    intros v t x w HV. cbv zeta.
    repeat split; (eapply (own_call I i d); [exact D|exact HV|cbn; rewrite ?Ei; reflexivity]).
  Qed.
End Run.

(** ** Generated enums *)

(** The shape of the enums that [#[auto_enum]] writes. *)
Definition auto_shape (g : genum) : Prop :=
  exists k, 2 <= k /\ g_params g = map variant_name (seq 0 k) /\ g_variants g = map (fun p => (p, p)) (g_params g).

Lemma auto_fields g : auto_shape g -> all_fields (item_of g) = map (fun p => [p]) (g_params g).
Proof.
  intros (k & _ & _ & E). unfold all_fields, item_of. cbn. rewrite E. generalize (g_params g). intros l.
  induction l as [|x l IH]; [reflexivity|]. cbn. f_equal. exact IH.
Qed.

Lemma auto_newtype g : auto_shape g -> newtype_variants (item_of g).
Proof.
  intros (k & K & E1 & E2). split.
  - cbn. rewrite E2, E1. destruct k as [|k]; [lia|]. discriminate.
  - cbn. apply Forall_forall. intros x Hx. apply in_map_iff in Hx. destruct Hx as (y & <- & _). cbn. eauto.
Qed.

Lemma auto_sensible g : auto_shape g -> sensible_tokens (item_of g).
Proof.
  intros S. pose proof (auto_fields g S) as F. destruct S as (k & K & E1 & E2).
  assert (M : Forall one_member (map (fun p => [p]) (g_params g))).
  { rewrite E1, map_map. apply Forall_map, Forall_forall. intros x _. apply variant_member. }
  split; [|split].
  - cbn. rewrite map_map. exact M.
  - rewrite F. exact M.
  - intros l Hl. cbn in Hl. apply in_map_iff in Hl. destruct Hl as (x & X & _). discriminate X.
Qed.

Lemma auto_params g : auto_shape g -> map snd (gn_params (ei_generics (item_of g))) = all_fields (item_of g).
Proof. intros S. rewrite (auto_fields g S). cbn. rewrite map_map. reflexivity. Qed.

Lemma auto_accepted feat ts g ps :
  auto_shape g -> arg_list (map Trait ps) ts -> exists o, enum_derive feat ts (item_of g) = inr o.
Proof.
  intros S HA. apply succeeds_exactly. destruct (proj1 (newtype_spec _) (auto_newtype g S)) as (d & D).
  exists d, ps. split; [exact D|]. split; [exact HA|]. intros _.
  apply (check_fields_spec _ _ D (auto_sensible g S)). apply auto_params, S.
Qed.

Lemma auto_distinct g : auto_shape g -> NoDup (g_params g) -> distinct_variants (item_of g).
Proof.
  intros (k & _ & _ & E) N. unfold distinct_variants. cbn. rewrite map_map. cbn. rewrite E, map_map. cbn.
  rewrite map_id. exact N.
Qed.

(** ** Errors, classified *)

Theorem outcomes feat ts i :
  match enum_derive feat ts i with
  | inl ErrEnum => ~ newtype_variants i
  | inl ErrTraits => newtype_variants i /\ ~ exists ps, arg_list (map Trait ps) ts
  | inl (ErrDerive s msg) =>
      newtype_variants i /\ s = "Transpose" /\ msg = "all fields need to be generics"
      /\ (exists ps p, arg_list (map Trait ps) ts /\ In p ps /\ is_transpose feat (path_text p))
      /\ (sensible_tokens i -> map snd (gn_params (ei_generics i)) <> all_fields i)
  | inr _ => newtype_variants i /\ exists ps, arg_list (map Trait ps) ts
  end.
Proof.
  destruct (parse_data i) as [d|] eqn:D.
  - assert (N : newtype_variants i) by (apply newtype_spec; eauto).
    destruct (parse_traits ts) as [args|] eqn:P.
    + apply parse_traits_grammar in P as (ps & HA & ->).
      destruct (enum_derive feat ts i) as [e|o] eqn:H; [|eauto].
      assert (HT : (exists p, In p ps /\ is_transpose feat (path_text p)) /\ check_fields d = false).
      { assert (Q : ~ exists o, enum_derive feat ts i = inr o) by (intros (o & X); congruence).
        assert (TD : (exists p, In p ps /\ is_transpose feat (path_text p)) \/ ~ exists p, In p ps /\ is_transpose feat (path_text p)).
        { unfold is_transpose. destruct (feat "transpose_methods") eqn:Ft.
          - destruct (in_dec string_dec "Transpose" (map path_text ps)) as [K|K].
            + left. apply in_map_iff in K. destruct K as (p & E & Hp). exists p. auto.
            + right. intros (p & Hp & E & _). apply K. apply in_map_iff. exists p. auto.
          - right. intros (p & _ & _ & E). discriminate E. }
        destruct TD as [T|T].
        - split; [exact T|]. destruct (check_fields d) eqn:C; [|reflexivity]. exfalso. apply Q.
          apply succeeds_exactly. exists d, ps. auto.
        - exfalso. apply Q. apply succeeds_exactly. exists d, ps. split; [exact D|]. split; [exact HA|]. intros X. contradiction. }
      destruct HT as [T C]. rewrite (refused_error _ _ _ _ _ D HA T C) in H. injection H as <-.
      split; [exact N|]. split; [reflexivity|]. split; [reflexivity|].
      destruct T as (p & Hp & T). split; [exists ps, p; auto|].
      intros S E. apply (check_fields_spec _ _ D S) in E. congruence.
    + assert (H : enum_derive feat ts i = inl ErrTraits) by (unfold enum_derive; rewrite D, P; reflexivity).
      rewrite H. split; [exact N|]. intros (ps & HA).
      assert (X : parse_traits ts = Some (map named ps)) by (apply parse_traits_grammar; eauto). congruence.
  - assert (H : enum_derive feat ts i = inl ErrEnum) by (unfold enum_derive; rewrite D; reflexivity).
    rewrite H. intros N. apply newtype_spec in N. destruct N as (d & X). congruence.
Qed.

(** ** Nothing else *)

Lemma implemented_origin feat ts i o ps tr :
  enum_derive feat ts i = inr o -> arg_list (map Trait ps) ts -> implements o tr -> tr <> unpin_path ->
  exists p name, In p ps /\ (name = path_text p \/ needs feat (path_text p) name) /\ means feat name tr.
Proof.
  intros H HA (g & t & Hg & Ht & Hp) NU. destruct (expansion _ _ _ _ H) as (d & ps' & D & HA' & E1 & E2 & F).
  rewrite (arg_list_unique _ _ _ HA' HA) in *. clear ps' HA'. rewrite E2 in Hg. unfold all_items in Hg.
  apply in_app_or in Hg. destruct Hg as [Hg|Hg].
  - apply in_flat_map in Hg. destruct Hg as (r & Hr & Hg). rewrite Forall_forall in F.
    destruct (contrib_paths feat d r (F r Hr) tr) as (_ & k & e & L & Hs & He).
    { apply in_flat_map. exists (GImpl g). split; [exact Hg|]. cbn. rewrite Ht. left. exact Hp. }
    assert (M : means feat (fst r) tr) by (apply means_line; eauto).
    destruct (requests_origin feat ps (fst r) (in_map fst _ _ Hr)) as [K|(p & Hp' & K)].
    + apply in_map_iff in K. destruct K as (p & E & Hp'). exists p, (fst r). auto.
    + exists p, (fst r). split; [exact Hp'|]. split; [right; apply deps_needs, K|exact M].
  - exfalso. destruct (existsb (fun r => fst (contrib feat d r)) (requests feat (map named ps))); [|destruct Hg].
    destruct Hg as [E|[E|[]]]; [|discriminate E]. injection E as <-. destruct (unpin_shape d) as (U & _).
    rewrite U in Ht. injection Ht as <-. apply NU. symmetry. exact Hp.
Qed.
