(** [Error::source], transposition, and when an expansion is refused. *)

Require Import Coq.Strings.String Coq.Lists.List Coq.Bool.Bool Coq.Arith.Arith Coq.micromega.Lia.
Require Import Verif.Syntax Verif.Context Verif.TypeAnalysis Verif.Derive Verif.DeriveTable Verif.EnumDerive
  Verif.DeriveEval Verif.DeriveSpec Verif.Contracts Verif.DeriveRun Verif.ForwardRun Verif.ArgsSpec
  Verif.RequestRun Verif.OnceRun Verif.ContractRun.
Import ListNotations.
Open Scope string_scope.
Open Scope list_scope.

(** ** [Error::source] *)

Definition error_tr : trait_ref := TRef "::std::error::Error" [].

Lemma in_impls o g : In g (impls_of o) <-> In (GImpl g) (do_items o).
Proof.
  unfold impls_of. rewrite in_flat_map. split.
  - intros ([g'|] & Hi & Hg); [destruct Hg as [->|[]]; exact Hi|destruct Hg].
  - intros Hi. exists (GImpl g). split; [exact Hi|left; reflexivity].
Qed.

Lemma has_source feat ts i o d :
  enum_derive feat ts i = inr o -> parse_data i = Some d -> implements o "::std::error::Error" ->
  find_method o error_tr "source" = Some (source_method d).
Proof.
  intros H D (g0 & t0 & Hg0 & Eg0 & Et0).
  set (ms := [forward d error_tr (Sig "description" RRef []); source_method d]).
  assert (U : forall g t, In (GImpl g) (do_items o) -> gi_trait g = Some t -> tr_path t = "::std::error::Error" ->
              gi_trait g = Some error_tr /\ gi_methods g = ms).
  { intros g t Hg Eg Et.
    assert (L : line 32 (Entry (Some "std") std_error_NAME std_error_derive) (Some "::std::error::Error"))
      by (split; reflexivity).
    destruct (impl_from_line _ _ _ _ _ _ _ _ _ _ H D Hg Eg Et L eq_refl) as (pin & its & E & Hi).
    cbn [en_derive] in E. unfold std_error_derive in E. cbv zeta in E. fold error_td in E. injection E as <- <-.
    destruct (from_trait_shape d "::std::error::Error" None error_td) as (H1 & H2 & H3 & _).
    destruct (fold_where_trait (fun f => WStatic f) (field_types d)
      (from_trait d "::std::error::Error" None error_td)) as (K1 & K2 & K3 & _).
    destruct Hi as [Hi|[]]. injection Hi as <-. cbn [gi_trait gi_methods push_item].
    rewrite K1, K2, H1, H2. split; reflexivity. }
  unfold find_method, trait_methods. rewrite (find_flat _ _ ms).
  - reflexivity.
  - intros g Hg. apply in_impls in Hg. destruct (gi_trait g) as [t|] eqn:Eg; [|left; reflexivity].
    destruct (tref_eqb t error_tr) eqn:Et; [|left; reflexivity]. right.
    apply tref_eqb_eq in Et. subst t. apply (U g _ Hg Eg eq_refl).
  - exists g0. split; [apply in_impls, Hg0|]. destruct (U g0 t0 Hg0 Eg0 Et0) as [-> ->]. reflexivity.
Qed.

Lemma find_own_arm d v (b : string -> body) : forall l,
  In v l ->
  find (fun a => (ma_enum a =? d_ident d) && (ma_variant a =? v)) (map (fun v => MArm (d_ident d) v (b v)) l)
  = Some (MArm (d_ident d) v (b v)).
Proof.
  induction l as [|x l IH]; intros Hin; [destruct Hin|]. cbn [map find ma_enum ma_variant].
  rewrite String.eqb_refl. cbn [andb]. destruct (x =? v) eqn:E.
  - apply String.eqb_eq in E. subst x. reflexivity.
  - destruct Hin as [->|Hin]; [rewrite String.eqb_refl in E; discriminate E|]. apply IH, Hin.
Qed.

Lemma variant_ident i d v t : parse_data i = Some d -> has_variant i v t -> In v (variant_idents d).
Proof.
  intros D HV. destruct (parse_data_spec _ _ D) as (E & _). unfold variant_idents. rewrite E.
  apply in_map_iff. exists (VariantItem v (FTuple [t]) None). auto.
Qed.

Theorem source_answer {V} (I : inner V) feat ts i o v t a x w :
  enum_derive feat ts i = inr o -> has_variant i v t -> implements o "::std::error::Error" ->
  w_mem w a = Some (VEnum (ei_ident i) v x) ->
  exists m, find_method o error_tr "source" = Some m
    /\ call_method I m (VRef a) [] w = Some (VSome (VField a), w).
Proof.
  intros H HV Hi Hw. destruct (expansion _ _ _ _ H) as (d & ps & D & _).
  exists (source_method d). split; [eapply has_source; eauto|].
  unfold call_method, source_method. cbn [gm_recv gm_params gm_scrut gm_arms receives length Nat.eqb andb].
  cbn [scrutinee]. rewrite Hw. destruct (parse_data_spec _ _ D) as (Ei & _).
  assert (Ed : ei_ident i = d_ident d) by (unfold d_ident; rewrite Ei; reflexivity).
  rewrite Ed, (find_own_arm d v (fun _ => BSome BX) _ (variant_ident _ _ _ _ D HV)). reflexivity.
Qed.

(** ** Transposition *)

Lemma all_fields_types i d : parse_data i = Some d -> field_types d = all_fields i.
Proof.
  unfold parse_data, field_types, all_fields. intros D.
  destruct (ei_variants i) as [|v0 l0] eqn:Ev; [discriminate D|]. rewrite <- Ev in D |- *.
  destruct (variant_types (ei_variants i)) as [tys|] eqn:VT; [|discriminate D].
  injection D as <-. cbn. clear Ev. revert tys VT. induction (ei_variants i) as [|v l IH]; intros tys VT.
  - injection VT as <-. reflexivity.
  - cbn in VT. destruct (variant_type v) as [t|] eqn:Vt; [|discriminate VT].
    destruct (variant_types l) as [tl|]; [|discriminate VT]. injection VT as <-.
    cbn. rewrite <- (IH tl eq_refl). unfold variant_type in Vt.
    destruct (vi_discriminant v); [discriminate Vt|].
    destruct (vi_fields v) as [|[|y [|? ?]]|]; try discriminate Vt. injection Vt as ->. reflexivity.
Qed.

Lemma transpose_result_shape d :
  gi_trait (transpose_result d) = None
  /\ gi_self (transpose_result d) = Some (map (fun x => result_of (fst x) (snd x)) (combine (field_types d) (err_fields d)))
  /\ gi_methods (transpose_result d)
     = [own_method d "transpose" (fun v => BMapErr (BMap BX (d_ident d) v) (d_ident d) v)].
Proof.
  unfold transpose_result.
  destruct (fold_param_trait (fun p : toks => p) (err_fields d) (impl_new d)) as (A1 & A2 & _).
  cbn [gi_trait gi_self gi_methods set_self push_item]. rewrite A1, A2. repeat split.
Qed.

(** The inherent implementations of an output are the four transposing ones. *)
Lemma inherent_impls feat ts i o d g :
  enum_derive feat ts i = inr o -> parse_data i = Some d -> In (GImpl g) (do_items o) -> gi_trait g = None ->
  In g [transpose_option d; transpose_result d; transpose_ok d; transpose_err d].
Proof.
  intros H D Hg Eg. destruct (expansion _ _ _ _ H) as (d' & ps & D' & HA & E1 & E2 & F).
  assert (d' = d) by congruence. subst d'. rewrite E2 in Hg. unfold all_items in Hg.
  apply in_app_or in Hg. destruct Hg as [Hg|Hg].
  - apply in_flat_map in Hg. destruct Hg as (r & Hr & Hg). rewrite Forall_forall in F. specialize (F r Hr).
    destruct (get_derive feat (fst r)) as [f|] eqn:G.
    2:{ unfold contrib in Hg. rewrite G in Hg. destruct Hg. }
    specialize (F f eq_refl). destruct (get_derive_found _ _ _ G) as (k & e & n & L & Hs & He & Ef & Hok).
    destruct (contrib feat d r) as [pin its]. cbn [snd] in Hg.
    destruct (Hok d pin its F) as (_ & Hn & _). destruct n as [p|].
    + destruct Hn as (g' & tr & -> & E' & _). destruct Hg as [Hg|[]]. injection Hg as ->. congruence.
    + assert (Ee : en_derive e = ty_impls_transpose_derive).
      { destruct L as [L1 L2]. assert (K : k = 33).
        { revert L2. clear. intros H.
          do 62 (destruct k as [|k]; [first [discriminate H|reflexivity]|]). destruct k; discriminate H. }
        subst k. cbv in L1. injection L1 as <-. reflexivity. }
      rewrite Ef, Ee in F. unfold ty_impls_transpose_derive in F. destruct (check_fields d); [|discriminate F].
      injection F as <- <-. cbn in Hg. cbn.
      destruct Hg as [E|[E|[E|[E|[]]]]]; injection E as <-; auto.
  - destruct (existsb (fun r => fst (contrib feat d r)) (requests feat (map named ps))); [|destruct Hg].
    destruct Hg as [E|[E|[]]]; [|discriminate E]. injection E as <-.
    destruct (unpin_shape d) as (U1 & _). congruence.
Qed.

Lemma transposing_present feat ts i o d ps p :
  enum_derive feat ts i = inr o -> parse_data i = Some d ->
  arg_list (map Trait ps) ts -> In p ps -> is_transpose feat (path_text p) ->
  forall g, In g [transpose_option d; transpose_result d; transpose_ok d; transpose_err d] ->
  In (GImpl g) (do_items o).
Proof.
  intros H D HA Hp M g Hg. destruct (expansion _ _ _ _ H) as (d' & ps' & D' & HA' & E1 & E2 & F).
  assert (d' = d) by congruence. subst d'.
  rewrite <- (arg_list_unique _ _ _ HA HA') in *.
  apply transpose_line in M. destruct M as (k & e & L & Hs & He).
  assert (C : covered feat (path_text p) (requests feat (map named ps)))
    by (apply (proj1 (requests_cover feat (map named ps) (named p) (in_map named _ _ Hp)))).
  destruct (covered_items _ _ _ _ _ _ _ F C L Hs He) as (pin & its & Ed & Hin).
  assert (Ee : en_derive e = ty_impls_transpose_derive).
  { destruct L as [L1 L2]. assert (K : k = 33).
    { revert L2. clear. intros H.
      do 62 (destruct k as [|k]; [first [discriminate H|reflexivity]|]). destruct k; discriminate H. }
    subst k. cbv in L1. injection L1 as <-. reflexivity. }
  rewrite Ee in Ed. unfold ty_impls_transpose_derive in Ed.
  destruct (check_fields d); [|discriminate Ed]. injection Ed as <- <-.
  rewrite E2. apply Hin. cbn in Hg |- *. destruct Hg as [<-|[<-|[<-|[<-|[]]]]]; auto.
Qed.

(** Only one of the four has a method of the given name for the given type. *)
Lemma find_inherent_is o self m g gm :
  In (GImpl g) (do_items o) -> gi_trait g = None -> gi_self g = Some self -> gi_methods g = [gm] -> gm_name gm = m ->
  (forall g', In (GImpl g') (do_items o) -> gi_trait g' = None -> gi_self g' = Some self ->
     forall x, In x (gi_methods g') -> gm_name x = m -> x = gm) ->
  find_inherent o self m = Some gm.
Proof.
  intros Hg Eg Es Em En HU. unfold find_inherent.
  set (l := flat_map _ (impls_of o)).
  assert (Hl : In gm l).
  { unfold l. apply in_flat_map. exists g. split; [apply in_impls, Hg|]. rewrite Eg, Es.
    destruct (list_eq_dec (list_eq_dec string_dec) self self); [|congruence]. rewrite Em. left. reflexivity. }
  destruct (find (fun g0 => gm_name g0 =? m) l) as [x|] eqn:F.
  - apply find_some in F. destruct F as [Hx Ex]. apply String.eqb_eq in Ex. f_equal.
    unfold l in Hx. apply in_flat_map in Hx. destruct Hx as (g' & Hg' & Hx). apply in_impls in Hg'.
    destruct (gi_trait g') eqn:Eg'; [destruct Hx|]. destruct (gi_self g') as [s|] eqn:Es'; [|destruct Hx].
    destruct (list_eq_dec (list_eq_dec string_dec) s self); [|destruct Hx]. subst s.
    apply (HU g'); assumption.
  - pose proof (find_none _ _ F gm Hl) as X. cbn in X. rewrite En, String.eqb_refl in X. discriminate X.
Qed.

(** The types [__E0], [__E1], .. *)
Lemma err_fields_eq i d :
  parse_data i = Some d ->
  err_fields d = map (fun k => [String.append "__E" (dec_nat k)]) (seq 0 (length (all_fields i))).
Proof. intros D. unfold err_fields. rewrite (all_fields_types _ _ D). reflexivity. Qed.

Lemma fields_ne i d : parse_data i = Some d -> all_fields i <> [].
Proof.
  intros D. rewrite <- (all_fields_types _ _ D). destruct (parse_data_spec _ _ D) as (_ & L & N & _).
  unfold field_types. destruct (d_types d); [|discriminate]. destruct (ei_variants i); [congruence|discriminate].
Qed.

Lemma own_call {V} (I : inner V) i d m b v t p w z :
  parse_data i = Some d -> has_variant i v t ->
  eval_body I [] p (b v) w = Some z ->
  call_method I (own_method d m b) (VEnum (ei_ident i) v p) [] w = Some z.
Proof.
  intros D HV E. unfold call_method, own_method. cbn [gm_recv gm_params gm_scrut gm_arms receives length Nat.eqb andb].
  cbn [scrutinee]. destruct (parse_data_spec _ _ D) as (Ei & _).
  assert (Ed : ei_ident i = d_ident d) by (unfold d_ident; rewrite Ei; reflexivity).
  rewrite Ed, (find_own_arm d v b _ (variant_ident _ _ _ _ D HV)). exact E.
Qed.

Section Transposing.
  Context {V : Type} (I : inner V) (feat : features) (ts : list token) (i : enum_item) (o : doutput)
    (ps : list path) (p : path).
  Context (H : enum_derive feat ts i = inr o) (HA : arg_list (map Trait ps) ts) (Hp : In p ps)
    (M : is_transpose feat (path_text p)).

  (** The four, by type and name. *)
  Lemma four d :
    parse_data i = Some d ->
    find_inherent o (map option_of (all_fields i)) "transpose"
      = Some (own_method d "transpose" (fun v => BMap BX (d_ident d) v))
    /\ find_inherent o (map (fun x => result_of (fst x) (snd x)) (combine (all_fields i) (err_fields d))) "transpose"
      = Some (own_method d "transpose" (fun v => BMapErr (BMap BX (d_ident d) v) (d_ident d) v))
    /\ find_inherent o (map (fun t => result_of t ["__E"]) (all_fields i)) "transpose_ok"
      = Some (own_method d "transpose_ok" (fun v => BMap BX (d_ident d) v))
    /\ find_inherent o (map (fun t => result_of ["__T"] t) (all_fields i)) "transpose_err"
      = Some (own_method d "transpose_err" (fun v => BMapErr BX (d_ident d) v)).
  Proof.
    intros D. pose proof (transposing_present _ _ _ _ _ _ _ H D HA Hp M) as P.
    pose proof (fun g => inherent_impls _ _ _ _ _ g H D) as Q.
    destruct (transpose_result_shape d) as (R1 & R2 & R3).
    pose proof (fields_ne _ _ D) as NE. rewrite <- (all_fields_types _ _ D) in *.
    assert (NO : forall f : toks * toks -> toks * toks, map option_of (field_types d)
                <> map (fun x => result_of (fst x) (snd x)) (combine (field_types d) (err_fields d))).
    { intros _ E. unfold err_fields in E. destruct (field_types d) as [|t l]; [congruence|].
      cbn in E. discriminate E. }
    assert (NO' := NO (fun x => x)). clear NO.
    assert (NO2 : map option_of (field_types d) <> map (fun t => result_of t ["__E"]) (field_types d)).
    { intros E. destruct (field_types d) as [|t l]; [congruence|]. discriminate E. }
    split; [|split; [|split]].
    - apply (find_inherent_is o _ _ (transpose_option d)); try reflexivity; [apply P; cbn; auto|].
      intros g' Hg' Et Es x Hx Ex. specialize (Q g' Hg' Et). cbn in Q.
      destruct Q as [<-|[<-|[<-|[<-|[]]]]].
      + destruct Hx as [<-|[]]. reflexivity.
      + exfalso. rewrite R2 in Es. injection Es as Es. congruence.
      + destruct Hx as [<-|[]]. discriminate Ex.
      + destruct Hx as [<-|[]]. discriminate Ex.
    - apply (find_inherent_is o _ _ (transpose_result d)); try assumption; try reflexivity; [apply P; cbn; auto|].
      intros g' Hg' Et Es x Hx Ex. specialize (Q g' Hg' Et). cbn in Q.
      destruct Q as [<-|[<-|[<-|[<-|[]]]]].
      + exfalso. cbn in Es. injection Es as Es. congruence.
      + rewrite R3 in Hx. destruct Hx as [<-|[]]. reflexivity.
      + destruct Hx as [<-|[]]. discriminate Ex.
      + destruct Hx as [<-|[]]. discriminate Ex.
    - apply (find_inherent_is o _ _ (transpose_ok d)); try reflexivity; [apply P; cbn; auto|].
      intros g' Hg' Et Es x Hx Ex. specialize (Q g' Hg' Et). cbn in Q.
      destruct Q as [<-|[<-|[<-|[<-|[]]]]].
      + destruct Hx as [<-|[]]. discriminate Ex.
      + rewrite R3 in Hx. destruct Hx as [<-|[]]. discriminate Ex.
      + destruct Hx as [<-|[]]. reflexivity.
      + destruct Hx as [<-|[]]. discriminate Ex.
    - apply (find_inherent_is o _ _ (transpose_err d)); try reflexivity; [apply P; cbn; auto|].
      intros g' Hg' Et Es x Hx Ex. specialize (Q g' Hg' Et). cbn in Q.
      destruct Q as [<-|[<-|[<-|[<-|[]]]]].
      + destruct Hx as [<-|[]]. discriminate Ex.
      + rewrite R3 in Hx. destruct Hx as [<-|[]]. discriminate Ex.
      + destruct Hx as [<-|[]]. discriminate Ex.
      + destruct Hx as [<-|[]]. reflexivity.
  Qed.
End Transposing.
