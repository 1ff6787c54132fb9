(** No trait twice, and the guards of pin projections. *)

Require Import Coq.Strings.String Coq.Lists.List Coq.Bool.Bool Coq.Arith.Arith Coq.micromega.Lia.
Require Import Verif.Syntax Verif.Context Verif.TypeAnalysis Verif.Derive Verif.DeriveTable Verif.EnumDerive
  Verif.DeriveEval Verif.DeriveSpec Verif.DeriveRun Verif.ForwardRun Verif.ArgsSpec Verif.RequestRun.
Import ListNotations.
Open Scope string_scope.
Open Scope list_scope.

(** ** Facts about the tables *)

Lemma deps_needs feat s dep : In dep (get_trait_deps feat s) -> needs feat s dep.
Proof.
  unfold get_trait_deps. destruct (find _ dep_table) as [[[f names] deps]|] eqn:F; [|intros []].
  cbn [snd]. intros Hd. apply find_some in F. destruct F as [Hin Hb]. cbn [fst snd] in Hb.
  apply andb_true_iff in Hb. destruct Hb as [He Hn]. apply names_it_spec in Hn.
  exists f, deps. split; [|split; [exact Hd|apply enabled_spec, He]].
  unfold dep_table in Hin. cbn [In] in Hin.
  repeat (destruct Hin as [E|Hin];
    [injection E as <- <- <-; cbn [In] in Hn;
     repeat (destruct Hn as [<-|Hn]; [unfold needed; cbn [In]; tauto|]); destruct Hn|]).
  destruct Hin.
Qed.

Lemma deps_nodup feat s : NoDup (get_trait_deps feat s).
Proof.
  unfold get_trait_deps. destruct (find _ dep_table) as [x|] eqn:F; [|constructor].
  apply find_some in F. destruct F as [Hin _].
  assert (T : forallb (fun x => nodupb (snd x)) dep_table = true) by (vm_compute; reflexivity).
  rewrite forallb_forall in T. apply nodup_dec_params, T, Hin.
Qed.

Lemma get_alias_sym feat s x : get_alias feat s = Some x -> get_alias feat x = Some s.
Proof.
  intros H. apply get_alias_in_spec in H. destruct H as (f & names & Hin & He & O).
  unfold alias_table in Hin. cbn [In] in Hin.
  repeat (destruct Hin as [E|Hin];
    [injection E as <- <-; cbn in O;
     match type of O with context [if ?b then _ else _] => destruct b eqn:B end;
     [apply String.eqb_eq in B; subst s; injection O as <-; unfold get_alias, alias_table; cbn;
      cbn in He; rewrite ?He; reflexivity|];
     match type of O with context [if ?b then _ else _] => destruct b eqn:B2 end; [|discriminate O];
     apply String.eqb_eq in B2; subst s; injection O as <-; unfold get_alias, alias_table; cbn;
     cbn in He; rewrite ?He; reflexivity|]).
  destruct Hin.
Qed.

(** Two names of a line are aliases. *)
Lemma same_line_alias feat k e n s1 s2 :
  line k e n -> enabled feat (en_feature e) = true -> In s1 (en_names e) -> In s2 (en_names e) ->
  s1 = s2 \/ get_alias feat s1 = Some s2.
Proof.
  intros [L _] He H1 H2. apply nth_error_In in L.
  assert (T : forallb (fun e => (length (en_names e) <=? 1)%nat
              || existsb (fun a => ostr_eqb (fst a) (en_feature e) && toks_eqb (snd a) (en_names e)) alias_table)
              derives = true) by (vm_compute; reflexivity).
  rewrite forallb_forall in T. specialize (T e L). apply orb_true_iff in T. destruct T as [T|T].
  - apply Nat.leb_le in T. destruct (en_names e) as [|x [|y l]]; [destruct H1| |cbn in T; lia].
    destruct H1 as [<-|[]], H2 as [<-|[]]. left. reflexivity.
  - apply existsb_exists in T. destruct T as ([f names] & Hin & E). cbn [fst snd] in E.
    apply andb_true_iff in E. destruct E as [E1 E2]. apply ostr_eqb_eq in E1. apply toks_eqb_eq in E2.
    rewrite <- E1 in He. rewrite <- E2 in H1, H2. clear E1 E2 L.
    unfold alias_table in Hin. cbn [In] in Hin.
    repeat (destruct Hin as [E|Hin];
      [injection E as <- <-; cbn in H1, H2, He;
       destruct H1 as [<-|[<-|[]]], H2 as [<-|[<-|[]]];
       first [left; reflexivity|right; unfold get_alias, alias_table; cbn; rewrite ?He; reflexivity]|]).
    destruct Hin.
Qed.

(** Traits that several versions of a crate define under one path. *)
Definition versioned (tr : string) : bool := prefix "::tokio" tr || prefix "::futures" tr.

Lemma unversioned_unique j k tr :
  nth_error entry_traits j = Some (Some tr) -> nth_error entry_traits k = Some (Some tr) ->
  versioned tr = false -> j = k.
Proof.
  intros Hj Hk Hv.
  assert (T : forallb (fun j => forallb (fun k =>
      match nth_error entry_traits j, nth_error entry_traits k with
      | Some (Some a), Some (Some b) => negb (a =? b) || versioned a || (j =? k)%nat
      | _, _ => true
      end) (seq 0 (length entry_traits))) (seq 0 (length entry_traits)) = true) by (vm_compute; reflexivity).
  rewrite forallb_forall in T.
  assert (Lj : In j (seq 0 (length entry_traits))).
  { apply in_seq. split; [lia|]. apply nth_error_Some. congruence. }
  assert (Lk : In k (seq 0 (length entry_traits))).
  { apply in_seq. split; [lia|]. apply nth_error_Some. congruence. }
  specialize (T j Lj). rewrite forallb_forall in T. specialize (T k Lk).
  rewrite Hj, Hk, String.eqb_refl, Hv in T. cbn in T. apply Nat.eqb_eq, T.
Qed.

Lemma dep_unversioned feat s dep k e tr :
  In dep (get_trait_deps feat s) -> line k e (Some tr) -> In dep (en_names e) -> versioned tr = false.
Proof.
  unfold get_trait_deps. destruct (find _ dep_table) as [x|] eqn:F; [|intros []].
  apply find_some in F. destruct F as [Hin _]. intros Hd L Hn. apply line_lines in L.
  assert (T : forallb (fun x => forallb (fun dep => forallb (fun l =>
      match snd l with
      | Some tr => negb (existsb (String.eqb dep) (snd (fst l))) || negb (versioned tr)
      | None => true
      end) lines) (snd x)) dep_table = true) by (vm_compute; reflexivity).
  rewrite forallb_forall in T. specialize (T x Hin). rewrite forallb_forall in T. specialize (T dep Hd).
  rewrite forallb_forall in T. specialize (T _ L). cbn [fst snd] in T.
  assert (B : existsb (String.eqb dep) (en_names e) = true).
  { apply existsb_exists. exists dep. split; [exact Hn|apply String.eqb_refl]. }
  rewrite B in T. cbn in T. apply negb_true_iff, T.
Qed.

Lemma unpin_not_listed k : nth_error entry_traits k <> Some (Some unpin_path).
Proof.
  intros H. apply nth_error_In in H.
  assert (T : existsb (fun x => ostr_eqb x (Some unpin_path)) entry_traits = false) by (vm_compute; reflexivity).
  rewrite <- not_true_iff_false in T. apply T. apply existsb_exists. exists (Some unpin_path).
  split; [exact H|]. cbn. reflexivity.
Qed.

(** ** Requests are different *)

Definition no_aliases (feat : features) (v : list request) : Prop :=
  forall r1 r2, In r1 v -> In r2 v -> get_alias feat (fst r1) = Some (fst r2) -> False.

(** A name that can be added. *)
Lemma push_no_alias feat v x a :
  no_aliases feat v -> exists_alias feat x v = false -> no_aliases feat (v ++ [(x, a)]).
Proof.
  intros NA E r1 r2 H1 H2 A. apply in_app_or in H1, H2.
  assert (N : forall r, In r v -> get_alias feat x = Some (fst r) -> False).
  { intros r Hr G. unfold exists_alias in E. rewrite G in E. rewrite <- not_true_iff_false in E. apply E.
    apply existsb_exists. exists r. split; [exact Hr|apply String.eqb_refl]. }
  destruct H1 as [H1|[<-|[]]], H2 as [H2|[<-|[]]]; cbn [fst] in A.
  - apply (NA r1 r2); assumption.
  - apply (N r1 H1). apply get_alias_sym, A.
  - apply (N r2 H2), A.
  - apply get_alias_spec in A. destruct A as (_ & _ & _ & _ & _ & _ & _ & Ne & _). congruence.
Qed.

Lemma nodup_snoc {A} (l : list A) x : NoDup l -> ~ In x l -> NoDup (l ++ [x]).
Proof.
  induction l as [|y l IH]; cbn; intros ND Hn; [constructor; [intros []|constructor]|].
  inversion ND; subst. constructor.
  - rewrite in_app_iff. intros [K|[->|[]]]; [contradiction|]. apply Hn. left. reflexivity.
  - apply IH; auto.
Qed.

Lemma push_deps_nodup feat : forall l v,
  NoDup l -> (forall x, In x l -> ~ In x (map fst v)) -> NoDup (map fst v) -> no_aliases feat v ->
  let v' := fold_left (push_dep feat) l v in
  NoDup (map fst v') /\ no_aliases feat v' /\ (forall x, In x (map fst v') -> In x (map fst v) \/ In x l).
Proof.
  induction l as [|t l IH]; intros v NL Hd NV NA; cbn.
  - auto.
  - inversion NL as [|? ? Ht NL']; subst. unfold push_dep at 2 4 6. 
    destruct (exists_alias feat t v) eqn:E.
    + destruct (IH v NL') as (I1 & I2 & I3); auto.
      { intros x Hx. apply Hd. right. exact Hx. }
      repeat split; auto. intros x Hx. destruct (I3 x Hx); auto.
    + destruct (IH (v ++ [(t, None)]) NL') as (I1 & I2 & I3).
      * intros x Hx. rewrite map_app, in_app_iff. cbn. intros [K|[->|[]]]; [|contradiction].
        apply (Hd x); [right; exact Hx|exact K].
      * rewrite map_app. cbn. apply nodup_snoc; [exact NV|]. apply Hd. left. reflexivity.
      * apply push_no_alias; assumption.
      * repeat split; auto. intros x Hx. destruct (I3 x Hx) as [K|K]; [|auto].
        rewrite map_app, in_app_iff in K. cbn in K. destruct K as [K|[->|[]]]; auto.
Qed.

Lemma requests_nodup_aux feat ps :
  NoDup (map path_text ps) -> no_shared_need feat ps ->
  forall todo done v, ps = done ++ todo ->
  NoDup (map fst v) -> no_aliases feat v ->
  (forall x, In x (map fst v) ->
     In x (map path_text done)
     \/ exists p, In p done /\ In x (missing feat (map named ps) (path_text p))) ->
  let v' := fold_left (add_arg feat (map named ps)) (map named todo) v in
  NoDup (map fst v') /\ no_aliases feat v'
  /\ (forall x, In x (map fst v') ->
     In x (map path_text ps)
     \/ exists p, In p ps /\ In x (missing feat (map named ps) (path_text p))).
Proof.
  intros ND NS. induction todo as [|p todo IH]; intros done v E NV NA HV.
  - cbn. rewrite app_nil_r in E. subst done. auto.
  - cbn [map fold_left].
    assert (Tx : map fst (map named ps) = map path_text ps) by (rewrite map_map; reflexivity).
    assert (Hp : In p ps) by (rewrite E; apply in_or_app; right; left; reflexivity).
    assert (Hpd : ~ In (path_text p) (map path_text done)).
    { rewrite E, map_app in ND. cbn in ND. intros K. eapply nodup_app_disj; [exact ND|exact K|left; reflexivity]. }
    assert (Hmd : forall x, In x (missing feat (map named ps) (path_text p)) -> ~ In x (map fst v)).
    { intros x Hx K. apply missing_spec in Hx. destruct Hx as [Hx1 Hx2]. rewrite Tx in Hx2.
      destruct (HV x K) as [H|(q & Hq & Hxq)].
      - apply Hx2. rewrite E, map_app, in_app_iff. auto.
      - apply missing_spec in Hxq. destruct Hxq as [Hxq _]. apply Hx2.
        assert (Hq' : In q ps) by (rewrite E; apply in_or_app; left; exact Hq).
        apply (NS p q x); auto.
        + intros ->. apply Hpd. apply in_map, Hq.
        + apply deps_needs, Hx1.
        + apply deps_needs, Hxq. }
    assert (Hmn : NoDup (missing feat (map named ps) (path_text p))) by (apply NoDup_filter, deps_nodup).
    destruct (push_deps_nodup feat _ v Hmn Hmd NV NA) as (D1 & D2 & D3).
    set (v1 := fold_left (push_dep feat) _ v) in *.
    assert (Eadd : add_arg feat (map named ps) v (named p)
                   = if exists_alias feat (path_text p) v1 then v1 else v1 ++ [(path_text p, Some p)])
      by reflexivity.
    rewrite Eadd. apply (IH (done ++ [p])).
    + rewrite E, <- app_assoc. reflexivity.
    + destruct (exists_alias feat (path_text p) v1); [exact D1|]. rewrite map_app. apply nodup_snoc; [exact D1|].
      cbn. intros K. destruct (D3 _ K) as [K1|K1].
      * destruct (HV _ K1) as [K2|(q & Hq & K2)]; [contradiction|].
        apply missing_spec in K2. destruct K2 as [_ K2]. apply K2. rewrite Tx. apply in_map, Hp.
      * apply missing_spec in K1. destruct K1 as [_ K2]. apply K2. rewrite Tx. apply in_map, Hp.
    + destruct (exists_alias feat (path_text p) v1) eqn:A; [exact D2|]. apply push_no_alias; assumption.
    + intros x Hx.
      assert (Hx' : In x (map fst v1) \/ x = path_text p).
      { destruct (exists_alias feat (path_text p) v1); [left; exact Hx|].
        rewrite map_app, in_app_iff in Hx. cbn in Hx. destruct Hx as [K|[K|[]]]; auto. }
      destruct Hx' as [K| ->].
      * destruct (D3 x K) as [K1|K1].
        -- destruct (HV x K1) as [K2|(q & Hq & K2)].
           ++ left. rewrite map_app, in_app_iff. auto.
           ++ right. exists q. split; [apply in_or_app; auto|exact K2].
        -- right. exists p. split; [apply in_or_app; right; left; reflexivity|exact K1].
      * left. rewrite map_app, in_app_iff. right. left. reflexivity.
Qed.

Lemma requests_nodup feat ps :
  NoDup (map path_text ps) -> no_shared_need feat ps ->
  let v := requests feat (map named ps) in
  NoDup (map fst v) /\ no_aliases feat v
  /\ (forall x, In x (map fst v) ->
     In x (map path_text ps) \/ exists p, In p ps /\ In x (get_trait_deps feat (path_text p))).
Proof.
  intros ND NS. destruct (requests_nodup_aux feat ps ND NS ps [] []) as (H1 & H2 & H3).
  - reflexivity.
  - constructor.
  - intros r1 r2 [].
  - intros x [].
  - split; [exact H1|]. split; [exact H2|]. intros x Hx. destruct (H3 x Hx) as [K|(p & Hp & K)]; [auto|].
    right. exists p. split; [exact Hp|]. apply missing_spec in K. apply K.
Qed.

(** ** The traits implemented *)

Lemma nodup_flat_map {A B} (f : A -> list B) (l : list A) :
  NoDup l -> (forall x, In x l -> NoDup (f x)) ->
  (forall x y z, In x l -> In y l -> In z (f x) -> In z (f y) -> x = y) ->
  NoDup (flat_map f l).
Proof.
  induction l as [|a l IH]; intros ND HN HD; [constructor|]. cbn.
  inversion ND as [|? ? Ha ND']; subst.
  assert (R : NoDup (flat_map f l)).
  { apply IH; auto. - intros x Hx. apply HN. right. exact Hx.
    - intros x y z Hx Hy. apply HD; right; assumption. }
  assert (D : forall z, In z (f a) -> ~ In z (flat_map f l)).
  { intros z Hz K. apply in_flat_map in K. destruct K as (y & Hy & Hzy).
    assert (a = y) by (apply (HD a y z); auto; [left; reflexivity|right; exact Hy]). subst y. contradiction. }
  specialize (HN a (or_introl eq_refl)). revert HN D. generalize (f a). clear - R.
  induction l0 as [|b m IHm]; intros HN D; [exact R|]. cbn. inversion HN; subst. constructor.
  - rewrite in_app_iff. intros [K|K]; [contradiction|]. apply (D b); [left; reflexivity|exact K].
  - apply IHm; auto. intros z Hz. apply D. right. exact Hz.
Qed.

Definition item_paths (it : gitem) : list string :=
  match it with
  | GImpl g => match gi_trait g with Some t => [tr_path t] | None => [] end
  | GMustNotDrop _ _ _ => []
  end.

Lemma impl_paths_items o : impl_paths o = flat_map item_paths (do_items o).
Proof.
  unfold impl_paths, impls_of. induction (do_items o) as [|[g|] l IH]; cbn; rewrite ?IH; reflexivity.
Qed.

Lemma flat_map_flat_map {A B C} (f : A -> list B) (g : B -> list C) l :
  flat_map g (flat_map f l) = flat_map (fun x => flat_map g (f x)) l.
Proof. induction l as [|x l IH]; cbn; [reflexivity|]. rewrite flat_map_app, IH. reflexivity. Qed.

(** The paths one request contributes. *)
Lemma contrib_paths feat d r :
  (forall f, get_derive feat (fst r) = Some f -> f d = inr (contrib feat d r)) ->
  forall z, In z (flat_map item_paths (snd (contrib feat d r))) ->
  flat_map item_paths (snd (contrib feat d r)) = [z]
  /\ exists k e, line k e (Some z) /\ In (fst r) (en_names e) /\ enabled feat (en_feature e) = true.
Proof.
  intros HF z Hz. destruct (get_derive feat (fst r)) as [f|] eqn:G.
  - specialize (HF f eq_refl). apply get_derive_found in G. destruct G as (k & e & n & L & Hs & He & Ef & Hok).
    destruct (contrib feat d r) as [pin its]. cbn [snd] in *.
    destruct (Hok d pin its HF) as (_ & Hn & _). destruct n as [tr|].
    + destruct Hn as (g & t & -> & Eg & Et). cbn in Hz. rewrite Eg in Hz. cbn in Hz.
      destruct Hz as [Hz|[]]. cbn. rewrite Eg. cbn. rewrite Hz. split; [reflexivity|].
      exists k, e. rewrite <- Hz, Et. auto.
    + exfalso. apply in_flat_map in Hz. destruct Hz as (it & Hit & Hz). rewrite Forall_forall in Hn.
      destruct (Hn it Hit) as (g & -> & Eg). cbn in Hz. rewrite Eg in Hz. destruct Hz.
  - exfalso. unfold contrib in Hz. rewrite G in Hz. destruct Hz.
Qed.

Theorem implemented_once feat ts i o ps :
  enum_derive feat ts i = inr o -> arg_list (map Trait ps) ts ->
  names_no_trait_twice feat ps -> no_shared_need feat ps ->
  NoDup (impl_paths o).
Proof.
  intros H HA [ND HT] NS. destruct (expansion _ _ _ _ H) as (d & ps' & D & HA' & E1 & E2 & F).
  assert (ps' = ps).
  { assert (A1 : parse_traits ts = Some (map named ps')) by (apply parse_traits_grammar; eauto).
    assert (A2 : parse_traits ts = Some (map named ps)) by (apply parse_traits_grammar; eauto).
    assert (E : map named ps' = map named ps) by congruence. revert E. clear.
    revert ps. induction ps' as [|a l IH]; intros [|b m] E; try discriminate; [reflexivity|].
    injection E as _ -> E. f_equal. apply IH, E. }
  subst ps'. clear HA'.
  destruct (requests_nodup feat ps ND NS) as (R1 & R2 & R3).
  set (rs := requests feat (map named ps)) in *.
  rewrite Forall_forall in F.
  rewrite impl_paths_items, E2. unfold all_items. rewrite flat_map_app, flat_map_flat_map.
  set (f := fun r => flat_map item_paths (snd (contrib feat d r))).
  assert (N1 : NoDup (flat_map f rs)).
  { apply nodup_flat_map.
    - apply NoDup_map_inv in R1. exact R1.
    - intros r Hr. destruct (f r) as [|z l] eqn:Ef; [constructor|].
      destruct (contrib_paths feat d r (F r Hr) z) as [E _]; [fold (f r); rewrite Ef; left; reflexivity|].
      fold (f r) in E. rewrite Ef in E. rewrite E. constructor; [intros []|constructor].
    - intros r1 r2 z H1 H2 Z1 Z2.
      destruct (contrib_paths feat d r1 (F r1 H1) z Z1) as (_ & k1 & e1 & L1 & S1 & En1).
      destruct (contrib_paths feat d r2 (F r2 H2) z Z2) as (_ & k2 & e2 & L2 & S2 & En2).
      assert (K : fst r1 = fst r2 -> r1 = r2).
      { intros E. clear - R1 H1 H2 E. revert R1 H1 H2. generalize rs. induction rs0 as [|a l IH]; [intros _ []|].
        cbn. intros N [->|H1] [->|H2]; inversion N as [|? ? Hn N']; subst; auto.
        - exfalso. apply Hn. rewrite E. apply in_map, H2.
        - exfalso. apply Hn. rewrite <- E. apply in_map, H1. }
      assert (K2 : k1 = k2 -> r1 = r2).
      { intros <-. destruct L1 as [L1 L1'], L2 as [L2 L2']. assert (e1 = e2) by congruence. subst e2.
        destruct (same_line_alias feat k1 e1 (Some z) (fst r1) (fst r2)) as [E|E]; auto; [split; assumption|].
        exfalso. apply (R2 r1 r2); assumption. }
      apply K2. destruct (versioned z) eqn:Vz; [|destruct L1, L2; eapply unversioned_unique; eauto].
      assert (Arg : forall r k e, In r rs -> line k e (Some z) -> In (fst r) (en_names e) ->
                    exists p, In p ps /\ path_text p = fst r).
      { intros r k e Hr L S. destruct (R3 (fst r) (in_map fst _ _ Hr)) as [Hp|(p & Hp & Hd)].
        - apply in_map_iff in Hp. destruct Hp as (p & E & Hp). exists p. auto.
        - rewrite (dep_unversioned feat _ _ k e z Hd L S) in Vz. discriminate Vz. }
      destruct (Arg r1 k1 e1 H1 L1 S1) as (p1 & P1 & T1). destruct (Arg r2 k2 e2 H2 L2 S2) as (p2 & P2 & T2).
      assert (Doc : forall k e, line k e (Some z) ->
                exists l, In l documented /\ doc_names l = en_names e /\ doc_trait l = z /\ doc_feature l = en_feature e).
      { intros k e L. apply line_lines in L. apply lines_documented in L. unfold doc_lines in L.
        apply in_app_or in L. destruct L as [L|[L|[]]]; [|discriminate L].
        apply in_map_iff in L. destruct L as (l & E & Hl). injection E as X1 X2 X3. exists l. auto. }
      destruct (Doc k1 e1 L1) as (l1 & D1 & N1 & Tr1 & Fe1). destruct (Doc k2 e2 L2) as (l2 & D2 & N2 & Tr2 & Fe2).
      assert (l1 = l2).
      { apply (HT p1 p2 l1 l2); auto; try congruence. intros x [Hx|Hx].
        - apply (proj1 (enabled_spec feat (en_feature e1)) En1). congruence.
        - apply (proj1 (enabled_spec feat (en_feature e2)) En2). congruence. }
      subst l2. destruct L1 as [L1 L1'], L2 as [L2 L2'].
      apply (names_entry _ all_names_nodup k1 k2 e1 e2 (fst r1)); auto. congruence. }
  destruct (existsb _ rs); [|cbn; rewrite app_nil_r; exact N1].
  destruct (unpin_shape d) as (U1 & _).
  assert (EU : flat_map item_paths [GImpl (unpin_impl d); must_not_drop d] = [unpin_path]).
  { cbn [flat_map item_paths]. rewrite U1. reflexivity. }
  rewrite EU. apply nodup_snoc; [exact N1|]. intros K. apply in_flat_map in K. destruct K as (r & Hr & K).
  destruct (contrib_paths feat d r (F r Hr) _ K) as (_ & k & e & L & _). destruct L as [_ L].
  apply (unpin_not_listed k). exact L.
Qed.

(** ** Pin projection *)

Lemma contrib_not_guard feat d r :
  (forall f, get_derive feat (fst r) = Some f -> f d = inr (contrib feat d r)) ->
  (forall it, In it (snd (contrib feat d r)) -> exists g, it = GImpl g)
  /\ ~ In unpin_path (flat_map item_paths (snd (contrib feat d r)))
  /\ (fst (contrib feat d r) = true <->
      exists g m, In (GImpl g) (snd (contrib feat d r)) /\ In m (gi_methods g) /\ gm_scrut m = SPinned).
Proof.
  intros HF. split; [|split].
  - intros it Hit. destruct (get_derive feat (fst r)) as [f|] eqn:G.
    + specialize (HF f eq_refl). apply get_derive_found in G. destruct G as (k & e & n & L & Hs & He & Ef & Hok).
      destruct (contrib feat d r) as [pin its]. destruct (Hok d pin its HF) as (_ & _ & H).
      rewrite Forall_forall in H. destruct (H it Hit) as (g & E & _). eauto.
    + exfalso. unfold contrib in Hit. rewrite G in Hit. destruct Hit.
  - intros K. destruct (contrib_paths feat d r HF _ K) as (_ & k & e & [_ L] & _). apply (unpin_not_listed k), L.
  - destruct (get_derive feat (fst r)) as [f|] eqn:G.
    + specialize (HF f eq_refl). apply get_derive_found in G. destruct G as (k & e & n & L & Hs & He & Ef & Hok).
      destruct (contrib feat d r) as [pin its]. destruct (Hok d pin its HF) as (H & _). exact H.
    + unfold contrib. rewrite G. cbn. split; [discriminate|]. intros (g & m & [] & _).
Qed.

Lemma unpin_self d : gi_self (unpin_impl d) = None /\ gi_params (unpin_impl d) = own_params d.
Proof.
  split; [apply from_trait_shape|]. unfold unpin_impl, from_trait. cbv zeta. cbn [td_params td_types td_methods td_unsafe fold_left].
  match goal with |- gi_params (append_items _ _ _ (fold_left ?f ?l ?x)) = _ =>
    assert (K : forall m j, gi_params (fold_left f m j) = gi_params j) by
      (induction m as [|y m IH]; intros j; [reflexivity|cbn; rewrite IH; reflexivity]);
    transitivity (gi_params (fold_left f l x)); [|rewrite K; reflexivity] end.
  unfold append_items. cbv zeta. cbn [fold_left]. destruct (gi_trait _); [destruct (field_types d)|]; reflexivity.
Qed.

Theorem guards feat ts i o :
  enum_derive feat ts i = inr o ->
  (projects_pin o ->
     exists u, unpin_impls o = [u]
       /\ gi_self u = None /\ gi_params u = params_in_order i
       /\ gi_where u = map WUser (gn_where (ei_generics i))
                       ++ map (fun v => WBound v (TRef unpin_path []) [])
                            (flat_map (fun v => match vi_fields v with FTuple l => l | _ => [] end) (ei_variants i))
       /\ drop_guards o = [(params_in_order i, ei_ident i, gn_where (ei_generics i))])
  /\ (~ projects_pin o -> unpin_impls o = [] /\ drop_guards o = []).
Proof.
  intros H. destruct (expansion _ _ _ _ H) as (d & ps & D & HA & E1 & E2 & F).
  set (rs := requests feat (map named ps)) in *.
  destruct (parse_data_spec _ _ D) as (Ei & _).
  rewrite Forall_forall in F.
  pose (base := flat_map (fun r => snd (contrib feat d r)) rs).
  assert (B1 : forall it, In it base -> exists g, it = GImpl g).
  { intros it Hit. apply in_flat_map in Hit. destruct Hit as (r & Hr & Hit).
    apply (proj1 (contrib_not_guard feat d r (F r Hr)) it Hit). }
  assert (B2 : forall g, In (GImpl g) base ->
                match gi_trait g with Some t => tr_path t =? unpin_path | None => false end = false).
  { intros g Hg. apply in_flat_map in Hg. destruct Hg as (r & Hr & Hg).
    destruct (contrib_not_guard feat d r (F r Hr)) as (_ & N & _).
    destruct (gi_trait g) as [t|] eqn:T; [|reflexivity].
    destruct (tr_path t =? unpin_path) eqn:E; [|reflexivity]. apply String.eqb_eq in E.
    exfalso. apply N. apply in_flat_map. exists (GImpl g). split; [exact Hg|]. cbn. rewrite T. left. exact E. }
  assert (B3 : existsb (fun r => fst (contrib feat d r)) rs = true <->
               exists g m, In (GImpl g) base /\ In m (gi_methods g) /\ gm_scrut m = SPinned).
  { rewrite existsb_exists. split.
    - intros (r & Hr & Er). apply (contrib_not_guard feat d r (F r Hr)) in Er.
      destruct Er as (g & m & Hg & K). exists g, m. split; [|exact K]. apply in_flat_map. exists r. auto.
    - intros (g & m & Hg & K). apply in_flat_map in Hg. destruct Hg as (r & Hr & Hg).
      exists r. split; [exact Hr|]. apply (contrib_not_guard feat d r (F r Hr)). eauto. }
  assert (Bd : forall l, (forall it, In it l -> exists g, it = GImpl g) ->
     flat_map (fun it => match it with GMustNotDrop ps n wh => [(ps, n, wh)] | GImpl _ => [] end) l = []).
  { induction l as [|it l IH]; intros Hl; [reflexivity|]. cbn.
    destruct (Hl it (or_introl eq_refl)) as (g & ->). apply IH. intros x Hx. apply Hl. right. exact Hx. }
  set (unp := fun g => match gi_trait g with Some t => tr_path t =? unpin_path | None => false end) in *.
  assert (Bu : forall l, (forall g, In (GImpl g) l -> unp g = false) ->
     filter unp (flat_map (fun i => match i with GImpl g => [g] | GMustNotDrop _ _ _ => [] end) l) = []).
  { induction l as [|it l IH]; intros Hl; [reflexivity|]. cbn. rewrite filter_app, IH.
    - destruct it as [g|]; [|reflexivity]. cbn. rewrite (Hl g (or_introl eq_refl)). reflexivity.
    - intros x Hx. apply Hl. right. exact Hx. }
  unfold projects_pin, unpin_impls, drop_guards, impls_of. rewrite E2. unfold all_items. fold base. fold unp.
  rewrite !flat_map_app, filter_app, (Bd _ B1), (Bu _ B2). cbn [app].
  destruct (existsb (fun r => fst (contrib feat d r)) rs) eqn:X.
  - split.
    + intros _. destruct (unpin_shape d) as (U1 & U2 & U3). exists (unpin_impl d). cbn [flat_map app filter].
      unfold unp at 1. rewrite U1. cbn [tr_path]. rewrite String.eqb_refl. split; [reflexivity|].
      destruct (unpin_self d) as [U4 U5]. split; [exact U4|].
      split; [rewrite U5; unfold own_params, params_in_order, d_generics; rewrite Ei; reflexivity|]. split.
      * rewrite U3. unfold d_generics. rewrite Ei. f_equal. unfold field_types.
        assert (T : d_types d = flat_map (fun v => match vi_fields v with FTuple l => l | _ => [] end) (ei_variants i)).
        { clear - D. unfold parse_data in D. destruct (ei_variants i) as [|v0 l0] eqn:Ev; [discriminate D|].
          rewrite <- Ev in D |- *. destruct (variant_types (ei_variants i)) as [tys|] eqn:VT; [|discriminate D].
          injection D as <-. cbn. clear Ev. revert tys VT. induction (ei_variants i) as [|v l IH]; intros tys VT.
          - injection VT as <-. reflexivity.
          - cbn in VT. destruct (variant_type v) as [t|] eqn:Vt; [|discriminate VT].
            destruct (variant_types l) as [tl|]; [|discriminate VT]. injection VT as <-.
            cbn. rewrite <- (IH tl eq_refl). unfold variant_type in Vt.
            destruct (vi_discriminant v); [discriminate Vt|].
            destruct (vi_fields v) as [|[|y [|? ?]]|]; try discriminate Vt. injection Vt as ->. reflexivity. }
        rewrite T. reflexivity.
      * unfold must_not_drop, own_params, params_in_order, d_ident, d_generics. rewrite Ei. reflexivity.
    + intros N. exfalso. apply N. destruct (proj1 B3 eq_refl) as (g & m & Hg & K). exists g, m.
      split; [apply in_or_app; left; exact Hg|exact K].
  - split.
    + intros (g & m & Hg & K). rewrite app_nil_r in Hg. exfalso.
      assert (false = true) by (apply B3; eauto). discriminate.
    + intros _. split; reflexivity.
Qed.
