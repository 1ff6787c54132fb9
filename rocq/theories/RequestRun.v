(** The arguments of [#[enum_derive]], the traits requested and the items made from them. *)

Require Import Coq.Strings.String Coq.Lists.List Coq.Bool.Bool Coq.Arith.Arith Coq.micromega.Lia.
Require Import Verif.Syntax Verif.Context Verif.TypeAnalysis Verif.Derive Verif.DeriveTable Verif.EnumDerive
  Verif.DeriveEval Verif.DeriveSpec Verif.DeriveRun Verif.ForwardRun Verif.ArgsSpec Verif.ArgsRun.
Import ListNotations.
Open Scope string_scope.
Open Scope list_scope.

(** ** The argument grammar *)

Definition named (p : path) : string * path := (path_text p, p).

Lemma traits_loop_sound : forall fuel ts acc args,
  parse_traits_loop fuel ts acc = Some args ->
  exists ps, arg_list (map Trait ps) ts /\ args = acc ++ map named ps.
Proof.
  induction fuel as [|fuel IH]; intros ts acc args H; [discriminate H|].
  cbn [parse_traits_loop] in H. destruct ts as [|t0 ts0].
  - injection H as <-. exists []. split; [constructor|]. rewrite app_nil_r. reflexivity.
  - remember (t0 :: ts0) as ts eqn:Ets. clear Ets t0 ts0.
    destruct (parse_path ts) as [[p rest]|] eqn:P; [|discriminate H].
    apply parse_path_sound in P. destruct P as (w & W & ->). cbv zeta in H.
    destruct rest as [|[] rest]; try discriminate H.
    + injection H as <-. exists [p]. split; [|reflexivity]. cbn. rewrite app_nil_r. constructor. exact W.
    + apply IH in H. destruct H as (ps & HA & ->). exists (p :: ps). split.
      * cbn. constructor; assumption.
      * cbn. rewrite <- app_assoc. reflexivity.
Qed.

Lemma traits_loop_complete : forall l ts, arg_list l ts -> forall ps, l = map Trait ps ->
  forall fuel acc, length ts < fuel -> parse_traits_loop fuel ts acc = Some (acc ++ map named ps).
Proof.
  induction 1 as [|a w W|a l w rest W HA IH]; intros ps E fuel acc L.
  - destruct ps; [|discriminate E]. destruct fuel; [lia|]. cbn. rewrite app_nil_r. reflexivity.
  - destruct ps as [|p [|]]; try discriminate E. injection E as ->. destruct fuel as [|fuel]; [lia|].
    cbn [parse_traits_loop]. pose proof (written_ne _ _ W) as NE.
    destruct w as [|t0 w0] eqn:EW; [congruence|]. rewrite <- EW in *.
    pose proof (parse_path_complete p w [] W I) as HP. rewrite app_nil_r in HP. rewrite HP. reflexivity.
  - destruct ps as [|p ps]; try discriminate E. injection E as -> ->. destruct fuel as [|fuel]; [lia|].
    cbn [parse_traits_loop]. pose proof (written_ne _ _ W) as NE.
    destruct w as [|t0 w0] eqn:EW; [congruence|]. rewrite <- EW in *.
    rewrite (parse_path_complete p w (TkComma :: rest) W I).
    assert (X : w ++ TkComma :: rest = t0 :: w0 ++ TkComma :: rest) by (rewrite EW; reflexivity).
    rewrite X. cbv zeta. rewrite (IH ps eq_refl).
    + rewrite <- app_assoc. reflexivity.
    + rewrite app_length in L. cbn in L. lia.
Qed.

Theorem parse_traits_grammar ts args :
  parse_traits ts = Some args <-> exists ps, arg_list (map Trait ps) ts /\ args = map named ps.
Proof.
  unfold parse_traits. split.
  - intros H. apply traits_loop_sound in H. exact H.
  - intros (ps & HA & ->). apply (traits_loop_complete _ _ HA ps eq_refl). lia.
Qed.

(** ** The table and the documentation *)

(** The table with its traits: feature, names, trait. *)
Definition lines : list (option string * list string * option string) :=
  map (fun x => (en_feature (fst x), en_names (fst x), snd x)) (combine derives entry_traits).

Definition doc_lines : list (option string * list string * option string) :=
  map (fun l => (doc_feature l, doc_names l, Some (doc_trait l))) documented
  ++ [(Some "transpose_methods", ["Transpose"], None)].

Definition ostr_eqb (a b : option string) : bool :=
  match a, b with Some x, Some y => x =? y | None, None => true | _, _ => false end.
Definition line_eqb (a b : option string * list string * option string) : bool :=
  ostr_eqb (fst (fst a)) (fst (fst b)) && toks_eqb (snd (fst a)) (snd (fst b)) && ostr_eqb (snd a) (snd b).

Lemma ostr_eqb_eq a b : ostr_eqb a b = true -> a = b.
Proof.
  destruct a, b; cbn; try discriminate; auto. intros H. apply String.eqb_eq in H. congruence.
Qed.
Lemma line_eqb_eq a b : line_eqb a b = true -> a = b.
Proof.
  destruct a as [[? ?] ?], b as [[? ?] ?]. unfold line_eqb. cbn.
  rewrite !andb_true_iff. intros [[H1 H2] H3]. apply ostr_eqb_eq in H1, H3. apply toks_eqb_eq in H2. congruence.
Qed.

Definition sub_lines (a b : list (option string * list string * option string)) : bool :=
  forallb (fun x => existsb (line_eqb x) b) a.

Lemma sub_lines_in a b : sub_lines a b = true -> forall x, In x a -> In x b.
Proof.
  intros H x Hx. unfold sub_lines in H. rewrite forallb_forall in H. specialize (H x Hx).
  apply existsb_exists in H. destruct H as (y & Hy & E). apply line_eqb_eq in E. congruence.
Qed.

Lemma lines_documented x : In x lines <-> In x doc_lines.
Proof. split; apply sub_lines_in; vm_compute; reflexivity. Qed.

Lemma all_names_nodup : NoDup (flat_map en_names derives).
Proof. apply nodup_dec_params. vm_compute. reflexivity. Qed.

Lemma lines_length : length derives = length entry_traits.
Proof. reflexivity. Qed.

Lemma nodup_app_r {A} (l m : list A) : NoDup (l ++ m) -> NoDup m.
Proof. induction l as [|x l IH]; cbn; [auto|]. intros H. inversion H; auto. Qed.

Lemma nodup_app_disj {A} (l m : list A) x : NoDup (l ++ m) -> In x l -> In x m -> False.
Proof.
  induction l as [|y l IH]; cbn; intros H [].
  - subst y. inversion H as [|? ? Hn _]; subst. intros K. apply Hn, in_or_app. right. exact K.
  - inversion H; auto.
Qed.

(** Names determine lines. *)
Lemma names_entry : forall (l : list entry), NoDup (flat_map en_names l) ->
  forall j k e f s, nth_error l j = Some e -> nth_error l k = Some f ->
  In s (en_names e) -> In s (en_names f) -> j = k.
Proof.
  induction l as [|x l IH]; intros ND [|j] [|k] e f s Hj Hk He Hf; try discriminate; auto.
  - injection Hj as <-. cbn in Hk. apply nth_error_In in Hk. exfalso. cbn in ND.
    apply (nodup_app_disj _ _ s ND He). apply in_flat_map. exists f. auto.
  - injection Hk as <-. cbn in Hj. apply nth_error_In in Hj. exfalso. cbn in ND.
    apply (nodup_app_disj _ _ s ND Hf). apply in_flat_map. exists e. auto.
  - f_equal. apply (IH (nodup_app_r _ _ ND) j k e f s Hj Hk He Hf).
Qed.

(** A line of the table. *)
Definition line (k : nat) (e : entry) (n : option string) : Prop :=
  nth_error derives k = Some e /\ nth_error entry_traits k = Some n.

Lemma line_lines k e n : line k e n -> In (en_feature e, en_names e, n) lines.
Proof.
  intros [H1 H2]. unfold lines. apply in_map_iff. exists (e, n). split; [reflexivity|].
  revert k H1 H2. generalize derives entry_traits.
  induction l as [|x l IH]; intros [|y m] [|k] H1 H2; try discriminate; cbn in *.
  - injection H1 as ->. injection H2 as ->. auto.
  - right. eapply IH; eauto.
Qed.

Lemma lines_line f names n :
  In (f, names, n) lines -> exists k e, line k e n /\ en_feature e = f /\ en_names e = names.
Proof.
  unfold lines, line. intros H. apply in_map_iff in H. destruct H as ([e n'] & E & Hin).
  cbn in E. injection E as <- <- <-.
  revert Hin. generalize derives entry_traits.
  induction l as [|x l IH]; intros [|y m] Hin; try destruct Hin as [].
  - injection H as -> ->. exists 0, e. auto.
  - destruct (IH m H) as (k & e0 & [L1 L2] & F1 & F2). exists (S k), e0. auto.
Qed.

Lemma enabled_spec feat f : enabled feat f = true <-> forall x, f = Some x -> feat x = true.
Proof.
  destruct f as [x|]; cbn; split; try discriminate; auto.
  - intros H y E. injection E as <-. exact H.
Qed.

Lemma names_it_spec l s : names_it l s = true <-> In s l.
Proof.
  unfold names_it. rewrite existsb_exists. split.
  - intros (x & Hx & E). apply String.eqb_eq in E. congruence.
  - intros H. exists s. split; [exact H|apply String.eqb_refl].
Qed.

(** A name is looked up as the line that has it. *)
Lemma get_derive_line feat s k e n :
  line k e n -> In s (en_names e) -> enabled feat (en_feature e) = true ->
  get_derive feat s = Some (en_derive e).
Proof.
  intros [H1 H2] Hs He. unfold get_derive.
  destruct (find _ derives) as [e'|] eqn:F.
  - apply find_some in F. destruct F as [Hin Hb]. apply andb_true_iff in Hb. destruct Hb as [_ Hn].
    apply names_it_spec in Hn. apply In_nth_error in Hin. destruct Hin as [j Hj].
    assert (j = k) by (apply (names_entry _ all_names_nodup j k e' e s); auto). subst j. congruence.
  - apply nth_error_In in H1. pose proof (find_none _ _ F e H1) as X. cbn in X.
    rewrite He in X. cbn in X. apply names_it_spec in Hs. congruence.
Qed.

Lemma get_derive_found feat s f :
  get_derive feat s = Some f ->
  exists k e n, line k e n /\ In s (en_names e) /\ enabled feat (en_feature e) = true /\ f = en_derive e
    /\ derive_ok n f.
Proof.
  intros H. apply get_derive_ok in H. destruct H as (k & e & n & H1 & H2 & H3 & H4 & H5 & H6).
  exists k, e, n. split; [split; assumption|]. auto.
Qed.

(** A name means a documented trait exactly when its line is enabled. *)
Lemma means_line feat s tr :
  means feat s tr <->
  exists k e, line k e (Some tr) /\ In s (en_names e) /\ enabled feat (en_feature e) = true.
Proof.
  split.
  - intros (l & Hl & Hs & <- & Hf).
    assert (K : In (doc_feature l, doc_names l, Some (doc_trait l)) lines).
    { apply lines_documented. unfold doc_lines. apply in_or_app. left. apply in_map_iff. exists l. auto. }
    apply lines_line in K. destruct K as (k & e & L & E1 & E2). exists k, e. rewrite E1, E2.
    split; [exact L|]. split; [exact Hs|]. apply enabled_spec, Hf.
  - intros (k & e & L & Hs & He). apply line_lines in L. apply lines_documented in L.
    unfold doc_lines in L. apply in_app_or in L. destruct L as [L|[L|[]]]; [|discriminate L].
    apply in_map_iff in L. destruct L as (l & E & Hl). injection E as E1 E2 E3.
    exists l. rewrite E2, E3, E1. repeat split; auto. apply enabled_spec, He.
Qed.

Lemma transpose_line feat s :
  is_transpose feat s <->
  exists k e, line k e None /\ In s (en_names e) /\ enabled feat (en_feature e) = true.
Proof.
  split.
  - intros [-> Hf].
    assert (K : In (Some "transpose_methods", ["Transpose"], None) lines).
    { apply lines_documented. unfold doc_lines. apply in_or_app. right. left. reflexivity. }
    apply lines_line in K. destruct K as (k & e & L & E1 & E2). exists k, e. rewrite E1, E2.
    split; [exact L|]. split; [left; reflexivity|exact Hf].
  - intros (k & e & L & Hs & He). apply line_lines in L. apply lines_documented in L.
    unfold doc_lines in L. apply in_app_or in L. destruct L as [L|[L|[]]].
    + apply in_map_iff in L. destruct L as (l & E & Hl). discriminate E.
    + injection L as E1 E2. rewrite <- E2 in Hs. rewrite <- E1 in He. destruct Hs as [<-|[]]. split; auto.
Qed.

Lemma unsupported_none feat s : unsupported feat s <-> get_derive feat s = None.
Proof.
  split.
  - intros [H1 H2]. destruct (get_derive feat s) as [f|] eqn:G; [|reflexivity].
    apply get_derive_found in G. destruct G as (k & e & n & L & Hs & He & _). exfalso. destruct n as [tr|].
    + apply (H1 tr). apply means_line. exists k, e. auto.
    + apply H2. apply transpose_line. exists k, e. auto.
  - intros G. split.
    + intros tr M. apply means_line in M. destruct M as (k & e & L & Hs & He).
      rewrite (get_derive_line feat s k e _ L Hs He) in G. discriminate G.
    + intros M. apply transpose_line in M. destruct M as (k & e & L & Hs & He).
      rewrite (get_derive_line feat s k e _ L Hs He) in G. discriminate G.
Qed.

(** ** Aliases *)

(** The alias of a name is another name on the same line. *)
Definition alias_lines_ok : bool :=
  forallb (fun a => existsb (fun e => ostr_eqb (en_feature e) (fst a) && toks_eqb (en_names e) (snd a)
                                      && (length (en_names e) =? 2)%nat) derives) alias_table.

Lemma get_alias_in_spec feat s x : forall t,
  get_alias_in t feat s = Some x ->
  exists f names, In (f, names) t /\ enabled feat f = true /\ other_name names s = Some x.
Proof.
  induction t as [|[f names] t IH]; intros H; [discriminate H|]. cbn in H.
  destruct (enabled feat f) eqn:E.
  - destruct (other_name names s) as [y|] eqn:O.
    + injection H as ->. exists f, names. split; [left; reflexivity|auto].
    + destruct (IH H) as (f' & n' & Hin & K). exists f', n'. split; [right; exact Hin|exact K].
  - destruct (IH H) as (f' & n' & Hin & K). exists f', n'. split; [right; exact Hin|exact K].
Qed.

Lemma alias_lines : alias_lines_ok = true.
Proof. vm_compute. reflexivity. Qed.

Lemma get_alias_spec feat s x :
  get_alias feat s = Some x ->
  exists k e n, line k e n /\ enabled feat (en_feature e) = true /\ In s (en_names e) /\ In x (en_names e) /\ s <> x
    /\ (forall y, In y (en_names e) -> y = s \/ y = x).
Proof.
  intros H. apply get_alias_in_spec in H. destruct H as (f & names & Hin & He & O).
  pose proof alias_lines as A. unfold alias_lines_ok in A. rewrite forallb_forall in A. specialize (A _ Hin).
  apply existsb_exists in A. destruct A as (e & Hine & E). cbn [fst snd] in E.
  rewrite !andb_true_iff in E. destruct E as [[E1 E2] E3].
  apply ostr_eqb_eq in E1. apply toks_eqb_eq in E2. apply Nat.eqb_eq in E3.
  apply In_nth_error in Hine. destruct Hine as [k Hk].
  assert (Hn : exists n, nth_error entry_traits k = Some n).
  { destruct (nth_error entry_traits k) eqn:N; [eauto|]. apply nth_error_None in N.
    assert (k < length derives) by (apply nth_error_Some; congruence). rewrite lines_length in H. lia. }
  destruct Hn as [n Hn]. exists k, e, n. split; [split; assumption|]. rewrite E1. split; [exact He|].
  rewrite E2 in *. destruct names as [|n0 [|n1 [|]]]; try discriminate E3.
  assert (ND : n0 <> n1).
  { pose proof all_names_nodup as ND. apply nth_error_In in Hk. apply in_split in Hk. destruct Hk as (l1 & l2 & El).
    rewrite El, flat_map_app in ND. apply nodup_app_r in ND. cbn in ND. rewrite E2 in ND. cbn in ND.
    inversion ND; subst. intros ->. apply H1. left. reflexivity. }
  unfold other_name in O. destruct (s =? n0) eqn:S0.
  - apply String.eqb_eq in S0. injection O as <-. subst. cbn. repeat split; auto.
    intros y [<-|[<-|[]]]; auto.
  - destruct (s =? n1) eqn:S1; [|discriminate O]. apply String.eqb_eq in S1. injection O as <-. subst. cbn.
    repeat split; auto. intros y [<-|[<-|[]]]; auto.
Qed.

Lemma alias_derive feat s x :
  get_alias feat s = Some x -> get_derive feat x = get_derive feat s /\ get_derive feat s <> None.
Proof.
  intros H. apply get_alias_spec in H. destruct H as (k & e & n & L & He & Hs & Hx & _).
  rewrite (get_derive_line _ _ _ _ _ L Hs He), (get_derive_line _ _ _ _ _ L Hx He). split; [reflexivity|discriminate].
Qed.

(** ** The requests *)

Lemma exists_alias_spec feat s v :
  exists_alias feat s v = true -> exists x r, get_alias feat s = Some x /\ In r v /\ fst r = x.
Proof.
  unfold exists_alias. destruct (get_alias feat s) as [x|]; [|discriminate]. intros H.
  apply existsb_exists in H. destruct H as (r & Hr & E). apply String.eqb_eq in E. exists x, r. auto.
Qed.

(** The dependencies that one argument adds. *)
Definition missing (feat : features) (args : list (string * path)) (s : string) : list string :=
  filter (fun x => negb (existsb (fun a => fst a =? x) args)) (get_trait_deps feat s).

Lemma missing_spec feat args s x :
  In x (missing feat args s) <-> In x (get_trait_deps feat s) /\ ~ In x (map fst args).
Proof.
  unfold missing. rewrite filter_In, negb_true_iff, <- not_true_iff_false, existsb_exists.
  split; intros [H1 H2]; split; auto; intros K; apply H2.
  - apply in_map_iff in K. destruct K as (a & E & Ha). exists a. split; [exact Ha|]. rewrite E. apply String.eqb_refl.
  - destruct K as (a & Ha & E). apply String.eqb_eq in E. apply in_map_iff. exists a. auto.
Qed.

Definition push_dep (feat : features) (v : list request) (t : string) : list request :=
  if exists_alias feat t v then v else v ++ [(t, None)].

Lemma add_deps_eq feat args s v :
  add_deps feat args s v = fold_left (push_dep feat) (missing feat args s) v.
Proof. reflexivity. Qed.

(** Requests for the same derive function. *)
Definition covered (feat : features) (s : string) (v : list request) : Prop :=
  exists r, In r v /\ get_derive feat (fst r) = get_derive feat s.

Lemma covered_mono feat s v w : covered feat s v -> covered feat s (v ++ w).
Proof. intros (r & Hr & E). exists r. split; [apply in_or_app; auto|exact E]. Qed.

Lemma push_dep_ext feat v t : exists w, push_dep feat v t = v ++ w.
Proof. unfold push_dep. destruct (exists_alias _ _ _); [exists []; rewrite app_nil_r|eexists]; reflexivity. Qed.

Lemma push_deps_ext feat l : forall v, exists w, fold_left (push_dep feat) l v = v ++ w.
Proof.
  induction l as [|t l IH]; intros v; cbn; [exists []; rewrite app_nil_r; reflexivity|].
  destruct (push_dep_ext feat v t) as (w1 & ->). destruct (IH (v ++ w1)) as (w2 & ->).
  exists (w1 ++ w2). rewrite app_assoc. reflexivity.
Qed.

Lemma push_dep_covers feat v t : covered feat t (push_dep feat v t).
Proof.
  unfold push_dep. destruct (exists_alias feat t v) eqn:E.
  - apply exists_alias_spec in E. destruct E as (x & r & A & Hr & <-). exists r. split; [exact Hr|].
    apply alias_derive in A. apply A.
  - exists (t, None). split; [apply in_or_app; right; left; reflexivity|reflexivity].
Qed.

Lemma push_deps_covers feat : forall l v t, In t l -> covered feat t (fold_left (push_dep feat) l v).
Proof.
  induction l as [|u l IH]; intros v t H; [destruct H|]. cbn. destruct H as [->|H].
  - destruct (push_deps_ext feat l (push_dep feat v t)) as (w & ->). apply covered_mono, push_dep_covers.
  - apply IH, H.
Qed.

Lemma add_arg_ext feat args v a : exists w, add_arg feat args v a = v ++ w.
Proof.
  unfold add_arg. cbv zeta. rewrite add_deps_eq.
  destruct (push_deps_ext feat (missing feat args (fst a)) v) as (w & ->).
  destruct (exists_alias _ _ _); [exists w; reflexivity|]. eexists. rewrite <- app_assoc. reflexivity.
Qed.

Lemma add_args_ext feat args l : forall v, exists w, fold_left (add_arg feat args) l v = v ++ w.
Proof.
  induction l as [|t l IH]; intros v; cbn; [exists []; rewrite app_nil_r; reflexivity|].
  destruct (add_arg_ext feat args v t) as (w1 & ->). destruct (IH (v ++ w1)) as (w2 & ->).
  exists (w1 ++ w2). rewrite app_assoc. reflexivity.
Qed.

Lemma add_arg_covers feat args v a :
  covered feat (fst a) (add_arg feat args v a)
  /\ forall t, In t (missing feat args (fst a)) -> covered feat t (add_arg feat args v a).
Proof.
  unfold add_arg. cbv zeta. rewrite add_deps_eq.
  set (v1 := fold_left _ _ v).
  assert (C : forall t, In t (missing feat args (fst a)) -> covered feat t v1)
    by (intros t Ht; apply push_deps_covers, Ht).
  destruct (exists_alias feat (fst a) v1) eqn:E.
  - split; [|exact C]. apply exists_alias_spec in E. destruct E as (x & r & A & Hr & <-). exists r. split; [exact Hr|].
    apply alias_derive in A. apply A.
  - split; [|intros t Ht; apply covered_mono, C, Ht].
    exists (fst a, Some (snd a)). split; [apply in_or_app; right; left; reflexivity|reflexivity].
Qed.

Lemma requests_cover feat args a :
  In a args ->
  covered feat (fst a) (requests feat args)
  /\ forall t, In t (missing feat args (fst a)) -> covered feat t (requests feat args).
Proof.
  intros H. unfold requests.
  assert (G : forall full, exists v w, fold_left (add_arg feat full) args [] = add_arg feat full v a ++ w).
  { intros full. apply in_split in H. destruct H as (l1 & l2 & E). rewrite E, fold_left_app. cbn [fold_left].
    destruct (add_args_ext feat full l2 (add_arg feat full (fold_left (add_arg feat full) l1 []) a)) as (w & W).
    rewrite W. eauto. }
  destruct (G args) as (v & w & W). rewrite W.
  destruct (add_arg_covers feat args v a) as [C1 C2].
  split; [apply covered_mono, C1|]. intros t Ht. apply covered_mono, C2, Ht.
Qed.

Lemma deps_covered feat args a t :
  In a args -> In t (get_trait_deps feat (fst a)) -> covered feat t (requests feat args).
Proof.
  intros Ha Ht. destruct (in_dec string_dec t (map fst args)) as [K|K].
  - apply in_map_iff in K. destruct K as (b & <- & Hb). apply (proj1 (requests_cover feat args b Hb)).
  - apply (requests_cover feat args a Ha). apply missing_spec. auto.
Qed.

(** ** What is passed on to [#[derive]] *)

(** Boolean version of [unsupported]. *)
Definition unsup (feat : features) (p : path) : bool :=
  match get_derive feat (path_text p) with None => true | Some _ => false end.

Lemma unsup_spec feat p : unsup feat p = true <-> unsupported feat (path_text p).
Proof.
  rewrite unsupported_none. unfold unsup. destruct (get_derive feat (path_text p)); split; congruence.
Qed.

Lemma push_deps_passed feat : forall l v,
  flat_map (passed feat) (fold_left (push_dep feat) l v) = flat_map (passed feat) v.
Proof.
  induction l as [|t l IH]; intros v; [reflexivity|]. cbn [fold_left]. rewrite IH. unfold push_dep.
  destruct (exists_alias feat t v); [reflexivity|]. rewrite flat_map_app. cbn.
  unfold passed at 2. cbn. destruct (get_derive feat t); cbn; rewrite app_nil_r; reflexivity.
Qed.

Lemma add_args_passed feat args : forall ps v,
  flat_map (passed feat) (fold_left (add_arg feat args) (map named ps) v)
  = flat_map (passed feat) v ++ filter (unsup feat) ps.
Proof.
  induction ps as [|p ps IH]; intros v; [cbn; rewrite app_nil_r; reflexivity|].
  cbn [map fold_left]. rewrite IH. unfold add_arg. cbv zeta. rewrite add_deps_eq.
  set (v1 := fold_left _ _ v). assert (P : flat_map (passed feat) v1 = flat_map (passed feat) v)
    by apply push_deps_passed.
  cbn [fst snd named]. cbn [filter]. unfold unsup at 2.
  destruct (exists_alias feat (path_text p) v1) eqn:E.
  - apply exists_alias_spec in E. destruct E as (x & r & A & _). apply alias_derive in A. destruct A as [_ A].
    destruct (get_derive feat (path_text p)); [|congruence]. rewrite P. reflexivity.
  - rewrite flat_map_app, P, <- app_assoc. f_equal. cbn [flat_map]. rewrite app_nil_r.
    unfold passed. cbn [fst snd]. destruct (get_derive feat (path_text p)); reflexivity.
Qed.

Lemma requests_passed feat ps :
  flat_map (passed feat) (requests feat (map named ps)) = filter (unsup feat) ps.
Proof. unfold requests. rewrite add_args_passed. reflexivity. Qed.

(** ** The output *)

(** What is known of an expansion, in terms of the arguments. *)
Lemma expansion feat ts i o :
  enum_derive feat ts i = inr o ->
  exists d ps, parse_data i = Some d /\ arg_list (map Trait ps) ts
    /\ do_enum o = add_derive (filter (unsup feat) ps) i
    /\ do_items o = all_items feat d (requests feat (map named ps))
    /\ Forall (fun r => forall f, get_derive feat (fst r) = Some f -> f d = inr (contrib feat d r))
         (requests feat (map named ps)).
Proof.
  intros H. apply enum_derive_inv in H. destruct H as (d & args & D & P & E1 & E2 & F).
  apply parse_traits_grammar in P. destruct P as (ps & HA & ->).
  destruct (parse_data_spec _ _ D) as (Ei & _). rewrite requests_passed, Ei in E1.
  exists d, ps. auto.
Qed.

Lemma contrib_in feat d rs r it :
  In r rs -> In it (snd (contrib feat d r)) -> In it (all_items feat d rs).
Proof.
  intros Hr Hi. unfold all_items. apply in_or_app. left. apply in_flat_map. exists r. auto.
Qed.

(** A covered name has its items in the output. *)
Lemma covered_items feat d rs s k e n :
  Forall (fun r => forall f, get_derive feat (fst r) = Some f -> f d = inr (contrib feat d r)) rs ->
  covered feat s rs -> line k e n -> In s (en_names e) -> enabled feat (en_feature e) = true ->
  exists pin its, en_derive e d = inr (pin, its) /\ forall it, In it its -> In it (all_items feat d rs).
Proof.
  intros F (r & Hr & E) L Hs He. rewrite (get_derive_line _ _ _ _ _ L Hs He) in E.
  rewrite Forall_forall in F. specialize (F r Hr _ E).
  exists (fst (contrib feat d r)), (snd (contrib feat d r)). split; [rewrite F; destruct (contrib feat d r); reflexivity|].
  intros it Hi. eapply contrib_in; eauto.
Qed.

Lemma covered_implements feat ts i o d ps s tr :
  enum_derive feat ts i = inr o ->
  do_items o = all_items feat d (requests feat (map named ps)) ->
  Forall (fun r => forall f, get_derive feat (fst r) = Some f -> f d = inr (contrib feat d r))
         (requests feat (map named ps)) ->
  covered feat s (requests feat (map named ps)) -> means feat s tr -> implements o tr.
Proof.
  intros H Hi F C M. apply means_line in M. destruct M as (k & e & L & Hs & He).
  destruct (covered_items _ _ _ _ _ _ _ F C L Hs He) as (pin & its & Ed & Hin).
  assert (Hok : derive_ok (Some tr) (en_derive e)).
  { destruct (get_derive_found feat s (en_derive e) (get_derive_line _ _ _ _ _ L Hs He))
      as (k' & e' & n' & L' & Hs' & _ & E' & Hok).
    destruct L as [L1 L2], L' as [L1' L2'].
    assert (k' = k) by (apply (names_entry _ all_names_nodup k' k e' e s); auto). subst k'.
    assert (n' = Some tr) by congruence. subst n'. exact Hok. }
  destruct (Hok d pin its Ed) as (_ & (g & t & Eits & Eg & Et) & _). subst its.
  exists g, t. rewrite Hi. split; [|auto]. apply Hin. left. reflexivity.
Qed.

Theorem requested_implemented feat ts i o :
  enum_derive feat ts i = inr o ->
  exists ps, arg_list (map Trait ps) ts
    /\ (forall p tr, In p ps -> means feat (path_text p) tr -> implements o tr)
    /\ (forall p, In p ps -> is_transpose feat (path_text p) ->
          has_inherent o "transpose" /\ has_inherent o "transpose_ok" /\ has_inherent o "transpose_err")
    /\ do_enum o
       = EnumItem (ei_attrs i ++ match filter (unsup feat) ps with [] => [] | l => [DDerive l] end)
           (ei_ident i) (ei_generics i) (ei_variants i).
Proof.
  intros H. destruct (expansion _ _ _ _ H) as (d & ps & D & HA & E1 & E2 & F).
  exists ps. split; [exact HA|]. split; [|split].
  - intros p tr Hp M. eapply covered_implements; eauto.
    apply (proj1 (requests_cover feat (map named ps) (named p) (in_map named _ _ Hp))).
  - intros p Hp M. apply transpose_line in M. destruct M as (k & e & L & Hs & He).
    assert (C : covered feat (path_text p) (requests feat (map named ps))).
    { apply (proj1 (requests_cover feat (map named ps) (named p) (in_map named _ _ Hp))). }
    destruct (covered_items _ _ _ _ _ _ _ F C L Hs He) as (pin & its & Ed & Hin).
    assert (Ee : en_derive e = ty_impls_transpose_derive).
    { destruct L as [L1 L2]. assert (K : k = 33).
      { revert L2. clear. intros H.
        do 62 (destruct k as [|k]; [first [discriminate H|reflexivity]|]). destruct k; discriminate H. }
      subst k. cbv in L1. injection L1 as <-. reflexivity. }
    rewrite Ee in Ed. unfold ty_impls_transpose_derive in Ed.
    destruct (check_fields d); [|discriminate Ed]. injection Ed as <- <-.
    assert (T : gi_trait (transpose_result d) = None
                /\ gi_methods (transpose_result d)
                   = [own_method d "transpose" (fun v => BMapErr (BMap BX (d_ident d) v) (d_ident d) v)]).
    { unfold transpose_result.
      destruct (fold_param_trait (fun p : toks => p) (err_fields d) (impl_new d)) as (A1 & A2 & _).
      cbn in *. rewrite A1, A2. split; reflexivity. }
    rewrite <- E2 in Hin. unfold has_inherent.
    split; [|split].
    + exists (transpose_option d). split; [apply Hin; cbn; auto|]. split; [reflexivity|].
      eexists. split; [left; reflexivity|reflexivity].
    + exists (transpose_ok d). split; [apply Hin; cbn; auto|]. split; [reflexivity|].
      eexists. split; [left; reflexivity|reflexivity].
    + exists (transpose_err d). split; [apply Hin; cbn; auto|]. split; [reflexivity|].
      eexists. split; [left; reflexivity|reflexivity].
  - rewrite E1. unfold add_derive. destruct (filter (unsup feat) ps); [|reflexivity].
    rewrite app_nil_r. destruct i; reflexivity.
Qed.

(** ** Supertraits *)

Lemma needs_deps feat s dep : needs feat s dep -> In dep (get_trait_deps feat s).
Proof.
  intros (f & deps & Hin & Hd & Hf). unfold needed in Hin.
  repeat (destruct Hin as [E|Hin]; [injection E as <- <- <-; unfold get_trait_deps; cbn;
    try (rewrite (Hf _ eq_refl)); cbn;
    repeat match goal with |- context [feat ?x] => destruct (feat x); cbn end; exact Hd|]).
  destruct Hin.
Qed.

Theorem supertraits feat ts i o ps p dep tr :
  enum_derive feat ts i = inr o -> arg_list (map Trait ps) ts ->
  In p ps -> needs feat (path_text p) dep -> means feat dep tr -> implements o tr.
Proof.
  intros H HA Hp N M. destruct (expansion _ _ _ _ H) as (d & ps' & D & HA' & E1 & E2 & F).
  assert (ps' = ps).
  { assert (A1 : parse_traits ts = Some (map named ps')) by (apply parse_traits_grammar; eauto).
    assert (A2 : parse_traits ts = Some (map named ps)) by (apply parse_traits_grammar; eauto).
    assert (E : map named ps' = map named ps) by congruence. revert E. clear.
    revert ps. induction ps' as [|a l IH]; intros [|b m] E; try discriminate; [reflexivity|].
    injection E as _ -> E. f_equal. apply IH, E. }
  subst ps'. eapply covered_implements; eauto.
  apply (deps_covered feat (map named ps) (named p)); [apply in_map, Hp|]. apply needs_deps, N.
Qed.
