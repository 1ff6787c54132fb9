(** Properties of [#[enum_derive]]: C28 - C37 and C39 - C42.

    [enum_derive feat ts i] is the attribute with the tokens [ts] as its argument on the enum [i], with the crate
    features [feat]; [inr o] is success with output [o].  The specifications are DeriveSpec.v (calls, documented
    traits, supertraits), Contracts.v (iterator contracts, errors, transposition) and CompleteSpec.v (what traits
    demand). *)

Require Import Coq.Strings.String Coq.Lists.List Coq.Bool.Bool Coq.Arith.Arith Coq.NArith.NArith.
Require Import Verif.Syntax Verif.Context Verif.TypeAnalysis Verif.AutoEnum Verif.Edits Verif.Derive Verif.DeriveTable
  Verif.EnumDerive Verif.DeriveEval Verif.DeriveSpec Verif.Contracts Verif.CompleteSpec Verif.ArgsSpec
  Verif.ForwardRun Verif.RequestRun Verif.OnceRun Verif.ContractRun Verif.TransposeRun Verif.RefuseRun
  Verif.CompleteRun Verif.DeriveTop Verif.Scope Verif.AttributeRun Verif.Samples Verif.PropExpansion.
Import ListNotations.
Open Scope string_scope.
Open Scope list_scope.

(** ** Concrete enums *)

(** [enum E<A, B> { X(A), Y(B) }] *)
Definition sample_enum : enum_item :=
  EnumItem [] "E" (Generics [(false, ["A"]); (false, ["B"])] false [])
    [VariantItem "X" (FTuple [["A"]]) None; VariantItem "Y" (FTuple [["B"]]) None].
(** [enum P<'a, T: Clone> where T: Send { U(&'a T), V(Vec<T>) }] *)
Definition sample_other : enum_item :=
  EnumItem [] "P" (Generics [(true, ["'a"]); (false, ["T"; ":"; "Clone"])] false [["T"; ":"; "Send"]])
    [VariantItem "U" (FTuple [["&"; "'a"; "T"]]) None; VariantItem "V" (FTuple [["Vec"; "<"; "T"; ">"]]) None].
(** All features. *)
Definition all_features : features := fun _ => true.
(** The output for [sample_enum]. *)
Definition derived (ts : list token) : option doutput :=
  match enum_derive all_features ts sample_enum with inr o => Some o | inl _ => None end.

(** Two counters: type [A] counts up, type [B] counts down to zero and then answers [None]; every other call
    answers with the state. *)
Definition counters : inner nat :=
  fun t tr m acc p args =>
    match p with
    | VData n =>
        if m =? "next" then
          if existsb (String.eqb "A") t then (VSome (VData n), VData (S n))
          else match n with O => (VNone, VData 0) | S k => (VSome (VData k), VData k) end
        else if m =? "len" then (VData n, p) else (VData n, p)
    | _ => (VNone, p)
    end.
(** The enum [e] at address 7. *)
Definition at7 (x : val nat) : world nat := World (fun a => if (a =? 7)%nat then Some x else None) [].

(** ** C28 *)

(** Any history of calls through references gives the results of the same calls on the value that the enum holds,
    leaves the enum in the same variant with the state that those calls leave, and touches nothing else. *)
Theorem C28_history : forall V (I : inner V) feat ts i o v t a cs p w,
  enum_derive feat ts i = inr o -> distinct_variants i -> has_variant i v t ->
  w_mem w a = Some (VEnum (ei_ident i) v p) ->
  Forall (implemented o) cs -> Forall (fun c => ~ is_source (c_trait c) (c_method c)) cs ->
  exists w', through_enum I o a cs w = Some (fst (direct I t a p cs), w')
    /\ w_mem w' a = Some (VEnum (ei_ident i) v (snd (direct I t a p cs)))
    /\ (forall b, b <> a -> w_mem w' b = w_mem w b)
    /\ w_log w' = w_log w ++ map (fun c => reach c a) cs.
Proof.
  intros V I feat ts i o v t a cs p w H DV HV Hw HI HS.
  destruct (history_forwards I _ _ _ _ v t a H DV HV cs p w Hw HI HS) as (w' & E & [M1 M2] & L).
  exists w'. auto.
Qed.
Print Assumptions C28_history.

(** The same for a method that takes the enum by value. *)
Theorem C28_consuming : forall V (I : inner V) feat ts i o v t tr m gm p args w,
  enum_derive feat ts i = inr o -> distinct_variants i -> has_variant i v t ->
  find_method o tr m = Some gm -> gm_recv gm = ROwn -> length args = length (gm_params gm) -> owned p ->
  call_method I gm (VEnum (ei_ident i) v p) args w
  = Some (fst (I t tr m ByMove p args), World (w_mem w) (w_log w ++ [ByMove])).
Proof. intros. eapply consuming_forwards; eauto. Qed.
Print Assumptions C28_consuming.

(** [E::Y(2)] with [Iterator]: [next] three times, then [size_hint]. *)
Example C28_example :
  match derived [TkIdent "Iterator"] with
  | Some o =>
      has_variant sample_enum "Y" ["B"] /\ distinct_variants sample_enum
      /\ Forall (implemented o) [next (V := nat); next; next; size_hint]
      /\ option_map fst (through_enum counters o 7 [next; next; next; size_hint] (at7 (VEnum "E" "Y" (VData 2))))
         = Some [VSome (VData 1); VSome (VData 0); VNone; VData 0]
  | None => False
  end.
Proof.
  vm_compute. split; [auto|]. split; [|split; [|reflexivity]].
  - repeat constructor; cbn; intuition discriminate.
  - repeat constructor; eexists; (split; [reflexivity|]; split; [auto|reflexivity]).
Qed.
(** [count] takes the enum by value. *)
Example C28_consuming_example :
  match derived [TkIdent "Iterator"] with
  | Some o => exists gm, find_method o (TRef "::core::iter::Iterator" []) "count" = Some gm /\ gm_recv gm = ROwn
                /\ owned (VData 5) /\ gm_params gm = []
  | None => False
  end.
Proof. vm_compute. eexists. repeat split. Qed.

(** ** C29 *)

(** After [None] only [None]. *)
Theorem C29_fused : forall V (I : inner V) feat ts i o ps p v t a x w,
  enum_derive feat ts i = inr o -> arg_list (map Trait ps) ts -> In p ps -> path_text p = "FusedIterator" ->
  distinct_variants i -> has_variant i v t -> w_mem w a = Some (VEnum (ei_ident i) v x) ->
  fused (forwarded o) (of_value I t a x) -> fused (forwarded o) (of_enum I o a w).
Proof.
  intros V I feat ts i o ps p v t a x w H HA Hp E DV HV Hw F.
  destruct (expansion _ _ _ _ H) as (d & _ & D & _).
  assert (Im : implements o "::core::iter::Iterator") by (apply (iterator_implied _ _ _ _ _ _ H HA Hp); auto).
  destruct (forwarded_next (V := V) _ _ _ _ _ H D Im) as [F1 F2].
  apply (fused_carries o _ (of_value I t a x)); auto. eapply enum_agrees; eauto.
Qed.
Print Assumptions C29_fused.

(** [size_hint] is exact. *)
Theorem C29_exact : forall V (I : inner V) feat ts i o ps p v t a x w hint,
  enum_derive feat ts i = inr o -> arg_list (map Trait ps) ts -> In p ps ->
  path_text p = "ExactSizeIterator" \/ (path_text p = "TrustedLen" /\ feat "trusted_len" = true) ->
  distinct_variants i -> has_variant i v t -> w_mem w a = Some (VEnum (ei_ident i) v x) ->
  exact (forwarded o) hint (of_value I t a x) -> exact (forwarded o) hint (of_enum I o a w).
Proof.
  intros V I feat ts i o ps p v t a x w hint H HA Hp E DV HV Hw F.
  destruct (expansion _ _ _ _ H) as (d & _ & D & _).
  assert (Im : implements o "::core::iter::Iterator") by (apply (iterator_implied _ _ _ _ _ _ H HA Hp); intuition).
  destruct (forwarded_next (V := V) _ _ _ _ _ H D Im) as [F1 F2].
  apply (exact_carries o hint _ (of_value I t a x)); auto. eapply enum_agrees; eauto.
Qed.
Print Assumptions C29_exact.

(** [len] agrees with [size_hint]. *)
Theorem C29_len : forall V (I : inner V) feat ts i o ps p v t a x w hint num,
  enum_derive feat ts i = inr o -> arg_list (map Trait ps) ts -> In p ps -> path_text p = "ExactSizeIterator" ->
  distinct_variants i -> has_variant i v t -> w_mem w a = Some (VEnum (ei_ident i) v x) ->
  len_agrees (forwarded o) hint num (of_value I t a x) -> len_agrees (forwarded o) hint num (of_enum I o a w).
Proof.
  intros V I feat ts i o ps p v t a x w hint num H HA Hp E DV HV Hw F.
  destruct (expansion _ _ _ _ H) as (d & _ & D & _).
  assert (Im : implements o "::core::iter::Iterator") by (apply (iterator_implied _ _ _ _ _ _ H HA Hp); auto).
  assert (Ie : implements o "::core::iter::ExactSizeIterator").
  { apply (requested_trait _ _ _ _ _ _ _ H HA Hp). rewrite E. apply doc_in. unfold documented. cbn. auto 10. }
  destruct (forwarded_next (V := V) _ _ _ _ _ H D Im) as [F1 F2].
  apply (len_carries o hint num _ (of_value I t a x)); auto; [eapply enum_agrees; eauto|].
  eapply forwarded_len; eauto.
Qed.
Print Assumptions C29_len.

(** Both ends take from one sequence. *)
Theorem C29_both_ends : forall V (I : inner V) feat ts i o ps p v t a x w,
  enum_derive feat ts i = inr o -> arg_list (map Trait ps) ts -> In p ps -> path_text p = "DoubleEndedIterator" ->
  distinct_variants i -> has_variant i v t -> w_mem w a = Some (VEnum (ei_ident i) v x) ->
  both_ends (forwarded o) (of_value I t a x) -> both_ends (forwarded o) (of_enum I o a w).
Proof.
  intros V I feat ts i o ps p v t a x w H HA Hp E DV HV Hw F.
  destruct (expansion _ _ _ _ H) as (d & _ & D & _).
  assert (Im : implements o "::core::iter::Iterator") by (apply (iterator_implied _ _ _ _ _ _ H HA Hp); auto).
  assert (Id : implements o "::core::iter::DoubleEndedIterator").
  { apply (requested_trait _ _ _ _ _ _ _ H HA Hp). rewrite E. apply doc_in. unfold documented. cbn. auto 10. }
  destruct (forwarded_next (V := V) _ _ _ _ _ H D Im) as [F1 F2].
  apply (both_carries o _ (of_value I t a x)); auto; [eapply enum_agrees; eauto|].
  eapply forwarded_next_back; eauto.
Qed.
Print Assumptions C29_both_ends.

(** An iterator whose items are a list: [next] and [next_back] take from its ends, [len] and [size_hint] tell its
    length, everything else leaves it alone. *)
Definition on_list : inner (list nat) :=
  fun t tr m acc p args =>
    match p with
    | VData l =>
        if m =? "next" then match l with [] => (VNone, p) | x :: r => (VSome (VData [x]), VData r) end
        else if m =? "next_back" then
          match rev l with [] => (VNone, p) | x :: r => (VSome (VData [x]), VData (rev r)) end
        else (VData [length l], p)
    | _ => (VNone, p)
    end.

(** Such an iterator is fused as long as only [next], [next_back], [len] and [size_hint] are called. *)
Lemma on_list_states t a (ok : call (list nat) -> Prop) : forall cs l, exists l',
  snd (direct on_list t a (VData l) cs) = VData l' /\ (l = [] -> l' = []).
Proof.
  induction cs as [|c cs IH]; intros l; [exists l; auto|]. cbn [direct snd].
  assert (K : exists l1, snd (on_list t (c_trait c) (c_method c) (reach c a) (VData l) (c_args c)) = VData l1
                         /\ (l = [] -> l1 = [])).
  { unfold on_list. destruct (c_method c =? "next").
    - destruct l; cbn; eauto. exists l. split; [reflexivity|discriminate].
    - destruct (c_method c =? "next_back"); [|cbn; eauto].
      destruct (rev l) eqn:R; cbn; eauto. eexists. split; [reflexivity|]. intros ->. discriminate R. }
  destruct K as (l1 & -> & N1). destruct (IH l1) as (l2 & E2 & N2). exists l2. auto.
Qed.

Lemma direct_app {V} (I : inner V) t a : forall cs cs' p,
  direct I t a p (cs ++ cs')
  = (fst (direct I t a p cs) ++ fst (direct I t a (snd (direct I t a p cs)) cs'),
     snd (direct I t a (snd (direct I t a p cs)) cs')).
Proof.
  induction cs as [|c cs IH]; intros cs' p; cbn [app direct]; [cbn; destruct (direct I t a p cs'); reflexivity|].
  rewrite IH. reflexivity.
Qed.
Lemma direct_length {V} (I : inner V) t a : forall cs p, length (fst (direct I t a p cs)) = length cs.
Proof. induction cs as [|c cs IH]; intros p; [reflexivity|]. cbn. rewrite IH. reflexivity. Qed.

Lemma on_list_answer t a l cs c :
  answer (of_value on_list t a (VData l)) cs c
  = Some (fst (on_list t (c_trait c) (c_method c) (reach c a) (snd (direct on_list t a (VData l) cs)) (c_args c))).
Proof.
  unfold answer, of_value. rewrite direct_app. cbn [fst]. rewrite nth_error_app2; rewrite direct_length; [|apply le_n].
  rewrite Nat.sub_diag. reflexivity.
Qed.

Example C29_example :
  match derived [TkIdent "FusedIterator"] with
  | Some o => fused (forwarded o) (of_value on_list ["B"] 7 (VData [3; 4]))
              /\ forwarded o (next (V := list nat))
              /\ answer (of_enum on_list o 7 (World (fun a => if (a =? 7)%nat then Some (VEnum "E" "Y" (VData [3; 4])) else None) []))
                   [next; next] next = Some VNone
  | None => False
  end.
Proof.
  destruct (derived [TkIdent "FusedIterator"]) as [o|] eqn:D; [|vm_compute in D; discriminate D]. split; [|split].
  - intros cs cs' _ _. rewrite !on_list_answer.
    destruct (on_list_states ["B"] 7 (forwarded o) cs [3; 4]) as (l & E & _). rewrite E.
    replace (cs ++ next :: cs') with ((cs ++ [next]) ++ cs') by (rewrite <- app_assoc; reflexivity).
    intros A. assert (l = []) by (destruct l; [reflexivity|discriminate A]). subst l. clear A.
    destruct (on_list_states ["B"] 7 (forwarded o) cs' []) as (l' & E' & N').
    rewrite direct_app. cbn [snd]. rewrite direct_app. cbn [snd]. rewrite E.
    assert (X : snd (direct on_list ["B"] 7 (VData []) [next]) = VData []) by reflexivity. rewrite X, E', (N' eq_refl). reflexivity.
  - vm_compute in D. injection D as <-. split.
    + eexists. split; [vm_compute; reflexivity|]. split; [right; reflexivity|reflexivity].
    + intros [X _]. discriminate X.
  - vm_compute in D. injection D as <-. vm_compute. reflexivity.
Qed.

(** ** C30 *)

(** Every requested trait is implemented, [Transpose] gives the transposing methods, and the names that are not
    supported, in order, are all that is added to the enum. *)
Theorem C30_requested : forall feat ts i o,
  enum_derive feat ts i = inr o ->
  exists ps passed, arg_list (map Trait ps) ts
    /\ (forall p tr, In p ps -> means feat (path_text p) tr -> implements o tr)
    /\ (forall p, In p ps -> is_transpose feat (path_text p) ->
          has_inherent o "transpose" /\ has_inherent o "transpose_ok" /\ has_inherent o "transpose_err")
    /\ keeps_exactly (fun p => unsupported feat (path_text p)) ps passed
    /\ do_enum o = EnumItem (ei_attrs i ++ match passed with [] => [] | l => [DDerive l] end)
                     (ei_ident i) (ei_generics i) (ei_variants i).
Proof.
  intros feat ts i o H. destruct (requested_implemented _ _ _ _ H) as (ps & H1 & H2 & H3 & H4).
  exists ps, (filter (unsup feat) ps). split; [exact H1|]. split; [exact H2|]. split; [exact H3|]. split; [|rewrite H4; destruct (filter (unsup feat) ps); reflexivity].
  clear. induction ps as [|p ps IH]; [constructor|]. cbn. destruct (unsup feat p) eqn:E.
  - apply ke_keep; [apply unsup_spec, E|exact IH].
  - apply ke_drop; [|exact IH]. intros X. apply unsup_spec in X. congruence.
Qed.
Print Assumptions C30_requested.

(** Nothing else is implemented than what was requested, what that needs, and [Unpin] (see C33). *)
Theorem C30_nothing_else : forall feat ts i o ps tr,
  enum_derive feat ts i = inr o -> arg_list (map Trait ps) ts -> implements o tr -> tr <> "::core::marker::Unpin" ->
  exists p name, In p ps /\ (name = path_text p \/ needs feat (path_text p) name) /\ means feat name tr.
Proof. intros. eapply implemented_origin; eauto. Qed.
Print Assumptions C30_nothing_else.

(** [#[enum_derive(fmt::Debug, Clone, Iterator, PartialEq)]] *)
Example C30_example :
  match derived [TkIdent "fmt"; TkColon2; TkIdent "Debug"; TkComma; TkIdent "Clone"; TkComma; TkIdent "Iterator";
                 TkComma; TkIdent "PartialEq"] with
  | Some o => impl_paths o = ["::core::fmt::Debug"; "::core::iter::Iterator"]
              /\ ei_attrs (do_enum o) = [DDerive [plain_path ["Clone"]; plain_path ["PartialEq"]]]
              /\ means all_features "fmt::Debug" "::core::fmt::Debug"
  | None => False
  end.
Proof.
  vm_compute. split; [reflexivity|]. split; [reflexivity|].
  eexists. split; [do 22 right; left; reflexivity|]. cbn. auto.
Qed.

(** ** C31 *)

(** The statement of C31 for a name that [#[enum_derive]] itself supports: what a requested trait needs is
    implemented.  Missing from C31: what a requested trait needs but [#[enum_derive]] does not support, see
    [C31_supertrait_refuted]. *)
Theorem C31_supertraits_partial : forall feat ts i o ps p dep tr,
  enum_derive feat ts i = inr o -> arg_list (map Trait ps) ts ->
  In p ps -> needs feat (path_text p) dep -> means feat dep tr -> implements o tr.
Proof. intros. eapply supertraits; eauto. Qed.
Print Assumptions C31_supertraits_partial.

(** [#[enum_derive(DoubleEndedIterator)]] also implements [Iterator]. *)
Example C31_example :
  match derived [TkIdent "DoubleEndedIterator"] with
  | Some o => implements o "::core::iter::Iterator" /\ needs all_features "DoubleEndedIterator" "Iterator"
  | None => False
  end.
Proof.
  vm_compute. split.
  - eexists _, _. split; [left; reflexivity|]. split; reflexivity.
  - exists None, ["Iterator"]. cbn. auto 20.
Qed.

(** [#[enum_derive(Copy)]]: [Copy] needs [Clone], but [Clone] is neither implemented nor derived; the output does
    not compile. *)
Theorem C31_supertrait_refuted : exists feat ts i o,
  enum_derive feat ts i = inr o /\ arg_list [Trait (plain_path ["Copy"])] ts
  /\ needs feat "Copy" "Clone"
  /\ ~ implements o "::core::clone::Clone"
  /\ forall l p, In (DDerive l) (ei_attrs (do_enum o)) -> In p l -> path_text p <> "Clone".
Proof.
  exists all_features, [TkIdent "Copy"], sample_enum. eexists. split; [vm_compute; reflexivity|].
  split; [apply al_one, (w_path ["Copy"]), sw_one|]. split; [exists None, ["Clone"]; cbn; auto|].
  split.
  - intros (g & t & [] & _).
  - intros l p [E|[]] Hp. injection E as <-. destruct Hp as [<-|[]]. discriminate.
Qed.
Print Assumptions C31_supertrait_refuted.

(** ** C32 *)

(** No trait is implemented twice, provided that no trait missing from the list is needed by two of its members.
    Without this proviso C32 is false, see [C32_twice_refuted]. *)
Theorem C32_once_partial : forall feat ts i o ps,
  enum_derive feat ts i = inr o -> arg_list (map Trait ps) ts ->
  names_no_trait_twice feat ps -> no_shared_need feat ps ->
  NoDup (impl_paths o).
Proof. intros. eapply implemented_once; eauto. Qed.
Print Assumptions C32_once_partial.

(** [#[enum_derive(Debug, DoubleEndedIterator, fmt::Debug)]] *)
Example C32_example :
  match derived [TkIdent "Debug"; TkComma; TkIdent "DoubleEndedIterator"; TkComma; TkIdent "fmt"; TkColon2; TkIdent "Debug"] with
  | Some o => impl_paths o = ["::core::fmt::Debug"; "::core::iter::Iterator"; "::core::iter::DoubleEndedIterator"]
  | None => False
  end.
Proof. vm_compute. reflexivity. Qed.
Example C32_example_hypotheses :
  let ps := [plain_path ["Debug"]; plain_path ["DoubleEndedIterator"]; plain_path ["fmt"; "Debug"]] in
  names_no_trait_twice (fun _ => false) ps /\ no_shared_need (fun _ => false) ps.
Proof.
  cbv zeta. split.
  - split; [vm_compute; repeat constructor; cbn; intuition discriminate|].
    intros p q l l' Hp Hq Hl Hl' Np Nq F E.
    assert (D : forall x y, In x documented -> In y documented -> doc_trait x = doc_trait y ->
              doc_trait x = "::core::fmt::Debug" \/ doc_trait x = "::core::iter::DoubleEndedIterator" -> x = y).
    { intros x y Hx Hy Exy [K|K]; rewrite K in Exy; symmetry in Exy; clear - Hx Hy K Exy; unfold documented in Hx, Hy;
        cbn [In] in Hx, Hy;
        repeat (destruct Hx as [<-|Hx]; [try discriminate K;
          repeat (destruct Hy as [<-|Hy]; [try discriminate Exy; reflexivity|]); destruct Hy|]); destruct Hx. }
    apply D; auto. clear D.
    assert (T : path_text p = "Debug" \/ path_text p = "DoubleEndedIterator" \/ path_text p = "fmt::Debug").
    { destruct Hp as [<-|[<-|[<-|[]]]]; vm_compute; auto. }
    clear - Hl Np T. unfold documented in Hl. cbn [In] in Hl.
    repeat (destruct Hl as [<-|Hl]; [destruct T as [T|[T|T]]; rewrite T in Np; cbn in Np;
      solve [left; reflexivity|right; reflexivity|intuition discriminate]|]). destruct Hl.
  - intros p q dep Hp Hq N (f & ds & Hin & Hd & _) (f' & ds' & Hin' & Hd' & _). exfalso.
    assert (P : forall x, In x [plain_path ["Debug"]; plain_path ["DoubleEndedIterator"]; plain_path ["fmt"; "Debug"]] ->
              forall g es, In (path_text x, g, es) needed -> path_text x = "DoubleEndedIterator").
    { intros x [<-|[<-|[<-|[]]]] g es X; [|reflexivity|]; exfalso; unfold needed in X; cbn in X;
        repeat (destruct X as [X|X]; [discriminate X|]); exact X. }
    pose proof (P p Hp _ _ Hin) as E1. pose proof (P q Hq _ _ Hin') as E2. apply N.
    destruct Hp as [<-|[<-|[<-|[]]]]; try discriminate E1; destruct Hq as [<-|[<-|[<-|[]]]]; try discriminate E2; reflexivity.
Qed.

(** [#[enum_derive(DoubleEndedIterator, ExactSizeIterator)]] implements [Iterator] twice; the output does not
    compile. *)
Theorem C32_twice_refuted : exists feat ts i o ps,
  enum_derive feat ts i = inr o /\ arg_list (map Trait ps) ts
  /\ map path_text ps = ["DoubleEndedIterator"; "ExactSizeIterator"]
  /\ impl_paths o = ["::core::iter::Iterator"; "::core::iter::DoubleEndedIterator";
                     "::core::iter::Iterator"; "::core::iter::ExactSizeIterator"].
Proof.
  exists all_features, [TkIdent "DoubleEndedIterator"; TkComma; TkIdent "ExactSizeIterator"], sample_enum. eexists.
  exists [plain_path ["DoubleEndedIterator"]; plain_path ["ExactSizeIterator"]].
  split; [vm_compute; reflexivity|]. split; [|split; vm_compute; reflexivity].
  apply (al_cons _ _ [TkIdent "DoubleEndedIterator"]); [apply (w_path ["DoubleEndedIterator"]), sw_one|].
  apply al_one, (w_path ["ExactSizeIterator"]), sw_one.
Qed.
Print Assumptions C32_twice_refuted.

(** ** C33 *)

(** If a generated method projects a pinned enum to a field, there is exactly one implementation of [Unpin], for
    the enum itself with its own parameters, and exactly one item that forbids [Drop], for the same; otherwise
    there is neither. *)
Theorem C33_guards : forall feat ts i o,
  enum_derive feat ts i = inr o ->
  (projects_pin o ->
     exists u, unpin_impls o = [u] /\ gi_self u = None /\ gi_params u = params_in_order i
       /\ drop_guards o = [(params_in_order i, ei_ident i, gn_where (ei_generics i))])
  /\ (~ projects_pin o -> unpin_impls o = [] /\ drop_guards o = []).
Proof.
  intros feat ts i o H. destruct (guards _ _ _ _ H) as [G1 G2]. split; [|exact G2].
  intros P. destruct (G1 P) as (u & E1 & E2 & E3 & _ & E4). exists u. auto.
Qed.
Print Assumptions C33_guards.

(** [Future] and [futures03::Stream] together; and [Iterator]. *)
Example C33_example :
  match derived [TkIdent "Future"; TkComma; TkIdent "futures03"; TkColon2; TkIdent "Stream"], derived [TkIdent "Iterator"] with
  | Some o, Some o' => projects_pin o /\ length (unpin_impls o) = 1 /\ length (drop_guards o) = 1
                       /\ ~ projects_pin o' /\ unpin_impls o' = []
  | _, _ => False
  end.
Proof.
  vm_compute. split; [|split; [reflexivity|split; [reflexivity|split; [|reflexivity]]]].
  - eexists _, _. split; [left; reflexivity|]. split; [left; reflexivity|reflexivity].
  - intros (g & m & [E|[]] & Hm & S). injection E as <-. cbn in Hm.
    repeat (destruct Hm as [<-|Hm]; [discriminate S|]). destruct Hm.
Qed.

(** ** C34 *)

(** The implementation of [Unpin] applies exactly if the enum's own where clause holds and every field is
    [Unpin]; [holds] says which predicates hold. *)
Theorem C34_unpin : forall feat ts i o u (holds : wpred -> Prop),
  enum_derive feat ts i = inr o -> In u (unpin_impls o) ->
  (applies holds u <->
   (forall x, In x (gn_where (ei_generics i)) -> holds (WUser x))
   /\ forall v t, has_variant i v t -> holds (WBound t (TRef "::core::marker::Unpin" []) [])).
Proof. intros. eapply unpin_exactly; eauto. Qed.
Print Assumptions C34_unpin.

(** In any history of calls on a pinned enum, the field is reached only through pinned references to the place it
    was pinned at, and the enum stays there in its variant. *)
Theorem C34_pinned : forall V (I : inner V) feat ts i o v t a cs p w,
  enum_derive feat ts i = inr o -> distinct_variants i -> has_variant i v t ->
  w_mem w a = Some (VEnum (ei_ident i) v p) ->
  Forall (forwarded o) cs -> Forall (fun c => c_pinned c = true) cs ->
  exists r w', through_enum I o a cs w = Some (r, w')
    /\ w_log w' = w_log w ++ repeat (ByPin a) (length cs)
    /\ (exists q, w_mem w' a = Some (VEnum (ei_ident i) v q)) /\ forall b, b <> a -> w_mem w' b = w_mem w b.
Proof. intros. eapply pinned_history; eauto. Qed.
Print Assumptions C34_pinned.

(** The call [poll(cx)]. *)
Definition poll : call nat := Call (TRef "::core::future::Future" []) "poll" true [VNone].
Example C34_example :
  match derived [TkIdent "Future"] with
  | Some o => (exists u, In u (unpin_impls o)
                 /\ gi_where u = [WBound ["A"] (TRef "::core::marker::Unpin" []) [];
                                  WBound ["B"] (TRef "::core::marker::Unpin" []) []])
              /\ forwarded o poll
              /\ option_map (fun x => w_log (snd x)) (through_enum counters o 7 [poll; poll] (at7 (VEnum "E" "X" (VData 2))))
                 = Some [ByPin 7; ByPin 7]
  | None => False
  end.
Proof.
  vm_compute. split; [|split; [|reflexivity]].
  - eexists. split; [left; reflexivity|reflexivity].
  - split; [|intros [X _]; discriminate X]. eexists. split; [reflexivity|]. split; reflexivity.
Qed.

(** ** C35 *)

(** [source] of the enum is a reference to the held error, and nothing is changed. *)
Theorem C35_source : forall V (I : inner V) feat ts i o ps p v t a x w,
  enum_derive feat ts i = inr o -> arg_list (map Trait ps) ts -> In p ps -> path_text p = "Error" ->
  feat "std" = true -> has_variant i v t -> w_mem w a = Some (VEnum (ei_ident i) v x) ->
  exists m r, find_method o (TRef "::std::error::Error" []) "source" = Some m
    /\ call_method I m (VRef a) [] w = Some (VSome r, w) /\ pointee w r = Some x.
Proof.
  intros V I feat ts i o ps p v t a x w H HA Hp E F HV Hw.
  destruct (error_implied _ _ _ _ _ _ H HA Hp E F) as (Im & _).
  destruct (source_answer I _ _ _ _ v t a x w H HV Im Hw) as (m & E1 & E2).
  exists m, (VField a). split; [exact E1|]. split; [exact E2|]. cbn. rewrite Hw. reflexivity.
Qed.
Print Assumptions C35_source.

(** Chains: following [source] through any number of enums around an error leads to that error, and from there on
    along its own chain. *)
Theorem C35_chain : forall V (I : inner V) src ls x n,
  Forall (fun l => forall y, src (VEnum (fst (fst l)) (snd l) y)
                             = source_of I (snd (fst l)) (VEnum (fst (fst l)) (snd l) y)) ls ->
  Forall (fun l => exists feat ts i t, enum_derive feat ts i = inr (snd (fst l)) /\ fst (fst l) = ei_ident i
                     /\ has_variant i (snd l) t /\ implements (snd (fst l)) "::std::error::Error") ls ->
  follow src (length ls + n) (layered ls x) = follow src n x.
Proof. intros V I src ls x n H1 H2. apply (chain I); assumption. Qed.
Print Assumptions C35_chain.

(** [Debug] and [Display] give what they give for the held error. *)
Theorem C35_fmt : forall V (I : inner V) feat ts i o ps p v t a x w f name,
  enum_derive feat ts i = inr o -> arg_list (map Trait ps) ts -> In p ps -> path_text p = "Error" ->
  feat "std" = true -> distinct_variants i -> has_variant i v t -> w_mem w a = Some (VEnum (ei_ident i) v x) ->
  name = "::core::fmt::Debug" \/ name = "::core::fmt::Display" ->
  answer (of_enum I o a w) [] (Call (TRef name []) "fmt" false [f])
  = Some (fst (I t (TRef name []) "fmt" (ByRef a) x [f])).
Proof.
  intros V I feat ts i o ps p v t a x w f name H HA Hp E F DV HV Hw N.
  destruct (error_implied _ _ _ _ _ _ H HA Hp E F) as (_ & Id & Ip).
  destruct (expansion _ _ _ _ H) as (d & _ & D & _).
  assert (Fw : forwarded o (Call (TRef name []) "fmt" false [f])).
  { destruct N as [->| ->].
    - apply (fmt_forwarded _ _ _ _ _ "Debug" f H D); auto.
    - apply (fmt_forwarded _ _ _ _ _ "Display" f H D); auto. }
  rewrite (agree_answer o _ (of_value I t a x) [] _ (enum_agrees I _ _ _ _ _ _ _ _ _ H DV HV Hw) (Forall_nil _) Fw).
  reflexivity.
Qed.
Print Assumptions C35_fmt.

Example C35_example :
  match derived [TkIdent "Error"] with
  | Some o =>
      source_of counters o (VEnum "E" "X" (VEnum "E" "Y" (VData 3))) = Some (VEnum "E" "Y" (VData 3))
      /\ follow (source_of counters o) 2 (layered [("E", o, "X"); ("E", o, "Y")] (VData 3)) = Some (VData 3)
      /\ implements o "::std::error::Error"
  | None => False
  end.
Proof.
  vm_compute. split; [reflexivity|]. split; [reflexivity|].
  eexists _, _. split; [do 2 right; left; reflexivity|]. split; reflexivity.
Qed.

(** ** C36 *)

(** The four methods and what they do. *)
Theorem C36_transpose : forall V (I : inner V) feat ts i o ps p,
  enum_derive feat ts i = inr o -> arg_list (map Trait ps) ts -> In p ps -> is_transpose feat (path_text p) ->
  exists m1 m2 m3 m4,
    find_inherent o (options (all_fields i)) "transpose" = Some m1
    /\ find_inherent o (both_results (all_fields i)) "transpose" = Some m2
    /\ find_inherent o (results (all_fields i)) "transpose_ok" = Some m3
    /\ find_inherent o (failures (all_fields i)) "transpose_err" = Some m4
    /\ forall v t x w, has_variant i v t ->
         let call m y := call_method I m (VEnum (ei_ident i) v y) [] w in
         let held := VEnum (ei_ident i) v x in
         call m1 (VSome x) = Some (VSome held, w) /\ call m1 VNone = Some (VNone, w)
         /\ call m2 (VOk x) = Some (VOk held, w) /\ call m2 (VErr x) = Some (VErr held, w)
         /\ call m3 (VOk x) = Some (VOk held, w) /\ call m3 (VErr x) = Some (VErr x, w)
         /\ call m4 (VErr x) = Some (VErr held, w) /\ call m4 (VOk x) = Some (VOk x, w).
Proof. intros. eapply transposition; eauto. Qed.
Print Assumptions C36_transpose.

(** Undoing: from the transposed side the value before the call is recovered. *)
Theorem C36_undo : forall V (I : inner V) feat ts i o ps p,
  enum_derive feat ts i = inr o -> arg_list (map Trait ps) ts -> In p ps -> is_transpose feat (path_text p) ->
  forall name self m v t y w r w',
  (name, self) = ("transpose", options (all_fields i)) /\ (exists x, y = VSome x)
  \/ (name, self) = ("transpose", both_results (all_fields i)) /\ (exists x, y = VOk x \/ y = VErr x)
  \/ (name, self) = ("transpose_ok", results (all_fields i)) /\ (exists x, y = VOk x)
  \/ (name, self) = ("transpose_err", failures (all_fields i)) /\ (exists x, y = VErr x) ->
  find_inherent o self name = Some m -> has_variant i v t ->
  call_method I m (VEnum (ei_ident i) v y) [] w = Some (r, w') ->
  untranspose r = VEnum (ei_ident i) v y /\ w' = w.
Proof.
  intros V I feat ts i o ps p H HA Hp M name self m v t y w r w' C Fm HV R.
  destruct (transposition I _ _ _ _ _ _ H HA Hp M) as (m1 & m2 & m3 & m4 & F1 & F2 & F3 & F4 & K).
  destruct C as [(E & x & Ey)|[(E & x & Ey)|[(E & x & Ey)|(E & x & Ey)]]]; injection E as -> ->.
  - rewrite F1 in Fm. injection Fm as <-. subst y. destruct (K v t x w HV) as (L & _). rewrite L in R.
    injection R as <- <-. auto.
  - rewrite F2 in Fm. injection Fm as <-. destruct (K v t x w HV) as (_ & _ & L1 & L2 & _).
    destruct Ey as [-> | ->]; [rewrite L1 in R|rewrite L2 in R]; injection R as <- <-; auto.
  - rewrite F3 in Fm. injection Fm as <-. subst y. destruct (K v t x w HV) as (_ & _ & _ & _ & L & _). rewrite L in R.
    injection R as <- <-. auto.
  - rewrite F4 in Fm. injection Fm as <-. subst y. destruct (K v t x w HV) as (_ & _ & _ & _ & _ & _ & L & _). rewrite L in R.
    injection R as <- <-. auto.
Qed.
Print Assumptions C36_undo.

Example C36_example :
  match derived [TkIdent "Transpose"] with
  | Some o =>
      is_transpose all_features "Transpose"
      /\ match find_inherent o (both_results (all_fields sample_enum)) "transpose" with
         | Some m => option_map fst (call_method counters m (VEnum "E" "Y" (VErr (VData 4))) [] (at7 VNone))
                     = Some (VErr (VEnum "E" "Y" (VData 4)))
         | None => False
         end
  | None => False
  end.
Proof. vm_compute. repeat split. Qed.

(** Two enum values that hold [None] in different variants are transposed to the same [None], so that cannot be
    undone: [C36_undo] cannot be extended to the untransposed side. *)
Theorem C36_none_forgets_variant : exists feat ts i o m w,
  enum_derive feat ts i = inr o /\ find_inherent o (options (all_fields i)) "transpose" = Some m
  /\ call_method counters m (VEnum "E" "X" VNone) [] w = Some (VNone, w)
  /\ call_method counters m (VEnum "E" "Y" VNone) [] w = Some (VNone, w).
Proof.
  exists all_features, [TkIdent "Transpose"], sample_enum. eexists. eexists. exists (at7 VNone).
  split; [vm_compute; reflexivity|]. split; [vm_compute; reflexivity|]. split; reflexivity.
Qed.
Print Assumptions C36_none_forgets_variant.

(** ** C37 *)

(** With [Transpose] in the list, the attribute succeeds exactly if the generic parameters as written are the
    field types; otherwise it fails as a whole with this message.  [sensible_tokens] is what the Rust parser
    guarantees: parameters and types are not empty and have complete groups, and a lifetime is not a type. *)
Theorem C37_transpose_accepted : forall feat ts i ps p,
  newtype_variants i -> sensible_tokens i ->
  arg_list (map Trait ps) ts -> In p ps -> is_transpose feat (path_text p) ->
  (map snd (gn_params (ei_generics i)) = all_fields i -> exists o, enum_derive feat ts i = inr o)
  /\ (map snd (gn_params (ei_generics i)) <> all_fields i ->
      enum_derive feat ts i = inl (ErrDerive "Transpose" "all fields need to be generics")).
Proof.
  intros feat ts i ps p N S HA Hp M. destruct (proj1 (newtype_spec _) N) as (d & D).
  pose proof (check_fields_spec _ _ D S) as C. split.
  - intros E. apply succeeds_exactly. exists d, ps. split; [exact D|]. split; [exact HA|]. intros _. apply C, E.
  - intros E. apply (refused_error _ _ _ d ps D HA); [eauto|]. destruct (check_fields d); [|reflexivity].
    exfalso. apply E, C. reflexivity.
Qed.
Print Assumptions C37_transpose_accepted.

(** The enums that [#[auto_enum]] generates qualify: whatever is derived for them, [#[enum_derive]] succeeds. *)
Theorem C37_generated_accepted : forall hash ta n args i i' cx g feat ps ts,
  attribute hash ta n args i = ROk (Code i' cx) -> decls i = [] -> In g (decls i') ->
  arg_list (map Trait ps) ts -> exists o, enum_derive feat ts (item_of g) = inr o.
Proof.
  intros hash ta n args i i' cx g feat ps ts H D Hg HA. apply (auto_accepted feat ts g ps); [|exact HA].
  pose proof (C11_enum_shape _ _ _ _ _ _ _ H D) as S. rewrite Forall_forall in S.
  destruct (S g Hg) as (k & K & _ & E1 & _ & E2 & _). exists k. auto.
Qed.
Print Assumptions C37_generated_accepted.

Example C37_example :
  newtype_variants sample_enum /\ sensible_tokens sample_enum /\ newtype_variants sample_other /\ sensible_tokens sample_other
  /\ map snd (gn_params (ei_generics sample_enum)) = all_fields sample_enum
  /\ map snd (gn_params (ei_generics sample_other)) <> all_fields sample_other
  /\ enum_derive all_features [TkIdent "Transpose"] sample_other
     = inl (ErrDerive "Transpose" "all fields need to be generics").
Proof.
  assert (N : forall i, ei_variants i <> [] ->
     Forall (fun v => exists t, vi_fields v = FTuple [t] /\ vi_discriminant v = None) (ei_variants i) -> newtype_variants i)
    by (intros; split; assumption).
  repeat split; try discriminate; try (vm_compute; reflexivity);
    try (repeat constructor; cbn; eexists; split; reflexivity);
    try (repeat constructor; discriminate).
  - intros l [E|[E|[]]]; discriminate E.
  - intros l [E|[E|[]]]; [|discriminate E]. injection E as <-. intros [X|[X|[]]]; discriminate X.
Qed.
Example C37_generated_example :
  match code_of (run [TkIdent "Iterator"] (InExpr sample_match)) with
  | Some i' => exists g, In g (decls i') /\ g_params g = ["__Variant0"; "__Variant1"]
  | None => False
  end.
Proof. vm_compute. eexists. split; [left; reflexivity|reflexivity]. Qed.

(** ** C39 *)

(** The four outcomes of the attribute, by cause. *)
Theorem C39_outcomes : forall feat ts i,
  match enum_derive feat ts i with
  | inl ErrEnum => ~ newtype_variants i
  | inl ErrTraits => newtype_variants i /\ ~ exists ps, arg_list (map Trait ps) ts
  | inl (ErrDerive s msg) =>
      newtype_variants i /\ s = "Transpose" /\ msg = "all fields need to be generics"
      /\ (exists ps p, arg_list (map Trait ps) ts /\ In p ps /\ is_transpose feat (path_text p))
      /\ (sensible_tokens i -> map snd (gn_params (ei_generics i)) <> all_fields i)
  | inr _ => newtype_variants i /\ exists ps, arg_list (map Trait ps) ts
  end.
Proof. exact outcomes. Qed.
Print Assumptions C39_outcomes.

(** An enum with a field name; a list with [marker = m]; [Transpose] refused; success. *)
Example C39_example :
  enum_derive all_features [TkIdent "Iterator"]
    (EnumItem [] "E" (Generics [] false []) [VariantItem "X" (FNamed [("a", ["u8"])]) None]) = inl ErrEnum
  /\ enum_derive all_features [TkIdent "marker"; TkEq; TkIdent "m"] sample_enum = inl ErrTraits
  /\ (exists o, enum_derive all_features [TkIdent "Debug"; TkComma] sample_other = inr o).
Proof. split; [reflexivity|]. split; [reflexivity|]. eexists. vm_compute. reflexivity. Qed.

(** ** C40 *)

(** End to end: for every enum that [#[auto_enum]] writes, [#[enum_derive]] with the traits written beside it
    succeeds and implements the traits that the user listed, as far as they are supported; its variants have
    distinct names (so that C28 applies). *)
Theorem C40_end_to_end : forall hash ta n args i i' cx g feat ts,
  attribute hash ta n args i = ROk (Code i' cx) -> decls i = [] -> In g (decls i') ->
  arg_list (map Trait (g_derive g)) ts ->
  exists o ps, enum_derive feat ts (item_of g) = inr o /\ In ps (map fst (all_args args i))
    /\ (forall p tr, In p ps -> means feat (path_text p) tr -> implements o tr)
    /\ distinct_variants (item_of g)
    /\ (forall v t, has_variant (item_of g) v t <-> In v (g_params g) /\ t = [v]).
Proof.
  intros hash ta n args i i' cx g feat ts H D Hg HA.
  pose proof (C11_enum_shape _ _ _ _ _ _ _ H D) as S. rewrite Forall_forall in S.
  destruct (S g Hg) as (k & K & _ & E1 & ND & E2 & (ps & tr & E3 & Hps)).
  assert (A : auto_shape g) by (exists k; auto).
  destruct (auto_accepted feat ts g _ A HA) as (o & Ho).
  exists o, ps. split; [exact Ho|]. split; [exact Hps|]. split; [|split].
  - intros p tr' Hp M. apply (requested_trait _ _ _ _ _ p _ Ho HA); [|exact M]. rewrite E3. apply in_or_app. auto.
  - apply auto_distinct; assumption.
  - intros v t. unfold has_variant. cbn. rewrite E2, map_map. cbn. rewrite in_map_iff. split.
    + intros (x & E & Hx). injection E as <- <-. auto.
    + intros [Hv ->]. exists v. auto.
Qed.
Print Assumptions C40_end_to_end.

Example C40_example :
  match code_of (run [TkIdent "Iterator"; TkComma; TkIdent "Clone"] (InExpr sample_match)) with
  | Some i' =>
      match decls i' with
      | [g] => g_derive g = [plain_path ["Iterator"]; plain_path ["Clone"]]
          /\ match enum_derive all_features [TkIdent "Iterator"; TkComma; TkIdent "Clone"] (item_of g) with
             | inr o => impl_paths o = ["::core::iter::Iterator"]
             | inl _ => False
             end
      | _ => False
      end
  | None => False
  end.
Proof. vm_compute. split; reflexivity. Qed.
Example C40_example_args :
  arg_list (map Trait [plain_path ["Iterator"]; plain_path ["Clone"]]) [TkIdent "Iterator"; TkComma; TkIdent "Clone"].
Proof.
  apply (al_cons _ _ [TkIdent "Iterator"]); [apply (w_path ["Iterator"]), sw_one|].
  apply al_one, (w_path ["Clone"]), sw_one.
Qed.

(** ** C41 *)

(** The implementation of a requested trait has everything the trait demands. *)
Theorem C41_complete : forall feat ts i o ps p l,
  enum_derive feat ts i = inr o -> arg_list (map Trait ps) ts -> In p ps ->
  In l documented -> In (path_text p) (doc_names l) -> (forall f, doc_feature l = Some f -> feat f = true) ->
  exists d g t, In (hd "" (doc_names l), d) demands
    /\ In (GImpl g) (do_items o) /\ gi_trait g = Some t /\ tr_path t = doc_trait l /\ meets g d.
Proof. intros. eapply implementation_complete; eauto. Qed.
Print Assumptions C41_complete.

(** Every documented trait has its demands stated, once. *)
Example C41_all_stated : map fst demands = map (fun l => hd "" (doc_names l)) documented.
Proof. vm_compute. reflexivity. Qed.
Example C41_example :
  match derived [TkIdent "futures03"; TkColon2; TkIdent "Sink"] with
  | Some o => exists g, In (GImpl g) (do_items o)
       /\ map gm_name (gi_methods g) = ["poll_ready"; "start_send"; "poll_flush"; "poll_close"]
  | None => False
  end.
Proof. vm_compute. eexists. split; [left; reflexivity|reflexivity]. Qed.

(** ** C42 *)

(** A generated implementation of a trait applies only to enums all of whose fields implement that trait. *)
Theorem C42_bounds : forall feat ts i o g tr v t (holds : wpred -> Prop),
  enum_derive feat ts i = inr o -> In (GImpl g) (do_items o) -> gi_trait g = Some tr -> has_variant i v t ->
  applies holds g -> exists b, holds (WBound t tr b).
Proof. intros. eapply bounds; eauto. Qed.
Print Assumptions C42_bounds.

Example C42_example :
  match derived [TkIdent "Iterator"] with
  | Some o => exists g tr, In (GImpl g) (do_items o) /\ gi_trait g = Some tr /\ has_variant sample_enum "Y" ["B"]
                /\ applies (fun _ => True) g
  | None => False
  end.
Proof. vm_compute. eexists _, _. split; [left; reflexivity|]. repeat split; auto. Qed.
