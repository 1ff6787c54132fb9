(** What the derive functions and the expansion produce. *)

Require Import Coq.Strings.String Coq.Lists.List Coq.Bool.Bool Coq.Arith.Arith Coq.micromega.Lia.
Require Import Verif.Syntax Verif.Context Verif.Derive Verif.DeriveTable Verif.EnumDerive
  Verif.DeriveEval Verif.DeriveSpec.
Import ListNotations.
Open Scope string_scope.
Open Scope list_scope.

(** ** Builders *)

Lemma fold_param_trait {A} (f : A -> toks) l : forall i,
  let j := fold_left (fun i p => push_param (f p) i) l i in
  gi_trait j = gi_trait i /\ gi_methods j = gi_methods i /\ gi_where j = gi_where i
  /\ gi_assoc j = gi_assoc i /\ gi_params j = gi_params i ++ map f l /\ gi_self j = gi_self i.
Proof.
  induction l as [|x l IH]; intros i; cbn.
  - rewrite app_nil_r. repeat split.
  - destruct (IH (push_param (f x) i)) as (H1 & H2 & H3 & H4 & H5 & H6). cbn in *.
    repeat split; auto. rewrite H5, <- app_assoc. reflexivity.
Qed.

Lemma fold_where_trait {A} (f : A -> wpred) l : forall i,
  let j := fold_left (fun i p => push_where (f p) i) l i in
  gi_trait j = gi_trait i /\ gi_methods j = gi_methods i /\ gi_where j = gi_where i ++ map f l
  /\ gi_assoc j = gi_assoc i /\ gi_params j = gi_params i /\ gi_self j = gi_self i.
Proof.
  induction l as [|x l IH]; intros i; cbn.
  - rewrite app_nil_r. repeat split.
  - destruct (IH (push_where (f x) i)) as (H1 & H2 & H3 & H4 & H5 & H6). cbn in *.
    repeat split; auto. rewrite H3, <- app_assoc. reflexivity.
Qed.

Lemma fold_assoc_trait (f : string -> string * assoc) l : forall i,
  let j := fold_left (fun i n => push_assoc (f n) i) l i in
  gi_trait j = gi_trait i /\ gi_methods j = gi_methods i /\ gi_where j = gi_where i
  /\ gi_self j = gi_self i.
Proof.
  induction l as [|x l IH]; intros i; cbn; [repeat split|].
  destruct (IH (push_assoc (f x) i)) as (H1 & H2 & H3 & H4). cbn in *. repeat split; auto.
Qed.

Lemma fold_method_trait d tr ms : forall i,
  gi_trait i = Some tr ->
  let j := fold_left (fun i m => push_method d m i) ms i in
  gi_trait j = Some tr /\ gi_methods j = gi_methods i ++ map (forward d tr) ms
  /\ gi_where j = gi_where i /\ gi_self j = gi_self i.
Proof.
  induction ms as [|m ms IH]; intros i H; cbn.
  - rewrite app_nil_r. repeat split; auto.
  - assert (E : push_method d m i = push_item (forward d tr m) i) by (unfold push_method; rewrite H; reflexivity).
    rewrite E. destruct (IH (push_item (forward d tr m) i)) as (H1 & H2 & H3 & H4); [exact H|].
    repeat split; auto. rewrite H2. cbn. rewrite <- app_assoc. reflexivity.
Qed.

Lemma append_items_trait d tr types ms i :
  gi_trait i = Some tr ->
  let j := append_items d types ms i in
  gi_trait j = Some tr /\ gi_methods j = gi_methods i ++ map (forward d tr) ms
  /\ gi_where j = gi_where i /\ gi_self j = gi_self i.
Proof.
  intros H. unfold append_items. rewrite H. cbv zeta.
  set (i0 := match field_types d with [] => i | t :: _ => _ end).
  assert (E : gi_trait i0 = gi_trait i /\ gi_methods i0 = gi_methods i /\ gi_where i0 = gi_where i
              /\ gi_self i0 = gi_self i).
  { unfold i0. destruct (field_types d); [repeat split|].
    apply (fold_assoc_trait (fun n => (n, AProj t tr n))). }
  destruct E as (E1 & E2 & E3 & E4).
  destruct (fold_method_trait d tr ms i0) as (H1 & H2 & H3 & H4); [congruence|].
  repeat split; congruence.
Qed.

(** The trait reference of a trait definition. *)
Definition tref_of (path : string) (td : trait_def) : trait_ref :=
  TRef path (map param_ident (td_params td)).

(** The bindings of the bounds. *)
Definition binds_of (path : string) (sup : option string) (td : trait_def) : list (string * trait_ref) :=
  match sup, td_super td with Some n, Some s => [(n, s)] | _, _ => [] end
  ++ map (fun n => (n, tref_of path td)) (td_types td).

Lemma from_trait_shape d path sup td :
  let j := from_trait d path sup td in
  gi_trait j = Some (tref_of path td)
  /\ gi_methods j = map (forward d (tref_of path td)) (td_methods td)
  /\ gi_where j = map WUser (gn_where (d_generics d)) ++ field_bounds d (tref_of path td) (binds_of path sup td)
  /\ gi_self j = None.
Proof.
  unfold from_trait. cbv zeta. fold (tref_of path td).
  match goal with |- context [field_bounds d _ ?b] => change b with (binds_of path sup td) end.
  set (i0 := set_unsafe (td_unsafe td) (set_trait (tref_of path td) (impl_new d))).
  destruct (fold_param_trait (fun p : string => [p]) (td_params td) i0) as (A1 & A2 & A3 & A4 & A5 & A6).
  set (i1 := fold_left (fun i p => push_param [p] i) (td_params td) i0) in *.
  destruct (fold_where_trait (fun w => w) (field_bounds d (tref_of path td) (binds_of path sup td)) i1)
    as (B1 & B2 & B3 & B4 & B5 & B6).
  set (i2 := fold_left (fun i w => push_where w i) _ i1) in *.
  destruct (append_items_trait d (tref_of path td) (td_types td) (td_methods td) i2) as (C1 & C2 & C3 & C4).
  { rewrite B1, A1. reflexivity. }
  repeat split; auto.
  - rewrite C2, B2, A2. reflexivity.
  - rewrite C3, B3, A3, map_id. reflexivity.
  - rewrite C4, B6, A6. reflexivity.
Qed.

(** ** Shapes of methods *)

(** A method that forwards to the field, through a plain or a pinned reference. *)
Definition forwards (d : enum_data) (tr : trait_ref) (m : gmethod) : Prop :=
  NoDup (gm_params m)
  /\ (gm_recv m = RPin /\ gm_scrut m = SPinned
      /\ gm_arms m = map (fun a => MArm (d_ident d) (fst a)
                           (BCall (snd a) tr (gm_name m) (BPin BX) (gm_params m))) (arms_of d)
      \/ gm_recv m <> RPin /\ gm_scrut m = SSelf
      /\ gm_arms m = map (fun a => MArm (d_ident d) (fst a)
                           (BCall (snd a) tr (gm_name m) BX (gm_params m))) (arms_of d)).

(** A method of a generated implementation of a trait. *)
Definition method_ok (d : enum_data) (tr : trait_ref) (m : gmethod) : Prop :=
  forwards d tr m \/ (is_source tr (gm_name m) /\ m = source_method d).

(** A generated implementation. *)
Definition impl_ok (d : enum_data) (g : gimpl) : Prop :=
  match gi_trait g with
  | Some tr => Forall (method_ok d tr) (gi_methods g)
               /\ (forall t, In t (field_types d) -> exists b, In (WBound t tr b) (gi_where g))
  | None => Forall (fun m => gm_recv m = ROwn) (gi_methods g)
  end.

(** A method that projects a pinned enum. *)
Definition projects (m : gmethod) : Prop := gm_scrut m = SPinned.

(** What is known about each derive function.  [name] is the trait path, if it implements a trait. *)
Definition derive_ok (name : option string) (f : derive_fn) : Prop :=
  forall d pin its, f d = inr (pin, its) ->
    (pin = true <-> exists g m, In (GImpl g) its /\ In m (gi_methods g) /\ projects m)
    /\ match name with
       | Some p => exists g tr, its = [GImpl g] /\ gi_trait g = Some tr /\ tr_path tr = p
       | None => Forall (fun it => exists g, it = GImpl g /\ gi_trait g = None) its
       end
    /\ Forall (fun it => exists g, it = GImpl g /\ impl_ok d g) its.

Definition sig_ok (m : msig) : Prop := NoDup (ms_params m) /\ ms_recv m <> RPin.

Lemma forward_ok d tr m : sig_ok m -> forwards d tr (forward d tr m).
Proof. intros [H1 H2]. split; [exact H1|]. right. repeat split; auto. Qed.

Lemma from_trait_bound d path sup td t :
  In t (field_types d) -> exists b, In (WBound t (tref_of path td) b) (gi_where (from_trait d path sup td)).
Proof.
  destruct (from_trait_shape d path sup td) as (_ & _ & H & _). rewrite H. unfold field_bounds.
  destruct (field_types d) as [|u ts]; [intros []|]. intros [->|Ht].
  - exists []. apply in_or_app. right. left. reflexivity.
  - eexists. apply in_or_app. right. right. apply in_map_iff. exists t. split; [reflexivity|exact Ht].
Qed.

Lemma by_trait_ok path sup td : Forall sig_ok (td_methods td) -> derive_ok (Some path) (by_trait path sup td).
Proof.
  intros Hs d pin its H. injection H as <- <-.
  destruct (from_trait_shape d path sup td) as (H1 & H2 & H3 & _).
  split; [|split].
  - split; [discriminate|]. intros (g & m & [E|[]] & Hm & Hp). injection E as <-.
    rewrite H2 in Hm. apply in_map_iff in Hm. destruct Hm as (x & <- & _). discriminate Hp.
  - eexists _, _. split; [reflexivity|]. split; [exact H1|reflexivity].
  - constructor; [|constructor]. eexists. split; [reflexivity|]. unfold impl_ok. rewrite H1. split.
    + rewrite H2. apply Forall_map. revert Hs. apply Forall_impl. intros m Hm. left.
      apply forward_ok, Hm.
    + intros t. apply from_trait_bound.
Qed.

Lemma fold_pin_shape d ms : forall i,
  let j := fold_left (fun i p => push_item (pin_method d p) i) ms i in
  gi_trait j = gi_trait i /\ gi_methods j = gi_methods i ++ map (pin_method d) ms /\ gi_where j = gi_where i.
Proof.
  induction ms as [|m ms IH]; intros i; cbn.
  - rewrite app_nil_r. repeat split.
  - destruct (IH (push_item (pin_method d m) i)) as (H1 & H2 & H3). cbn in *. repeat split; auto.
    rewrite H2, <- app_assoc. reflexivity.
Qed.

Definition pin_ok (tr : trait_ref) (p : pinmeth) : Prop :=
  NoDup (pm_params p) /\ pm_trait p = tr /\ pm_call p = pm_name p /\ pm_args p = pm_params p.

Lemma by_pin_ok path td ms :
  Forall sig_ok (td_methods td) -> ms <> [] -> Forall (pin_ok (tref_of path td)) ms ->
  derive_ok (Some path) (by_pin path td ms).
Proof.
  intros Hs Hne Hp d pin its H. injection H as <- <-.
  destruct (from_trait_shape d path None td) as (H1 & H2 & H3 & _).
  destruct (fold_pin_shape d ms (from_trait d path None td)) as (K1 & K2 & K3).
  set (g := fold_left _ _ _) in *.
  split; [|split].
  - split; [|reflexivity]. intros _. destruct ms as [|p ms]; [congruence|].
    exists g, (pin_method d p). split; [left; reflexivity|]. split; [|reflexivity].
    rewrite K2. apply in_or_app. right. left. reflexivity.
  - exists g, (tref_of path td). split; [reflexivity|]. split; [congruence|reflexivity].
  - constructor; [|constructor]. exists g. split; [reflexivity|]. unfold impl_ok. rewrite K1, H1. split.
    + rewrite K2, H2. apply Forall_app. split; apply Forall_map.
      * revert Hs. apply Forall_impl. intros m Hm. left. apply forward_ok, Hm.
      * revert Hp. apply Forall_impl. intros p (E1 & E2 & E3 & E4). left. split; [exact E1|].
        left. repeat split. unfold pin_method. cbn. rewrite E2, E3, E4. reflexivity.
    + intros t. rewrite K3. apply from_trait_bound.
Qed.

Lemma fn_impl_shape path d :
  gi_trait (fn_impl path d) = Some (TRef path ["(__T,)"]) /\ gi_methods (fn_impl path d) = []
  /\ gi_where (fn_impl path d)
     = map WUser (gn_where (d_generics d))
       ++ map (fun f => WBound f (TRef path ["(__T,)"]) [("Output", AParam "__U")]) (field_types d).
Proof.
  unfold fn_impl. cbv zeta.
  destruct (fold_where_trait (fun f => WBound f (TRef path ["(__T,)"]) [("Output", AParam "__U")])
    (field_types d) (push_param ["__U"] (push_param ["__T"] (set_trait (TRef path ["(__T,)"]) (impl_new d)))))
    as (H1 & H2 & H3 & _).
  rewrite H1, H2, H3. repeat split.
Qed.

Fixpoint nodupb (l : list string) : bool :=
  match l with [] => true | x :: r => negb (existsb (String.eqb x) r) && nodupb r end.

Lemma nodup_dec_params (l : list string) : nodupb l = true -> NoDup l.
Proof.
  induction l as [|x l IH]; cbn; intros H; constructor; apply andb_true_iff in H; destruct H as [H1 H2]; auto.
  intros Hin. apply negb_true_iff in H1. rewrite <- not_true_iff_false in H1. apply H1.
  apply existsb_exists. exists x. split; [exact Hin|apply String.eqb_refl].
Qed.

Lemma fn_ok : derive_ok (Some "::core::ops::Fn") core_ops_fn__derive.
Proof.
  intros d pin its H. injection H as <- <-.
  destruct (fn_impl_shape "::core::ops::Fn" d) as (H1 & H2 & H3).
  unfold push_method. rewrite H1.
  split; [|split].
  - split; [discriminate|]. intros (g & m & [E|[]] & Hm & Hp). injection E as <-.
    cbn [gi_methods push_item] in Hm. rewrite H2 in Hm. destruct Hm as [<-|[]]. discriminate Hp.
  - eexists _, _. split; [reflexivity|]. split; [exact H1|reflexivity].
  - constructor; [|constructor]. eexists. split; [reflexivity|]. unfold impl_ok.
    cbn [gi_trait gi_methods gi_where push_item]. rewrite H1, H2, H3. split.
    + constructor; [|constructor]. left. apply forward_ok. split; [|discriminate].
      apply nodup_dec_params. reflexivity.
    + intros t Ht. eexists. apply in_or_app. right. apply in_map_iff. exists t. split; [reflexivity|exact Ht].
Qed.

Lemma fn_mut_ok : derive_ok (Some "::core::ops::FnMut") core_ops_fn_mut_derive.
Proof.
  intros d pin its H. injection H as <- <-.
  destruct (fn_impl_shape "::core::ops::FnMut" d) as (H1 & H2 & H3).
  unfold push_method. rewrite H1.
  split; [|split].
  - split; [discriminate|]. intros (g & m & [E|[]] & Hm & Hp). injection E as <-.
    cbn [gi_methods push_item] in Hm. rewrite H2 in Hm. destruct Hm as [<-|[]]. discriminate Hp.
  - eexists _, _. split; [reflexivity|]. split; [exact H1|reflexivity].
  - constructor; [|constructor]. eexists. split; [reflexivity|]. unfold impl_ok.
    cbn [gi_trait gi_methods gi_where push_item]. rewrite H1, H2, H3. split.
    + constructor; [|constructor]. left. apply forward_ok. split; [|discriminate].
      apply nodup_dec_params. reflexivity.
    + intros t Ht. eexists. apply in_or_app. right. apply in_map_iff. exists t. split; [reflexivity|exact Ht].
Qed.

Lemma fn_once_ok : derive_ok (Some "::core::ops::FnOnce") core_ops_fn_once_derive.
Proof.
  intros d pin its H. injection H as <- <-.
  destruct (fn_impl_shape "::core::ops::FnOnce" d) as (H1 & H2 & H3).
  destruct (append_items_trait d _ ["Output"] [Sig "call_once" ROwn ["args"]] _ H1) as (K1 & K2 & K3 & _).
  set (j := append_items _ _ _ _) in *.
  split; [|split].
  - split; [discriminate|]. intros (g & m & [E|[]] & Hm & Hp). injection E as <-.
    rewrite K2, H2 in Hm. destruct Hm as [<-|[]]. discriminate Hp.
  - eexists _, _. split; [reflexivity|]. split; [exact K1|reflexivity].
  - constructor; [|constructor]. eexists. split; [reflexivity|]. unfold impl_ok.
    rewrite K1, K2, K3, H2, H3. split.
    + constructor; [|constructor]. left. apply forward_ok. split; [|discriminate].
      apply nodup_dec_params. reflexivity.
    + intros t Ht. eexists. apply in_or_app. right. apply in_map_iff. exists t. split; [reflexivity|exact Ht].
Qed.

Definition error_td : trait_def := TraitDef false [] None [] [Sig "description" RRef []].

Lemma error_ok : derive_ok (Some "::std::error::Error") std_error_derive.
Proof.
  intros d pin its H. unfold std_error_derive in H. cbv zeta in H. fold error_td in H. injection H as <- <-.
  destruct (from_trait_shape d "::std::error::Error" None error_td) as (H1 & H2 & H3 & _).
  destruct (fold_where_trait (fun f => WStatic f) (field_types d)
    (from_trait d "::std::error::Error" None error_td)) as (K1 & K2 & K3 & _).
  set (j := fold_left _ _ _) in *.
  split; [|split].
  - split; [discriminate|]. intros (g & m & [E|[]] & Hm & Hp). injection E as <-.
    cbn [gi_methods push_item] in Hm. rewrite K2, H2 in Hm. destruct Hm as [<-|[<-|[]]]; discriminate Hp.
  - eexists _, _. split; [reflexivity|]. split; [cbn; rewrite K1; exact H1|reflexivity].
  - constructor; [|constructor]. eexists. split; [reflexivity|]. unfold impl_ok.
    cbn [gi_trait gi_methods gi_where push_item]. rewrite K1, K2, K3, H1, H2. split.
    + apply Forall_app. split.
      * constructor; [|constructor]. left. apply forward_ok. split; [constructor|discriminate].
      * constructor; [|constructor]. right. repeat split.
    + intros t Ht. destruct (from_trait_bound d "::std::error::Error" None error_td t Ht) as [b Hb].
      exists b. apply in_or_app. left. exact Hb.
Qed.

Lemma transpose_derive_ok : derive_ok None ty_impls_transpose_derive.
Proof.
  intros d pin its H. unfold ty_impls_transpose_derive in H.
  destruct (check_fields d); [|discriminate H]. injection H as <- <-.
  assert (R : gi_trait (transpose_result d) = None
              /\ gi_methods (transpose_result d)
                 = [own_method d "transpose" (fun v => BMapErr (BMap BX (d_ident d) v) (d_ident d) v)]).
  { unfold transpose_result.
    destruct (fold_param_trait (fun p : toks => p) (err_fields d) (impl_new d)) as (A1 & A2 & _).
    cbn [gi_trait gi_methods set_self push_item]. rewrite A1, A2. split; reflexivity. }
  destruct R as [R1 R2].
  split; [|split].
  - split; [discriminate|]. intros (g & m & Hg & Hm & Hp). exfalso.
    destruct Hg as [E|[E|[E|[E|[]]]]]; injection E as <-; try rewrite R2 in Hm;
      destruct Hm as [<-|[]]; discriminate Hp.
  - repeat constructor; (eexists; split; [reflexivity|]; auto).
  - repeat constructor; (eexists; split; [reflexivity|]); unfold impl_ok; rewrite ?R1, ?R2; cbn;
      repeat constructor.
Qed.

(** ** The table *)

(** The trait that each derive function implements, in the order of the table. *)
Definition entry_traits : list (option string) :=
  [Some "::core::convert::AsMut"; Some "::core::convert::AsRef"; Some "::core::fmt::Debug";
   Some "::core::fmt::Display"; Some "::core::fmt::Pointer"; Some "::core::fmt::Binary";
   Some "::core::fmt::Octal"; Some "::core::fmt::UpperHex"; Some "::core::fmt::LowerHex";
   Some "::core::fmt::UpperExp"; Some "::core::fmt::LowerExp"; Some "::core::fmt::Write";
   Some "::core::iter::Iterator"; Some "::core::iter::DoubleEndedIterator";
   Some "::core::iter::ExactSizeIterator"; Some "::core::iter::FusedIterator";
   Some "::core::iter::TrustedLen"; Some "::core::iter::Extend"; Some "::core::ops::Deref";
   Some "::core::ops::DerefMut"; Some "::core::ops::Index"; Some "::core::ops::IndexMut";
   Some "::core::ops::RangeBounds"; Some "::core::ops::Fn"; Some "::core::ops::FnMut";
   Some "::core::ops::FnOnce"; Some "::core::ops::Coroutine"; Some "::core::future::Future";
   Some "::std::io::Read"; Some "::std::io::BufRead"; Some "::std::io::Seek"; Some "::std::io::Write";
   Some "::std::error::Error"; None;
   Some "::futures::stream::Stream"; Some "::futures::sink::Sink"; Some "::futures::io::AsyncRead";
   Some "::futures::io::AsyncWrite"; Some "::futures::io::AsyncSeek"; Some "::futures::io::AsyncBufRead";
   Some "::futures::future::Future"; Some "::futures::stream::Stream"; Some "::futures::sink::Sink";
   Some "::rayon::iter::ParallelIterator"; Some "::rayon::iter::IndexedParallelIterator";
   Some "::rayon::iter::ParallelExtend"; Some "::serde::ser::Serialize";
   Some "::tokio::io::AsyncRead"; Some "::tokio::io::AsyncWrite"; Some "::tokio::io::AsyncSeek";
   Some "::tokio::io::AsyncBufRead";
   Some "::tokio::io::AsyncRead"; Some "::tokio::io::AsyncWrite"; Some "::tokio::io::AsyncSeek";
   Some "::tokio::io::AsyncBufRead";
   Some "::tokio::io::AsyncRead"; Some "::tokio::io::AsyncWrite"; Some "::tokio::io::AsyncSeek";
   Some "::tokio::io::AsyncBufRead";
   Some "::tokio::io::AsyncRead"; Some "::tokio::io::AsyncWrite";
   Some "::http_body::Body"].

Ltac sigs := repeat (constructor; [split; [apply nodup_dec_params; reflexivity|discriminate]|]); constructor.
Ltac pins :=
  repeat (constructor; [split; [apply nodup_dec_params; reflexivity|repeat split]|]); constructor.
Ltac entry_ok :=
  cbv [en_derive];
  first [ exact fn_ok | exact fn_mut_ok | exact fn_once_ok | exact error_ok | exact transpose_derive_ok
        | apply by_trait_ok; sigs
        | apply by_pin_ok; [sigs | discriminate | pins] ].

Lemma derives_ok : Forall2 (fun e n => derive_ok n (en_derive e)) derives entry_traits.
Proof. unfold derives, entry_traits. repeat (constructor; [entry_ok|]). constructor. Qed.
