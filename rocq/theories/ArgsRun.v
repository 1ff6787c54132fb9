(** The argument parser, [path_eq] and the type analysis against their specification. *)

Require Import Coq.Strings.String Coq.Lists.List Coq.Bool.Bool Coq.Arith.Arith Coq.NArith.NArith Lia.
Require Import Verif.Syntax Verif.Context Verif.ExprModel Verif.TypeAnalysis Verif.AutoEnum.
Require Import Verif.AstInd Verif.TyInd Verif.ArgsSpec.
Import ListNotations.
Open Scope string_scope.
Open Scope list_scope.

(** ** Paths *)

(** What cannot follow a path in the argument list. *)
Definition no_colon (toks : list token) : Prop :=
  match toks with TkColon2 :: _ => False | _ => True end.

Lemma parse_segs_sound : forall toks ids rest,
  parse_segs toks = Some (ids, rest) -> exists w, segs_written ids w /\ toks = w ++ rest.
Proof.
  enough (H : forall n toks ids rest, length toks <= n ->
            parse_segs toks = Some (ids, rest) -> exists w, segs_written ids w /\ toks = w ++ rest)
    by (intros; eapply H; eauto).
  induction n as [|n IH]; intros toks ids rest L H.
  - destruct toks; [discriminate|cbn in L; lia].
  - destruct toks as [|[s| | | |] r]; try discriminate.
    cbn in L. destruct r as [|[s2| | | |] r2];
      try (cbn in H; inversion H; subst; exists [TkIdent s]; split; [constructor|reflexivity]).
    cbn [parse_segs] in H. destruct (parse_segs r2) as [[ids2 r3]|] eqn:E; [|discriminate].
    inversion H; subst. apply IH in E; [|cbn in L; lia]. destruct E as (w & W & ->).
    exists (TkIdent s :: TkColon2 :: w). split; [constructor; assumption|reflexivity].
Qed.

Lemma parse_segs_complete ids w rest :
  segs_written ids w -> no_colon rest -> parse_segs (w ++ rest) = Some (ids, rest).
Proof.
  intros W N. induction W as [s|s l toks W IH].
  - cbn. destruct rest as [|[]]; try reflexivity. destruct N.
  - cbn [app parse_segs]. rewrite IH. reflexivity.
Qed.

Lemma parse_path_sound toks p rest :
  parse_path toks = Some (p, rest) -> exists w, written (Trait p) w /\ toks = w ++ rest.
Proof.
  unfold parse_path. intros H.
  assert (K : match parse_segs toks with
              | Some (ids, r') => Some (plain_path ids, r') | None => None end = Some (p, rest) ->
              exists w, written (Trait p) w /\ toks = w ++ rest).
  { destruct (parse_segs toks) as [[ids r]|] eqn:E; [|discriminate]. intros H2. inversion H2; subst.
    apply parse_segs_sound in E. destruct E as (w & W & ->). exists w. split; [constructor; assumption|reflexivity]. }
  destruct toks as [|[] r]; try (apply K, H); clear K.
  destruct (parse_segs r) as [[ids r']|] eqn:E; [|discriminate]. inversion H; subst.
  apply parse_segs_sound in E. destruct E as (w & W & ->).
  exists (TkColon2 :: w). split; [constructor; assumption|reflexivity].
Qed.

Lemma segs_written_head ids w : segs_written ids w -> exists s r, w = TkIdent s :: r.
Proof. intros []; eauto. Qed.

Lemma parse_path_complete p w rest :
  written (Trait p) w -> no_colon rest -> parse_path (w ++ rest) = Some (p, rest).
Proof.
  intros W N. inversion W as [ids w' S|ids w' S|]; subst; unfold parse_path.
  - destruct (segs_written_head _ _ S) as (s & r & E).
    rewrite (parse_segs_complete _ _ _ S N). rewrite E. reflexivity.
  - cbn [app]. rewrite (parse_segs_complete _ _ _ S N). reflexivity.
Qed.

Lemma peek_marker_trait p w rest :
  written (Trait p) w -> match rest with TkEq :: _ => False | _ => True end ->
  peek_marker (w ++ rest) = None.
Proof.
  intros W N. inversion W as [ids w' S|ids w' S|]; subst; [|reflexivity].
  destruct S; cbn; [|reflexivity]. destruct rest as [|[]]; try reflexivity. destruct N.
Qed.

Lemma peek_marker_some toks r : peek_marker toks = Some r -> toks = TkIdent "marker" :: TkEq :: r.
Proof.
  destruct toks as [|[s| | | |] [|[] t]]; cbn; try discriminate.
  destruct (s =? "marker") eqn:E; [|discriminate]. apply String.eqb_eq in E. intros H; inversion H; subst.
  reflexivity.
Qed.

(** ** Argument lists *)

(** At most one marker. *)
Definition one_marker (ms : list string) (m : option string) : Prop :=
  ms = match m with Some x => [x] | None => [] end.

Lemma written_ne a w : written a w -> w <> [].
Proof. intros []; try discriminate. destruct H; discriminate. Qed.

Definition next_of fuel (args : list path) (marker : option string) (rest : list token)
  : err + (list path * option string) :=
  match rest with
  | [] => inr (args, marker)
  | TkComma :: rest' => parse_args_loop fuel rest' args marker
  | _ => inl ErrArgSyntax
  end.

(** One round of the loop. *)
Definition loop_body fuel (toks : list token) args marker :=
  match peek_marker toks with
  | Some (TkIdent m0 :: rest') =>
      match marker with Some _ => inl ErrDupMarkerArg | None => next_of fuel args (Some m0) rest' end
  | Some _ => inl ErrArgSyntax
  | None =>
      match parse_path toks with
      | Some (p, r) => next_of fuel (args ++ [p]) marker r
      | None => inl ErrArgSyntax
      end
  end.

(** One argument is read. *)
Lemma loop_step fuel a w rest args marker :
  written a w -> match rest with [] | TkComma :: _ => True | _ => False end ->
  parse_args_loop (S fuel) (w ++ rest) args marker
  = match a, marker with
    | Trait p, _ => next_of fuel (args ++ [p]) marker rest
    | Marker _, Some _ => inl ErrDupMarkerArg
    | Marker m, None => next_of fuel args (Some m) rest
    end.
Proof.
  intros W R. pose proof (written_ne _ _ W) as NE.
  destruct a as [p|m].
  - cbn [parse_args_loop]. destruct w as [|t0 w0] eqn:EW; [congruence|]. rewrite <- EW in *.
    transitivity (loop_body fuel (w ++ rest) args marker).
    { unfold loop_body. rewrite EW. reflexivity. }
    unfold loop_body.
    rewrite (peek_marker_trait p), (parse_path_complete p); auto.
    + destruct rest as [|[]]; cbn; auto.
    + destruct rest as [|[]]; cbn; auto.
  - inversion W; subst. cbn. destruct marker; [reflexivity|]. destruct rest as [|[]]; reflexivity.
Qed.

(** What an argument list makes of traits and a marker already read. *)
Lemma loop_complete : forall l toks, arg_list l toks -> forall fuel args marker,
  length toks < fuel ->
  (length (markers_of l) + (match marker with Some _ => 1 | None => 0 end) <= 1 ->
   parse_args_loop fuel toks args marker
   = inr (args ++ traits_of l, match markers_of l with m :: _ => Some m | [] => marker end))
  /\ (1 < length (markers_of l) + (match marker with Some _ => 1 | None => 0 end) ->
      parse_args_loop fuel toks args marker = inl ErrDupMarkerArg \/ marker <> None /\ markers_of l = []).
Proof.
  induction 1 as [|a toks W|a l toks rest W AL IH]; intros fuel args marker LE.
  - destruct fuel; [lia|]. cbn. rewrite app_nil_r. split; [reflexivity|]. destruct marker; lia.
  - destruct fuel; [lia|]. rewrite <- (app_nil_r toks). rewrite (fun r => loop_step fuel _ _ r args marker W) by exact I.
    destruct a as [p|m]; cbn [next_of traits_of markers_of flat_map app length].
    + rewrite ?app_nil_r. split; [reflexivity|]. destruct marker; cbn; intros; lia.
    + rewrite ?app_nil_r. destruct marker; cbn; split; intros; try lia; auto.
  - destruct fuel; [lia|]. rewrite app_length in LE. cbn [length] in LE.
    rewrite (fun r => loop_step fuel _ _ r args marker W) by exact I.
    destruct a as [p|m]; cbn [next_of].
    + destruct (IH fuel (args ++ [p]) marker ltac:(lia)) as [IH1 IH2].
      cbn [traits_of markers_of flat_map app]. rewrite <- app_assoc in IH1. split; [exact IH1|exact IH2].
    + destruct marker as [m0|].
      * cbn. split; [intros; lia|]. auto.
      * destruct (IH fuel args (Some m) ltac:(lia)) as [IH1 IH2].
        change (markers_of (Marker m :: l)) with (m :: markers_of l).
        change (traits_of (Marker m :: l)) with (traits_of l). cbn [length].
        split; intros L.
        -- rewrite IH1 by lia. f_equal. f_equal. destruct (markers_of l); [reflexivity|cbn in L; lia].
        -- left. destruct IH2 as [IH2|[_ IH2]]; [lia|assumption|]. rewrite IH2 in L. cbn in L. lia.
Qed.

Lemma loop_sound : forall fuel toks args marker ps m,
  parse_args_loop fuel toks args marker = inr (ps, m) ->
  exists l, arg_list l toks /\ ps = args ++ traits_of l
    /\ length (markers_of l) + (match marker with Some _ => 1 | None => 0 end) <= 1
    /\ m = match markers_of l with x :: _ => Some x | [] => marker end.
Proof.
  induction fuel as [|fuel IH]; intros toks args marker ps m H; [discriminate|].
  destruct toks as [|t0 r0].
  - cbn in H. inversion H; subst. exists []. cbn. rewrite app_nil_r. repeat split; [constructor|].
    destruct m; lia.
  - set (toks := t0 :: r0) in *.
    change (loop_body fuel toks args marker = inr (ps, m)) in H. unfold loop_body in H.
    assert (NX : forall a w rest args' marker',
               written a w -> toks = w ++ rest -> next_of fuel args' marker' rest = inr (ps, m) ->
               args' = args ++ traits_of [a] ->
               match a with Trait _ => marker' = marker | Marker x => marker = None /\ marker' = Some x end ->
               exists l, arg_list l toks /\ ps = args ++ traits_of l
                 /\ length (markers_of l) + (match marker with Some _ => 1 | None => 0 end) <= 1
                 /\ m = match markers_of l with x :: _ => Some x | [] => marker end).
    { intros a w rest args' marker' W E N EA EM. rewrite E.
      destruct rest as [|[] rest]; try discriminate.
      - cbn in N. inversion N; subst ps m. exists [a]. rewrite app_nil_r.
        split; [constructor; assumption|]. split; [assumption|].
        destruct a; [subst marker'|destruct EM; subst]; cbn; [destruct marker|]; split; auto.
      - cbn [next_of] in N. apply IH in N. destruct N as (l & AL & -> & L & ->).
        exists (a :: l). split; [constructor; assumption|].
        split; [rewrite EA, <- app_assoc; destruct a; reflexivity|].
        destruct a; [subst marker'; auto|]. destruct EM; subst.
        change (markers_of (Marker name :: l)) with (name :: markers_of l). cbn [length].
        destruct (markers_of l); cbn in *; [split; [lia|reflexivity]|lia]. }
    destruct (peek_marker toks) as [r|] eqn:P.
    + apply peek_marker_some in P. destruct r as [|[x| | | |] r]; try discriminate.
      destruct marker as [m0|]; [discriminate|].
      eapply (NX (Marker x) [TkIdent "marker"; TkEq; TkIdent x] r); [constructor|exact P|exact H| |].
      * cbn. rewrite app_nil_r. reflexivity.
      * auto.
    + destruct (parse_path toks) as [[p r]|] eqn:PP; [|discriminate].
      apply parse_path_sound in PP. destruct PP as (w & W & E).
      eapply NX; [exact W|exact E|exact H|reflexivity|reflexivity].
Qed.

Theorem parse_args_grammar toks ps m :
  parse_args toks = inr (ps, m)
  <-> exists l, arg_list l toks /\ traits_of l = ps
        /\ markers_of l = match m with Some x => [x] | None => [] end.
Proof.
  unfold parse_args. split.
  - intros H. apply loop_sound in H. destruct H as (l & AL & -> & L & ->). exists l.
    split; [assumption|]. split; [reflexivity|]. destruct (markers_of l) as [|x [|]]; cbn in *; auto; lia.
  - intros (l & AL & <- & EM). destruct (loop_complete _ _ AL (S (length toks)) [] None) as [H _]; [lia|].
    rewrite H; rewrite EM; destruct m; cbn; auto; lia.
Qed.

Theorem parse_args_dup toks l :
  arg_list l toks -> 2 <= length (markers_of l) -> parse_args toks = inl ErrDupMarkerArg.
Proof.
  intros AL L. destruct (loop_complete _ _ AL (S (length toks)) [] None) as [_ H]; [lia|].
  unfold parse_args. destruct H as [H|[H _]]; [lia|assumption|congruence].
Qed.

(** ** Names *)

Lemma combine_eq : forall (a b : list string),
  length a = length b -> forallb (fun ab => fst ab =? snd ab) (combine a b) = true -> a = b.
Proof.
  induction a as [|x a IH]; intros [|y b] L H; cbn in *; try discriminate; [reflexivity|].
  apply andb_true_iff in H. destruct H as [H1 H2]. apply String.eqb_eq in H1. f_equal; auto.
Qed.

Lemma combine_refl : forall (a : list string), forallb (fun ab => fst ab =? snd ab) (combine a a) = true.
Proof. induction a; cbn; [reflexivity|]. rewrite String.eqb_refl. assumption. Qed.

Theorem path_eq_names p modules name :
  path_eq p ["std"; "core"] (modules ++ [name]) = true <-> names p modules name.
Proof.
  unfold path_eq, names. rewrite last_last, app_length. cbn [length].
  generalize (path_ids p). intros ids.
  destruct ((length ids =? 1)%nat && (hd "" ids =? name)) eqn:E.
  - split; [intros _|reflexivity]. left. apply andb_true_iff in E. destruct E as [E1 E2].
    destruct ids as [|x [|]]; try discriminate. apply String.eqb_eq in E2. cbn in E2. congruence.
  - assert (N1 : ids <> [name]) by (intros ->; cbn in E; rewrite String.eqb_refl in E; discriminate).
    replace (length modules + 1) with (length (modules ++ [name])) by (rewrite app_length; reflexivity).
    destruct (length ids =? S (length (modules ++ [name])))%nat eqn:L.
    + apply Nat.eqb_eq in L. destruct ids as [|c r]; [discriminate|]. cbn [hd tl existsb].
      cbn in L. injection L as L. split.
      * intros H. apply andb_true_iff in H. destruct H as [H1 H2]. apply combine_eq in H2; [|assumption].
        subst r. rewrite orb_false_r in H1. apply orb_true_iff in H1.
        rewrite !String.eqb_eq in H1. destruct H1; subst; auto.
      * intros [H|[H|H]]; [congruence| |]; inversion H; subst; cbn;
          rewrite combine_refl; reflexivity.
    + apply Nat.eqb_neq in L. split; [discriminate|].
      intros [H|[H|H]]; [congruence| |]; subst ids; cbn in L; congruence.
Qed.

(** ** Type analysis *)

Lemma wanted_new args q : wanted args q = true <-> new_trait args q.
Proof.
  unfold wanted, new_trait. rewrite andb_true_iff, negb_true_iff. split; intros [H1 H2]; split.
  - apply existsb_exists in H1. destruct H1 as (x & I1 & E). apply String.eqb_eq in E. congruence.
  - intros F. apply in_map_iff in F. destruct F as (x & E & I1).
    assert (X : existsb (fun x => path_text x =? path_text q) args = true)
      by (apply existsb_exists; exists x; split; [assumption|apply String.eqb_eq; assumption]).
    congruence.
  - apply existsb_exists. exists (path_text q). split; [assumption|apply String.eqb_refl].
  - apply not_true_iff_false. intros F. apply H2. apply existsb_exists in F.
    destruct F as (x & I1 & E). apply String.eqb_eq in E. rewrite <- E. apply in_map. assumption.
Qed.

Lemma bound_traits_filter args bs : bound_traits args bs = filter (wanted args) (bounds_traits bs).
Proof.
  unfold bound_traits, bounds_traits. induction bs as [|b bs IH]; [reflexivity|].
  cbn [flat_map]. rewrite filter_app, IH. destruct b; cbn [filter]; [|reflexivity].
  destruct (wanted args _); reflexivity.
Qed.

Lemma flat_map_flat {A B C} (f : A -> list B) (g : A -> list C) (h : C -> list B) l :
  Forall (fun x => f x = flat_map h (g x)) l -> flat_map f l = flat_map h (flat_map g l).
Proof.
  induction 1 as [|x l E _ IH]; [reflexivity|]. cbn. rewrite flat_map_app, E, IH. reflexivity.
Qed.

Theorem collect_impls args :
  let h := fun bs => filter (wanted args) (bounds_traits bs) in
  (forall t, collect_ty args t = flat_map h (impls t))
  /\ (forall b, collect_bound args b = flat_map h (impls_bound b))
  /\ (forall p, collect_path args p = flat_map h (impls_path p))
  /\ (forall s, collect_seg args s = flat_map h (impls_seg s))
  /\ (forall a, collect_segargs args a = flat_map h (impls_args a))
  /\ (forall g, collect_garg args g = flat_map h (impls_garg g)).
Proof.
  intros h. apply ty_ind_all; intros;
    cbn [collect_ty collect_bound collect_path collect_seg collect_segargs collect_garg
         impls impls_bound impls_path impls_seg impls_args impls_garg];
    try reflexivity; try assumption; try (apply flat_map_flat; assumption).
  - rewrite flat_map_app. f_equal; [apply flat_map_flat; assumption|].
    cbn. rewrite app_nil_r. apply bound_traits_filter.
  - rewrite flat_map_app. f_equal; [|assumption]. destruct q; [assumption|reflexivity].
  - rewrite flat_map_app. f_equal; [apply flat_map_flat; assumption|].
    destruct out; [assumption|reflexivity].
Qed.

Theorem collect_exact args t q :
  In q (collect_ty args t)
  <-> exists bs, In bs (impls t) /\ In q (bounds_traits bs) /\ new_trait args q.
Proof.
  rewrite (proj1 (collect_impls args)), in_flat_map. split; intros (bs & H1 & H2); exists bs.
  - apply filter_In in H2. rewrite wanted_new in H2. tauto.
  - rewrite filter_In, wanted_new. tauto.
Qed.
