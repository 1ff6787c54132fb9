(** When [#[enum_derive]] is refused. *)

Require Import Coq.Strings.String Coq.Lists.List Coq.Bool.Bool Coq.Arith.Arith Coq.micromega.Lia.
Require Import Verif.Syntax Verif.Context Verif.TypeAnalysis Verif.Derive Verif.DeriveTable Verif.EnumDerive
  Verif.DeriveEval Verif.DeriveSpec Verif.Contracts Verif.DeriveRun Verif.ForwardRun Verif.ArgsSpec
  Verif.RequestRun Verif.OnceRun Verif.ContractRun Verif.TransposeRun.
Import ListNotations.
Open Scope string_scope.
Open Scope list_scope.

(** ** Lists separated by commas *)

(** What can follow a member of a list. *)
Definition stops (x : toks) : Prop :=
  match x with [] => True | s :: _ => s = "," \/ s = ">" end.

Lemma scan_prefix : forall a d b e f,
  scan d a = Some e -> scan d (a ++ b) = f -> scan e b = f.
Proof.
  induction a as [|x a IH]; intros d b e f H1 H2; cbn [scan app] in *; [congruence|].
  destruct (x =? ","); [destruct d; [discriminate H1|]; eapply IH; eauto|].
  destruct (opens x); [eapply IH; eauto|].
  destruct (closes x); [destruct d; [discriminate H1|]; eapply IH; eauto|]. eapply IH; eauto.
Qed.

Lemma stops_scan s r : s = "," \/ s = ">" -> scan 0 (s :: r) = None.
Proof. intros [->| ->]; reflexivity. Qed.

Lemma member_prefix a b x y :
  scan 0 a = Some 0 -> scan 0 b = Some 0 -> stops x -> stops y -> a ++ x = b ++ y -> a = b /\ x = y.
Proof.
  assert (G : forall a b, scan 0 a = Some 0 -> scan 0 (a ++ b) = Some 0 -> stops b -> b = []).
  { intros a0 b0 H1 H2 S. destruct b0 as [|s r]; [reflexivity|]. cbn in S.
    pose proof (scan_prefix a0 0 (s :: r) 0 _ H1 H2) as K. rewrite (stops_scan s r S) in K. discriminate K. }
  intros H1 H2 S1 S2 E.
  destruct (Nat.le_gt_cases (length a) (length b)) as [L|L].
  - assert (K : exists z, b = a ++ z /\ x = z ++ y).
    { clear - E L. revert b E L. induction a as [|c a IH]; intros b E L; [exists b; auto|].
      destruct b as [|c' b]; [cbn in L; lia|]. cbn in E. injection E as -> E. cbn in L.
      destruct (IH b E) as (z & -> & ->); [lia|]. exists z. auto. }
    destruct K as (z & -> & ->). assert (z = []).
    { apply (G a z H1 H2). destruct z; [exact I|exact S1]. }
    subst z. rewrite app_nil_r. auto.
  - assert (K : exists z, a = b ++ z /\ y = z ++ x).
    { clear - E L. revert a E L. induction b as [|c b IH]; intros a E L; [exists a; auto|].
      destruct a as [|c' a]; [cbn in L; lia|]. cbn in E. injection E as -> E. cbn in L.
      destruct (IH a E) as (z & -> & ->); [lia|]. exists z. auto. }
    destruct K as (z & -> & ->). assert (z = []).
    { apply (G b z H2 H1). destruct z; [exact I|exact S2]. }
    subst z. rewrite app_nil_r. auto.
Qed.

Lemma commas_cons t l : commas (t :: l) = t ++ match l with [] => [] | _ => "," :: commas l end.
Proof. destruct l; cbn; [rewrite app_nil_r|]; reflexivity. Qed.

Lemma commas_inj : forall l m,
  Forall one_member l -> Forall one_member m -> commas l = commas m -> l = m.
Proof.
  induction l as [|a l IH]; intros [|b m] H1 H2 E; [reflexivity| | |].
  - inversion H2 as [|? ? [N _] _]; subst. rewrite commas_cons in E. destruct b; [congruence|discriminate E].
  - inversion H1 as [|? ? [N _] _]; subst. rewrite commas_cons in E. destruct a; [congruence|discriminate E].
  - inversion H1 as [|? ? [N1 S1] H1']; subst. inversion H2 as [|? ? [N2 S2] H2']; subst.
    rewrite !commas_cons in E. apply member_prefix in E; auto.
    + destruct E as [-> E]. f_equal. destruct l as [|a' l], m as [|b' m]; try discriminate E; [reflexivity|].
      injection E as E. apply IH; auto.
    + destruct l; cbn; auto.
    + destruct m; cbn; auto.
Qed.

(** ** The check *)

Definition out (x : bool * toks * bool) : toks := snd (fst x) ++ (if snd x then [","] else []).

Lemma pairs_out : forall l trailing,
  l <> [] -> concat (map out (pairs l trailing)) = commas (map snd l) ++ (if trailing then [","] else []).
Proof.
  induction l as [|[lf t] l IH]; intros tr N; [congruence|]. destruct l as [|y l'].
  - cbn. rewrite app_nil_r. unfold out. reflexivity.
  - remember (y :: l') as l. assert (P : pairs ((lf, t) :: l) tr = (lf, t, true) :: pairs l tr) by (subst l; destruct y; reflexivity).
    rewrite P. cbn [map concat]. rewrite IH by (subst l; discriminate). rewrite commas_cons.
    unfold out. cbn [fst snd]. subst l. cbn [map]. rewrite <- !app_assoc. reflexivity.
Qed.

Lemma pairs_in : forall l tr x, In x (pairs l tr) -> In (fst x) l.
Proof.
  induction l as [|[lf t] l IH]; intros tr x H; [destruct H|]. destruct l as [|y l'].
  - destruct H as [<-|[]]. left. reflexivity.
  - remember (y :: l') as l. assert (P : pairs ((lf, t) :: l) tr = (lf, t, true) :: pairs l tr) by (subst l; destruct y; reflexivity).
    rewrite P in H. destruct H as [<-|H]; [left; reflexivity|right; eapply IH; eauto].
Qed.

Lemma pairs_fst : forall l tr, map fst (pairs l tr) = l.
Proof.
  induction l as [|[lf t] l IH]; intros tr; [reflexivity|]. destruct l as [|y l']; [reflexivity|].
  remember (y :: l') as l. assert (P : pairs ((lf, t) :: l) tr = (lf, t, true) :: pairs l tr) by (subst l; destruct y; reflexivity).
  rewrite P. cbn. rewrite IH. reflexivity.
Qed.

Lemma filter_none {A} (f : A -> bool) l : (forall x, In x l -> f x = false) -> filter f l = [].
Proof.
  induction l as [|x l IH]; intros H; [reflexivity|]. cbn. rewrite (H x (or_introl eq_refl)).
  apply IH. intros y Hy. apply H. right. exact Hy.
Qed.
Lemma filter_all {A} (f : A -> bool) l : (forall x, In x l -> f x = true) -> filter f l = l.
Proof.
  induction l as [|x l IH]; intros H; [reflexivity|]. cbn. rewrite (H x (or_introl eq_refl)).
  f_equal. apply IH. intros y Hy. apply H. right. exact Hy.
Qed.

(** Printing without lifetimes. *)
Lemma print_plain g :
  gn_params g <> [] -> (forall x, In x (gn_params g) -> fst x = false) ->
  print_generics g = "<" :: commas (map snd (gn_params g)) ++ (if gn_trailing g then [","] else []) ++ [">"].
Proof.
  intros N F. unfold print_generics. destruct (gn_params g) as [|p0 l0] eqn:Ep; [congruence|]. rewrite <- Ep in *. clear Ep p0 l0.
  cbv zeta. change (fun x : bool * toks * bool => snd (fst x) ++ (if snd x then [","] else [])) with out.
  rewrite (filter_none (fun x => fst (fst x))).
  2:{ intros x Hx. apply pairs_in in Hx. apply F, Hx. }
  rewrite (filter_all (fun x => negb (fst (fst x)))).
  2:{ intros x Hx. apply pairs_in in Hx. rewrite (F _ Hx). reflexivity. }
  cbn [map concat rev app]. rewrite pairs_out by exact N. rewrite <- app_assoc. reflexivity.
Qed.

(** With a lifetime, a lifetime comes first. *)
Lemma print_lifetime g :
  (exists l, In (true, l) (gn_params g)) ->
  exists l x, In (true, l) (gn_params g) /\ stops x /\ print_generics g = "<" :: l ++ x.
Proof.
  intros (l & Hl). unfold print_generics. destruct (gn_params g) as [|p0 l0] eqn:Ep; [destruct Hl|]. rewrite <- Ep in *. clear Ep p0 l0.
  cbv zeta. change (fun x : bool * toks * bool => snd (fst x) ++ (if snd x then [","] else [])) with out.
  set (prs := pairs (gn_params g) (gn_trailing g)).
  destruct (filter (fun x => fst (fst x)) prs) as [|[[lf t] c] lts] eqn:F.
  - exfalso. rewrite <- (pairs_fst (gn_params g) (gn_trailing g)) in Hl. fold prs in Hl. apply in_map_iff in Hl.
    destruct Hl as (x & E & Hx).
    assert (K : In x (filter (fun x => fst (fst x)) prs)) by (apply filter_In; rewrite E; auto).
    rewrite F in K. destruct K.
  - assert (Hin : In (lf, t, c) prs /\ lf = true).
    { assert (K : In (lf, t, c) (filter (fun x => fst (fst x)) prs)) by (rewrite F; left; reflexivity).
      apply filter_In in K. exact K. }
    destruct Hin as [Hin ->]. exists t. eexists. split; [apply pairs_in in Hin; exact Hin|].
    cbn [map concat]. unfold out at 1 2. cbn [fst snd]. 
    assert (As : forall a b c d e : toks, ((a ++ b) ++ c) ++ d ++ e = a ++ (b ++ c ++ d ++ e))
      by (intros; rewrite <- !app_assoc; reflexivity).
    split; [|rewrite As; reflexivity].
    destruct c; [cbn; auto|]. cbn [app].
    (* no comma: then it is the last parameter *)
    assert (Last : lts = []).
    { clear - F. unfold prs in F. revert F. generalize (gn_params g) (gn_trailing g). intros l tr.
      assert (K : forall m (q : list (bool * toks * bool)) , In (true, t, false) m ->
         (forall k, nth_error m k = Some (true, t, false) -> S k = length m) ->
         forall r, filter (fun x => fst (fst x)) m = (true, t, false) :: r -> r = []).
      { intros m _. induction m as [|y m IH]; intros Hin Hlast r E; [destruct Hin|]. cbn in E.
        destruct (fst (fst y)) eqn:Y.
        - injection E as -> E. specialize (Hlast 0 eq_refl). cbn in Hlast. destruct m; [|cbn in Hlast; lia].
          symmetry. exact E.
        - destruct Hin as [->|Hin]; [discriminate Y|]. apply (IH Hin).
          + intros k Hk. specialize (Hlast (S k) Hk). cbn in Hlast. lia.
          + exact E. }
      intros F. apply (K (pairs l tr) []); auto.
      - assert (In (true, t, false) (filter (fun x => fst (fst x)) (pairs l tr))) as X by (rewrite F; left; reflexivity).
        apply filter_In in X. apply X.
      - clear F K. revert tr. induction l as [|[lf0 t0] l IH]; intros tr k Hk; [destruct k; discriminate Hk|].
        destruct l as [|y l'].
        + destruct k as [|k]; [reflexivity|]. destruct k; discriminate Hk.
        + remember (y :: l') as l1.
          assert (P : pairs ((lf0, t0) :: l1) tr = (lf0, t0, true) :: pairs l1 tr) by (subst l1; destruct y; reflexivity).
          rewrite P in *. destruct k as [|k]; [discriminate Hk|]. cbn in Hk |- *. f_equal. apply (IH tr). exact Hk. }
    subst lts. cbn [map concat rev app snd].
    destruct (filter (fun x => negb (fst (fst x))) prs); cbn; auto.
Qed.

Lemma commas_app_stop l x : one_member (hd [] l) -> exists y,
  l <> [] -> commas l ++ ">" :: x = hd [] l ++ y /\ stops y.
Proof.
  destruct l as [|t l]; intros H; [exists []; congruence|]. cbn [hd]. rewrite commas_cons, <- app_assoc.
  eexists. intros _. split; [reflexivity|]. destruct l; cbn; auto.
Qed.

Theorem check_fields_spec i d :
  parse_data i = Some d -> sensible_tokens i ->
  (check_fields d = true <-> map snd (gn_params (ei_generics i)) = all_fields i).
Proof.
  intros D (S1 & S2 & S3). unfold check_fields. rewrite (all_fields_types _ _ D).
  destruct (parse_data_spec _ _ D) as (Ei & _). unfold d_generics. rewrite Ei.
  pose proof (fields_ne _ _ D) as NE.
  set (g := ei_generics i) in *. set (fs := all_fields i) in *.
  rewrite toks_eqb_eq.
  assert (LT : (exists l, In (true, l) (gn_params g)) \/ forall x, In x (gn_params g) -> fst x = false).
  { destruct (existsb fst (gn_params g)) eqn:E.
    - apply existsb_exists in E. destruct E as ([lf l] & Hin & E). cbn in E. subst lf. left. eauto.
    - right. intros x Hx. destruct (fst x) eqn:Fx; [|reflexivity]. exfalso. rewrite <- not_true_iff_false in E.
      apply E. apply existsb_exists. exists x. auto. }
  destruct LT as [LT|NL].
  - assert (N1 : map snd (gn_params g) <> fs).
    { intros E. destruct LT as (l & Hl). apply (S3 l Hl). rewrite <- E. apply in_map_iff. exists (true, l). auto. }
    split; [|contradiction]. intros E. exfalso.
    destruct (print_lifetime g LT) as (l & x & Hl & Sx & P). rewrite P in E. injection E as E.
    destruct fs as [|t fs'] eqn:Ef; [congruence|].
    rewrite commas_cons, <- app_assoc in E.
    rewrite Forall_forall in S1. destruct (S1 l) as [_ Sl]; [apply in_map_iff; exists (true, l); auto|].
    inversion S2 as [|? ? [_ St] _]; subst.
    apply member_prefix in E; auto.
    + destruct E as [-> _]. apply (S3 t Hl). left. reflexivity.
    + destruct fs'; [|cbn; auto]. cbn [app].
      destruct ((match gn_params g with [] => true | _ => false end) || gn_trailing g); cbn; auto.
  - destruct (gn_params g) as [|p0 l0] eqn:Ep.
    + unfold print_generics. rewrite Ep. cbn [map]. split; [discriminate|]. intros E. congruence.
    + assert (NP : gn_params g <> []) by congruence. rewrite <- Ep in *.
      rewrite (print_plain g NP NL). cbn [orb]. split.
      * intros E. injection E as E. apply app_inv_tail in E. apply commas_inj; auto.
      * intros ->. reflexivity.
Qed.

(** ** Failures *)

(** Only transposition can be refused by a derive function. *)
Lemma derives_total :
  Forall2 (fun e n => match n with Some _ => forall d, exists x, en_derive e d = inr x
                      | None => en_names e = ["Transpose"] /\ en_derive e = ty_impls_transpose_derive end)
    derives entry_traits.
Proof.
  unfold derives, entry_traits.
  repeat (constructor; [first [split; reflexivity | intros d; eexists; reflexivity]|]). constructor.
Qed.

Lemma process_fails feat d : forall rs st e,
  process feat d rs st = inl e ->
  exists r f msg, In r rs /\ get_derive feat (fst r) = Some f /\ f d = inl msg /\ e = ErrDerive (fst r) msg.
Proof.
  induction rs as [|[s arg] rs IH]; intros st e H; [discriminate H|]. cbn [process] in H.
  destruct (get_derive feat s) as [f|] eqn:G.
  - destruct (f d) as [msg|[pin its]] eqn:F.
    + injection H as <-. exists (s, arg), f, msg. cbn. auto.
    + destruct (IH _ _ H) as (r & f' & msg & Hr & K). exists r, f', msg. split; [right; exact Hr|exact K].
  - destruct arg; destruct (IH _ _ H) as (r & f' & msg & Hr & K); exists r, f', msg; (split; [right; exact Hr|exact K]).
Qed.

Lemma line_total k e n : line k e n ->
  match n with Some _ => forall d, exists x, en_derive e d = inr x
  | None => en_names e = ["Transpose"] /\ en_derive e = ty_impls_transpose_derive end.
Proof.
  intros [H1 H2]. pose proof derives_total as T. revert k H1 H2. induction T as [|x y l m Hxy _ IH]; intros [|k] H1 H2; try discriminate.
  - injection H1 as <-. injection H2 as <-. exact Hxy.
  - eapply IH; eauto.
Qed.

Lemma transpose_not_dep feat s : ~ In "Transpose" (get_trait_deps feat s).
Proof.
  intros H. apply deps_needs in H. destruct H as (f & deps & Hin & Hd & _). unfold needed in Hin. cbn [In] in Hin.
  repeat (destruct Hin as [E|Hin]; [injection E as _ _ <-; cbn [In] in Hd;
    repeat (destruct Hd as [Hd|Hd]; [discriminate Hd|]); exact Hd|]).
  exact Hin.
Qed.

(** Every request is an argument or a dependency. *)
Lemma requests_origin feat ps x :
  In x (map fst (requests feat (map named ps))) ->
  In x (map path_text ps) \/ exists p, In p ps /\ In x (get_trait_deps feat (path_text p)).
Proof.
  unfold requests.
  assert (Gn : forall todo v,
    In x (map fst (fold_left (add_arg feat (map named ps)) (map named todo) v)) ->
    In x (map fst v) \/ In x (map path_text todo) \/ exists p, In p todo /\ In x (get_trait_deps feat (path_text p))).
  { induction todo as [|p todo IH]; intros v H; [auto|]. cbn [map fold_left] in H.
    destruct (IH _ H) as [K|[K|(q & Hq & K)]].
    - assert (Eadd : add_arg feat (map named ps) v (named p)
        = let v1 := fold_left (push_dep feat) (missing feat (map named ps) (path_text p)) v in
          if exists_alias feat (path_text p) v1 then v1 else v1 ++ [(path_text p, Some p)]) by reflexivity.
      rewrite Eadd in K. cbv zeta in K. clear Eadd H IH.
      assert (PD : forall l v, In x (map fst (fold_left (push_dep feat) l v)) -> In x (map fst v) \/ In x l).
      { induction l as [|t l IHl]; intros v0 H; [auto|]. cbn in H. destruct (IHl _ H) as [Q|Q]; [|cbn; auto].
        unfold push_dep in Q. destruct (exists_alias feat t v0); [auto|].
        rewrite map_app, in_app_iff in Q. cbn in Q. destruct Q as [Q|[->|[]]]; cbn; auto. }
      assert (K' : In x (map fst (fold_left (push_dep feat) (missing feat (map named ps) (path_text p)) v)) \/ x = path_text p).
      { destruct (exists_alias _ _ _); [auto|]. rewrite map_app, in_app_iff in K. cbn in K.
        destruct K as [K|[->|[]]]; auto. }
      destruct K' as [K'| ->]; [|right; left; left; reflexivity].
      destruct (PD _ _ K') as [Q|Q]; [auto|]. right. right. exists p. split; [left; reflexivity|].
      apply missing_spec in Q. apply Q.
    - right. left. right. exact K.
    - right. right. exists q. split; [right; exact Hq|exact K]. }
  intros H. destruct (Gn ps [] H) as [[]|K]. exact K.
Qed.

Lemma newtype_spec i : newtype_variants i <-> exists d, parse_data i = Some d.
Proof.
  unfold newtype_variants, parse_data. split.
  - intros [N F]. destruct (ei_variants i) as [|v0 l0] eqn:E; [congruence|]. rewrite <- E in *. clear N E.
    assert (K : exists ts, variant_types (ei_variants i) = Some ts).
    { induction F as [|v l (t & F1 & F2) _ (ts & IH)]; [exists []; reflexivity|]. cbn.
      unfold variant_type. rewrite F1, F2, IH. eauto. }
    destruct K as (ts & ->). eauto.
  - intros (d & D). destruct (ei_variants i) as [|v0 l0] eqn:E; [discriminate D|]. rewrite <- E in *. split; [congruence|].
    destruct (variant_types (ei_variants i)) as [ts|] eqn:T; [|discriminate D]. clear D E.
    revert ts T. induction (ei_variants i) as [|v l IH]; intros ts T; [constructor|]. cbn in T.
    destruct (variant_type v) as [t|] eqn:Vt; [|discriminate T]. destruct (variant_types l) as [ts'|]; [|discriminate T].
    constructor; [|eapply IH; eauto]. exists t. unfold variant_type in Vt.
    destruct (vi_discriminant v); [discriminate Vt|]. destruct (vi_fields v) as [|[|y [|? ?]]|]; try discriminate Vt.
    injection Vt as ->. auto.
Qed.

(** An expansion succeeds exactly if the enum and the list have the right form and transposition is not refused. *)
Theorem succeeds_exactly feat ts i :
  (exists o, enum_derive feat ts i = inr o) <->
  exists d ps, parse_data i = Some d /\ arg_list (map Trait ps) ts
    /\ ((exists p, In p ps /\ is_transpose feat (path_text p)) -> check_fields d = true).
Proof.
  split.
  - intros (o & H). destruct (expansion _ _ _ _ H) as (d & ps & D & HA & E1 & E2 & F).
    exists d, ps. split; [exact D|]. split; [exact HA|]. intros (p & Hp & M).
    apply transpose_line in M. destruct M as (k & e & L & Hs & He).
    assert (C : covered feat (path_text p) (requests feat (map named ps)))
      by (apply (proj1 (requests_cover feat (map named ps) (named p) (in_map named _ _ Hp)))).
    destruct (covered_items _ _ _ _ _ _ _ F C L Hs He) as (pin & its & Ed & _).
    destruct (line_total _ _ _ L) as [_ Ee]. rewrite Ee in Ed. unfold ty_impls_transpose_derive in Ed.
    destruct (check_fields d); [reflexivity|discriminate Ed].
  - intros (d & ps & D & HA & HT). unfold enum_derive. rewrite D.
    assert (P : parse_traits ts = Some (map named ps)) by (apply parse_traits_grammar; eauto). rewrite P.
    destruct (process feat d (requests feat (map named ps)) (DState [] [] false)) as [e|st] eqn:Pr; [|eauto].
    exfalso. apply process_fails in Pr. destruct Pr as (r & f & msg & Hr & G & Fd & _).
    destruct (get_derive_found _ _ _ G) as (k & e' & n & L & Hs & He & -> & _).
    pose proof (line_total _ _ _ L) as T. destruct n as [tr|].
    + destruct (T d) as (x & X). congruence.
    + destruct T as [T1 T2]. rewrite T1 in Hs. destruct Hs as [Es|[]].
      rewrite T2 in Fd. unfold ty_impls_transpose_derive in Fd.
      assert (C : check_fields d = true); [|rewrite C in Fd; discriminate Fd].
      apply HT. destruct (requests_origin feat ps (fst r) (in_map fst _ _ Hr)) as [K|(p & Hp & K)].
      * apply in_map_iff in K. destruct K as (p & E & Hp). exists p. split; [exact Hp|].
        rewrite E. apply transpose_line. exists k, e'. rewrite T1. split; [exact L|]. split; [left; exact Es|exact He].
      * exfalso. rewrite <- Es in K. exact (transpose_not_dep _ _ K).
Qed.

(** What the error says when transposition is refused. *)
Theorem refused_error feat ts i d ps :
  parse_data i = Some d -> arg_list (map Trait ps) ts ->
  (exists p, In p ps /\ is_transpose feat (path_text p)) -> check_fields d = false ->
  enum_derive feat ts i = inl (ErrDerive "Transpose" "all fields need to be generics").
Proof.
  intros D HA HT C. destruct (enum_derive feat ts i) as [e|o] eqn:H.
  - unfold enum_derive in H. rewrite D in H.
    assert (P : parse_traits ts = Some (map named ps)) by (apply parse_traits_grammar; eauto). rewrite P in H.
    destruct (process feat d (requests feat (map named ps)) (DState [] [] false)) as [e'|st] eqn:Pr; [|discriminate H].
    injection H as ->. apply process_fails in Pr. destruct Pr as (r & f & msg & Hr & G & Fd & ->).
    destruct (get_derive_found _ _ _ G) as (k & e' & n & L & Hs & He & -> & _).
    pose proof (line_total _ _ _ L) as T. destruct n as [tr|].
    + destruct (T d) as (x & X). congruence.
    + destruct T as [T1 T2]. rewrite T1 in Hs. destruct Hs as [Es|[]].
      rewrite T2 in Fd. unfold ty_impls_transpose_derive in Fd. rewrite C in Fd. injection Fd as <-. rewrite <- Es. reflexivity.
  - exfalso. assert (X : exists o, enum_derive feat ts i = inr o) by eauto.
    apply succeeds_exactly in X. destruct X as (d' & ps' & D' & HA' & K).
    rewrite (arg_list_unique _ _ _ HA' HA) in K. assert (d' = d) by congruence. subst d'. rewrite (K HT) in C. discriminate C.
Qed.

(** ** Generated enums *)

Lemma item_of_parses i vs dv : vs <> [] ->
  exists d, parse_data (item_of (GEnum i vs (combine vs vs) dv)) = Some d.
Proof.
  intros N. apply newtype_spec. split.
  - cbn. destruct vs; [congruence|discriminate].
  - cbn. apply Forall_forall. intros x Hx. apply in_map_iff in Hx. destruct Hx as (y & <- & _). cbn. eauto.
Qed.

Lemma item_of_fields i vs dv : all_fields (item_of (GEnum i vs (combine vs vs) dv)) = map (fun v => [v]) vs.
Proof.
  unfold all_fields, item_of. cbn. induction vs as [|v vs IH]; [reflexivity|]. cbn. f_equal. exact IH.
Qed.

(** The name of a variant is an identifier. *)
Lemma variant_member k : one_member [variant_name k].
Proof.
  split; [discriminate|]. unfold variant_name. cbn. reflexivity.
Qed.
