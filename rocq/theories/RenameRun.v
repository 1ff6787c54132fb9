(** Rename.v for the runs of the macro. *)

Require Import Coq.Strings.String Coq.Lists.List Coq.Bool.Bool Coq.Arith.Arith Coq.NArith.NArith Lia.
Require Import Verif.Syntax Verif.Context Verif.ExprModel Verif.TypeAnalysis Verif.AutoEnum.
Require Import Verif.AstInd Verif.RunLemmas Verif.Outside Verif.OutsideRun Verif.ExitsTop Verif.FoundRun Verif.Rename Verif.RenamePlain Verif.RenameKept Verif.RenameStay.
Import ListNotations.
Open Scope string_scope.
Open Scope list_scope.

(** One step of the renaming. *)
Lemma re_1 fm fe a l b : re_expr fm fe (EBlock a l b) = EBlock a l (map (re_stmt fm fe) b).
Proof. reflexivity. Qed.
Lemma re_2 fm fe k a b : re_expr fm fe (EBlk k a b) = EBlk k a (map (re_stmt fm fe) b).
Proof. reflexivity. Qed.
Lemma re_3 fm fe a s arms : re_expr fm fe (EMatch a s arms) = EMatch a ((re_expr fm fe) s) (map (re_arm fm fe) arms).
Proof. reflexivity. Qed.
Lemma re_4 fm fe a c t els : re_expr fm fe (EIf a c t els) = EIf a ((re_expr fm fe) c) (map (re_stmt fm fe) t) (option_map (re_expr fm fe) els).
Proof. reflexivity. Qed.
Lemma re_5 fm fe a p e : re_expr fm fe (ELet a p e) = ELet a p ((re_expr fm fe) e).
Proof. reflexivity. Qed.
Lemma re_6 fm fe a l b : re_expr fm fe (ELoop a l b) = ELoop a l (map (re_stmt fm fe) b).
Proof. reflexivity. Qed.
Lemma re_7 fm fe a l c b : re_expr fm fe (EWhile a l c b) = EWhile a l ((re_expr fm fe) c) (map (re_stmt fm fe) b).
Proof. reflexivity. Qed.
Lemma re_8 fm fe a l p it b : re_expr fm fe (EFor a l p it b) = EFor a l p ((re_expr fm fe) it) (map (re_stmt fm fe) b).
Proof. reflexivity. Qed.
Lemma re_9 fm fe a l e : re_expr fm fe (EBreak a l e) = EBreak a l (option_map (re_expr fm fe) e).
Proof. reflexivity. Qed.
Lemma re_10 fm fe a l : re_expr fm fe (EContinue a l) = EContinue a l.
Proof. reflexivity. Qed.
Lemma re_11 fm fe a e : re_expr fm fe (EReturn a e) = EReturn a (option_map (re_expr fm fe) e).
Proof. reflexivity. Qed.
Lemma re_12 fm fe a e : re_expr fm fe (ETry a e) = ETry a ((re_expr fm fe) e).
Proof. reflexivity. Qed.
Lemma re_13 fm fe a ps b : re_expr fm fe (EClosure a ps b) = EClosure a ps ((re_expr fm fe) b).
Proof. reflexivity. Qed.
Lemma re_14 fm fe a m : re_expr fm fe (EMacro a m) = EMacro a ((re_mac fm fe) m).
Proof. reflexivity. Qed.
Lemma re_15 fm fe a r m args : re_expr fm fe (EMethodCall a r m args) = EMethodCall a ((re_expr fm fe) r) m (map (re_expr fm fe) args).
Proof. reflexivity. Qed.
Lemma re_16 fm fe a e : re_expr fm fe (EParen a e) = EParen a ((re_expr fm fe) e).
Proof. reflexivity. Qed.
Lemma re_17 fm fe a f args : re_expr fm fe (ECall a f args) = ECall a ((re_expr fm fe) f) (map (re_expr fm fe) args).
Proof. reflexivity. Qed.
Lemma re_18 fm fe a q p : re_expr fm fe (EPath a q p) = EPath a q ((re_variant fe) p).
Proof. reflexivity. Qed.
Lemma re_19 fm fe a k es : re_expr fm fe (EOther a k es) = EOther a k (map (re_expr fm fe) es).
Proof. reflexivity. Qed.
Lemma re_20 fm fe s : re_expr fm fe (EVerbatim s) = EVerbatim s.
Proof. reflexivity. Qed.
Lemma re_21 fm fe l : re_stmt fm fe (SLocal l) = SLocal ((re_local fm fe) l).
Proof. reflexivity. Qed.
Lemma re_22 fm fe i : re_stmt fm fe (SItem i) = SItem ((re_item fe) i).
Proof. reflexivity. Qed.
Lemma re_23 fm fe e semi : re_stmt fm fe (SExpr e semi) = SExpr ((re_expr fm fe) e) semi.
Proof. reflexivity. Qed.
Lemma re_24 fm fe a m semi : re_stmt fm fe (SMacro a m semi) = SMacro a ((re_mac fm fe) m) semi.
Proof. reflexivity. Qed.
Lemma re_25 fm fe a p t i d : re_local fm fe (Local a p t i d) = Local a p t (option_map (re_expr fm fe) i) (option_map (re_expr fm fe) d).
Proof. reflexivity. Qed.
Lemma re_26 fm fe a p g b c : re_arm fm fe (Arm a p g b c) = Arm a p (option_map (re_expr fm fe) g) ((re_expr fm fe) b) c.
Proof. reflexivity. Qed.
Lemma re_27 fm fe p e : re_mac fm fe (Mac p e) = Mac ((re_path fm) p) (option_map (re_expr fm fe) e).
Proof. reflexivity. Qed.
#[global] Hint Rewrite re_1 re_2 re_3 re_4 re_5 re_6 re_7 re_8 re_9 re_10 re_11 re_12 re_13 re_14 re_15 re_16 re_17 re_18 re_19 re_20 re_21 re_22 re_23 re_24 re_25 re_26 re_27 : re.

Section Run.
  Variables fm fe : string -> string.
  Hypotheses (Inj : forall a b, fm a = fm b -> a = b) (Res : forall s, reserved s = true -> fm s = s).
  Notation sp := (re_path fm).
  Notation se := (re_expr fm fe).
  Notation ss := (re_stmt fm fe).
  Notation sl := (re_local fm fe).
  Notation sa := (re_arm fm fe).
  Notation sm := (re_mac fm fe).

  (** The context with the new names. *)
  Definition rn (cx : ctx) : ctx :=
    Ctx (fe (cx_ident cx)) (cx_variants cx) (fm (cx_marker cx)) (map fm (cx_markers cx)) (cx_root cx) (cx_has_child cx)
        (cx_mode cx) (cx_last cx) (cx_errs cx) (cx_args cx) (cx_traits cx).

  (** The result renamed. *)
  Definition renamed {A B} (f : A -> B) (r : res (A * ctx)) : res (B * ctx) :=
    match r with
    | ROk (a, cx) => ROk (f a, rn cx)
    | RFuel => RFuel
    | RPanic s => RPanic s
    end.

  (** [m1] does on renamed contexts what [m0] does. *)
  Definition tw {A B} (f : A -> B) (m0 : M A) (m1 : M B) : Prop := forall cx, m1 (rn cx) = renamed f (m0 cx).

  Definition same {A} (a : A) : A := a.

  Lemma tw_ret {A B} (f : A -> B) a b : b = f a -> tw f (ret a) (ret b).
  Proof. intros -> cx. reflexivity. Qed.
  Lemma tw_bind {A B C D} (f : A -> C) (g : B -> D) m0 m1 k0 k1 :
    tw f m0 m1 -> (forall a, tw g (k0 a) (k1 (f a))) -> tw g (bind m0 k0) (bind m1 k1).
  Proof.
    intros Hm Hk cx. unfold bind. rewrite (Hm cx). destruct (m0 cx) as [[a c]| |]; cbn [renamed]; auto. apply Hk.
  Qed.
  Lemma tw_bind_if {A B C D} (f : A -> C) (g : B -> D) (P : A -> Prop) m0 m1 k0 k1 :
    keeps P m0 -> tw f m0 m1 -> (forall a, P a -> tw g (k0 a) (k1 (f a))) -> tw g (bind m0 k0) (bind m1 k1).
  Proof.
    intros K Hm Hk cx. unfold bind. rewrite (Hm cx). destruct (m0 cx) as [[a c]| |] eqn:E; cbn [renamed]; auto. apply Hk.
    eapply K. exact E.
  Qed.
  Lemma tw_gets {A B C D} (f : A -> C) (g : B -> D) r0 r1 k0 k1 :
    (forall cx, r1 (rn cx) = f (r0 cx)) -> (forall a, tw g (k0 a) (k1 (f a))) -> tw g (bind (gets r0) k0) (bind (gets r1) k1).
  Proof. intros H K. apply (tw_bind f); [|exact K]. intros cx. unfold gets. rewrite H. reflexivity. Qed.
  Lemma tw_read {A B D} (g : B -> D) (r0 r1 : ctx -> A) k0 k1 :
    (forall cx, r1 (rn cx) = r0 cx) -> (forall a, tw g (k0 a) (k1 a)) -> tw g (bind (gets r0) k0) (bind (gets r1) k1).
  Proof. intros H K. apply (tw_gets same); [exact H|exact K]. Qed.
  Lemma tw_panic {A B} (f : A -> B) s : tw f (panic s) (panic s).
  Proof. intros cx. reflexivity. Qed.
  Lemma tw_fuel {A B} (f : A -> B) : tw f out_of_fuel out_of_fuel.
  Proof. intros cx. reflexivity. Qed.
  Lemma tw_massert f0 f1 s : (forall cx, f1 (rn cx) = f0 cx) -> tw same (massert f0 s) (massert f1 s).
  Proof. intros H cx. unfold massert. rewrite H. destruct (f0 cx); reflexivity. Qed.
  Lemma tw_modify f0 f1 : (forall cx, f1 (rn cx) = rn (f0 cx)) -> tw same (modify f0) (modify f1).
  Proof. intros H cx. unfold modify. rewrite H. reflexivity. Qed.
  Lemma tw_error e : tw same (error e) (error e).
  Proof. apply tw_modify. reflexivity. Qed.
  Lemma tw_mapM {A B} (g : A -> B) (f0 : A -> M A) (f1 : B -> M B) l :
    Forall (fun z => tw g (f0 z) (f1 (g z))) l -> tw (map g) (mapM f0 l) (mapM f1 (map g l)).
  Proof.
    induction l; cbn [mapM map]; intros H; [apply tw_ret; reflexivity|]. inversion H; subst.
    apply (tw_bind g); [assumption|]. intros b. apply (tw_bind (map g)); [auto|]. intros; apply tw_ret; reflexivity.
  Qed.
  Lemma tw_optM {A B} (g : A -> B) (f0 : A -> M A) (f1 : B -> M B) o :
    opt_all (fun z => tw g (f0 z) (f1 (g z))) o -> tw (option_map g) (optM f0 o) (optM f1 (option_map g o)).
  Proof.
    destruct o; cbn; intros H; [|apply tw_ret; reflexivity]. apply (tw_bind g); [assumption|]. intros; apply tw_ret; reflexivity.
  Qed.

  (** ** What is read *)

  Lemma se_attrs e : e_attrs (se e) = e_attrs e.
  Proof. destruct e; reflexivity. Qed.
  Lemma se_set e a : set_attrs (se e) a = se (set_attrs e a).
  Proof. destruct e; reflexivity. Qed.

  Lemma fm_eqb a b : (fm a =? fm b) = (a =? b).
  Proof.
    destruct (String.eqb_spec a b) as [->|N]; [apply String.eqb_refl|]. apply String.eqb_neq. intros H. apply N, Inj, H.
  Qed.
  Lemma sp_ident p s : is_ident (sp p) (fm s) = is_ident p s.
  Proof. destruct p as [[] [|[i []] []]]; try reflexivity. cbn. apply fm_eqb. Qed.
  Lemma sp_path_eq p i : reserved i = true -> path_eq (sp p) ["std"; "core"] [i] = path_eq p ["std"; "core"] [i].
  Proof.
    intros R. destruct p as [[] [|[s []] []]]; try reflexivity. cbn [re_path]. unfold path_eq, path_ids. cbn.
    rewrite <- (fm_eqb s i), (Res i R). reflexivity.
  Qed.

  Lemma sm_exact cx m : is_marker_macro_exact (rn cx) (sm m) = is_marker_macro_exact cx m.
  Proof. destruct m. unfold is_marker_macro_exact. cbn. apply sp_ident. Qed.
  Lemma sm_marker cx m : is_marker_macro (rn cx) (sm m) = is_marker_macro cx m.
  Proof.
    unfold is_marker_macro. rewrite sm_exact. change (cx_root (rn cx)) with (cx_root cx).
    destruct (_ || _); [reflexivity|]. cbn [rn cx_markers]. induction (cx_markers cx) as [|k l IH]; [reflexivity|].
    cbn [map existsb]. rewrite IH. destruct m. (cbn [mac_path]; autorewrite with re; cbn [mac_path]). rewrite sp_ident. reflexivity.
  Qed.
  Lemma se_marker cx e : is_marker_expr (rn cx) (se e) = is_marker_expr cx e.
  Proof. destruct e; try reflexivity. apply sm_marker. Qed.
  Lemma sm_unreachable cx m : is_unreachable_macro (rn cx) (sm m) = is_unreachable_macro cx m.
  Proof.
    unfold is_unreachable_macro. rewrite sm_marker. destruct m as [p e]. (cbn [mac_path existsb]; autorewrite with re; cbn [mac_path existsb]).
    rewrite !sp_path_eq by reflexivity. reflexivity.
  Qed.

  Lemma on_last_map {A} (f g : stmt -> A) d b : Forall (fun s => g (ss s) = f s) b -> on_last g d (map ss b) = on_last f d b.
  Proof. induction 1 as [|z l E F IH]; [reflexivity|]. cbn [map on_last]. destruct l; [exact E|exact IH]. Qed.

  Lemma variant_path p c a b d : path_eq (re_variant fe p) c [a; b; d] = path_eq p c [a; b; d].
  Proof. destruct p as [[] [|[i []] [|[k []] []]]]; reflexivity. Qed.
  Lemma se_try e : is_try_exit (se e) = is_try_exit e.
  Proof.
    destruct e; try reflexivity; autorewrite with re; cbn [is_try_exit].
    - rewrite map_length. destruct (_ =? 1)%nat; [|reflexivity]. destruct e; try reflexivity. autorewrite with re.
      destruct qself; [reflexivity|]. apply variant_path.
    - destruct qself; [reflexivity|]. apply variant_path.
  Qed.

  Section Reads.
    Variable cx : ctx.

    Lemma unreachable_both :
      (forall e, is_unreachable (rn cx) (se e) = is_unreachable cx e)
      /\ (forall s, is_unreachable_stmt (rn cx) (ss s) = is_unreachable_stmt cx s)
      /\ (forall z, match z with Arm _ _ _ b _ => is_unreachable (rn cx) (se b) = is_unreachable cx b end)
      /\ (forall z, match z with Local _ _ _ (Some e) _ => is_unreachable (rn cx) (se e) = is_unreachable cx e | _ => True end).
    Proof.
      apply ast_ind; intros; (cbn [is_unreachable is_unreachable_stmt e_attrs]; autorewrite with re; cbn [is_unreachable is_unreachable_stmt e_attrs]); try reflexivity; try assumption;
        try (destruct (any_empty_attr a NEVER || any_attr a NAME); [reflexivity|]);
        try reflexivity; try assumption; try match goal with |- is_unreachable_macro _ _ = is_unreachable_macro _ ?m => exact (sm_unreachable cx m) end.
      - apply on_last_map. assumption.
      - destruct k; try reflexivity. apply on_last_map. assumption.
      - induction H0 as [|[]]; [reflexivity|]. (cbn [map forallb]; autorewrite with re; cbn [map forallb]). congruence.
      - apply se_try.
      - destruct l as [? ? ? [] ?]; assumption || reflexivity.
    Qed.

    Lemma fold_list_map {A B C} (plus : A -> A -> A) z (h : B -> C) (f : B -> A) (g : C -> A) l :
      Forall (fun s => g (h s) = f s) l -> fold_list plus z g (map h l) = fold_list plus z f l.
    Proof. induction 1 as [|k l E F IH]; [reflexivity|]. cbn. rewrite E. unfold fold_list in IH. rewrite IH. reflexivity. Qed.
    Lemma fold_opt_map {A B C} (z : A) (h : B -> C) (f : B -> A) (g : C -> A) o :
      opt_all (fun s => g (h s) = f s) o -> fold_opt z g (option_map h o) = fold_opt z f o.
    Proof. destruct o; auto. Qed.

    Lemma nested_both :
      (forall e, find_nested_expr (se e) = find_nested_expr e)
      /\ (forall s, find_nested_stmt (ss s) = find_nested_stmt s)
      /\ (forall z, find_nested_arm (sa z) = find_nested_arm z)
      /\ (forall z, find_nested_local (sl z) = find_nested_local z).
    Proof.
      apply ast_ind; intros; (cbn [find_nested_expr find_nested_stmt find_nested_arm find_nested_local e_attrs fold_expr fold_stmt fold_arm fold_local]; autorewrite with re; cbn [find_nested_expr find_nested_stmt find_nested_arm find_nested_local e_attrs fold_expr fold_stmt fold_arm fold_local]); try reflexivity; try assumption;
        repeat match goal with
               | H : Forall _ _ |- _ => apply (fold_list_map orb false) in H; rewrite H; clear H
               | H : opt_all _ _ |- _ => apply (fold_opt_map false) in H; rewrite H; clear H
               | H : find_nested_expr (se _) = _ |- _ => rewrite H; clear H
               | H : find_nested_local (sl _) = _ |- _ => rewrite H; clear H
               end; reflexivity.
    Qed.

    Lemma count_node e : fn_count_node (rn cx) (se e) = fn_count_node cx e.
    Proof.
      unfold fn_count_node. rewrite se_attrs. destruct (any_empty_attr _ _); [reflexivity|].
      destruct e; try reflexivity; autorewrite with re; [destruct e; cbn [option_map]; rewrite ?se_marker; reflexivity|].
      rewrite se_marker. reflexivity.
    Qed.
    Lemma count_both :
      (forall e, fn_count_expr (rn cx) (se e) = fn_count_expr cx e)
      /\ (forall s, fn_count_stmt (rn cx) (ss s) = fn_count_stmt cx s)
      /\ (forall z, fn_count_arm (rn cx) (sa z) = fn_count_arm cx z)
      /\ (forall z, fn_count_local (rn cx) (sl z) = fn_count_local cx z).
    Proof.
      assert (E : forall e, enters_closure e = false ->
        fold_expr fc_plus fc_zero (fn_count_expr (rn cx)) (fn_count_stmt (rn cx)) (fn_count_arm (rn cx)) (se e)
        = fold_expr fc_plus fc_zero (fn_count_expr cx) (fn_count_stmt cx) (fn_count_arm cx) e ->
        fn_count_expr (rn cx) (se e) = fn_count_expr cx e).
      { intros e C F.
        assert (X : forall c z, enters_closure z = false -> fn_count_expr c z
          = fc_plus (fn_count_node c z) (fold_expr fc_plus fc_zero (fn_count_expr c) (fn_count_stmt c) (fn_count_arm c) z))
          by (intros c []; cbn; congruence || reflexivity).
        rewrite !X; [rewrite F, count_node; reflexivity|exact C|destruct e; exact C]. }
      apply ast_ind; intros; try (apply E; [reflexivity|]);
        (cbn [fn_count_stmt fn_count_arm fn_count_local fold_expr fold_stmt fold_arm fold_local]; autorewrite with re; cbn [fn_count_stmt fn_count_arm fn_count_local fold_expr fold_stmt fold_arm fold_local]);
        try reflexivity; try assumption;
        repeat match goal with
               | H : Forall _ _ |- _ => apply (fold_list_map fc_plus fc_zero) in H; rewrite H; clear H
               | H : opt_all _ _ |- _ => apply (fold_opt_map fc_zero) in H; rewrite H; clear H
               | H : fn_count_expr (rn _) _ = _ |- _ => rewrite H; clear H
               | H : fn_count_local (rn _) _ = _ |- _ => rewrite H; clear H
               end; reflexivity.
    Qed.
    Lemma count_body b : visit_fn_block (rn cx) (map ss b) = visit_fn_block cx b.
    Proof. unfold visit_fn_block. apply fold_list_map. apply Forall_forall. intros; apply count_both. Qed.

    Lemma skip_arm_re z : skip_arm (rn cx) (sa z) = skip_arm cx z.
    Proof.
      destruct z as [a p g b c]. pose proof (proj1 (proj2 (proj2 nested_both)) (Arm a p g b c)) as N.
      unfold skip_arm. autorewrite with re in *. rewrite N, (proj1 unreachable_both). reflexivity.
    Qed.
    Lemma skip_block_re b : skip_block (rn cx) (map ss b) = skip_block cx b.
    Proof.
      unfold skip_block. apply on_last_map. apply Forall_forall. intros s _.
      assert (N : find_nested_block (map ss b) = find_nested_block b)
        by (apply fold_list_map, Forall_forall; intros; apply nested_both).
      destruct s as [| |e []|]; try apply (proj1 (proj2 unreachable_both)).
      autorewrite with re. rewrite N, se_attrs, (proj1 unreachable_both). reflexivity.
    Qed.
  End Reads.

  (** ** Branches *)

  Lemma tw_next a e : tw se (next_expr_with_attrs a e) (next_expr_with_attrs a (se e)).
  Proof. intros cx. reflexivity. Qed.
  Lemma tw_replace o : tw (option_map se) (replace_boxed_expr o) (replace_boxed_expr (option_map se o)).
  Proof.
    intros cx. unfold replace_boxed_expr.
    assert (E : match option_map se o with Some e => e | None => unit_expr end = se match o with Some e => e | None => unit_expr end)
      by (destruct o; reflexivity).
    rewrite E, se_marker. destruct (is_marker_expr cx _); reflexivity.
  Qed.

  Definition vis_tw (V W : vis) (e : expr) : Prop :=
    match e with
    | EBlock _ _ b | EBlk _ _ b | ELoop _ _ b => Forall (fun z => tw ss (on_stmt V z) (on_stmt W (ss z))) b
    | EMatch _ s arms => tw se (on_expr V s) (on_expr W (se s)) /\ Forall (fun z => tw sa (on_arm V z) (on_arm W (sa z))) arms
    | EIf _ c t els => tw se (on_expr V c) (on_expr W (se c)) /\ Forall (fun z => tw ss (on_stmt V z) (on_stmt W (ss z))) t
        /\ opt_all (fun z => tw se (on_expr V z) (on_expr W (se z))) els
    | EWhile _ _ c b => tw se (on_expr V c) (on_expr W (se c)) /\ Forall (fun z => tw ss (on_stmt V z) (on_stmt W (ss z))) b
    | EFor _ _ _ c b => tw se (on_expr V c) (on_expr W (se c)) /\ Forall (fun z => tw ss (on_stmt V z) (on_stmt W (ss z))) b
    | EBreak _ _ o | EReturn _ o => opt_all (fun z => tw se (on_expr V z) (on_expr W (se z))) o
    | ELet _ _ e | ETry _ e | EParen _ e | EClosure _ _ e => tw se (on_expr V e) (on_expr W (se e))
    | EMethodCall _ r _ args | ECall _ r args =>
        tw se (on_expr V r) (on_expr W (se r)) /\ Forall (fun z => tw se (on_expr V z) (on_expr W (se z))) args
    | EOther _ _ es => Forall (fun z => tw se (on_expr V z) (on_expr W (se z))) es
    | EContinue _ _ | EMacro _ _ | EPath _ _ _ | EVerbatim _ => True
    end.
  Lemma tw_walk V W e : vis_tw V W e -> tw se (walk_expr V e) (walk_expr W (se e)).
  Proof.
    destruct e; (cbn [vis_tw walk_expr]; autorewrite with re; cbn [vis_tw walk_expr]); intros H; repeat match goal with H : _ /\ _ |- _ => destruct H end;
      repeat first [ apply tw_ret; reflexivity
                   | eapply tw_bind; [first [eassumption | apply tw_mapM; eassumption | apply tw_optM; eassumption]|intro] ].
  Qed.
  Lemma tw_walk_arm f0 f1 a p g b c : opt_all (fun z => tw se (f0 z) (f1 (se z))) g -> tw se (f0 b) (f1 (se b)) ->
    tw sa (walk_arm f0 (Arm a p g b c)) (walk_arm f1 (sa (Arm a p g b c))).
  Proof.
    intros. (cbn [walk_arm]; autorewrite with re; cbn [walk_arm]). eapply tw_bind; [apply tw_optM; eassumption|intro]. eapply tw_bind; [eassumption|intro]. apply tw_ret; reflexivity.
  Qed.
  Lemma tw_walk_local f0 f1 a p t i d : opt_all (fun z => tw se (f0 z) (f1 (se z))) i -> opt_all (fun z => tw se (f0 z) (f1 (se z))) d ->
    tw sl (walk_local f0 (Local a p t i d)) (walk_local f1 (sl (Local a p t i d))).
  Proof.
    intros. (cbn [walk_local]; autorewrite with re; cbn [walk_local]). eapply tw_bind; [apply tw_optM; eassumption|intro]. eapply tw_bind; [apply tw_optM; eassumption|intro]. apply tw_ret; reflexivity.
  Qed.

  Lemma loop_re :
    (forall e label nested, tw se (loop_expr label nested e) (loop_expr label nested (se e)))
    /\ (forall s label nested, tw ss (loop_stmt label nested s) (loop_stmt label nested (ss s)))
    /\ (forall z label nested, tw sa (loop_arm label nested z) (loop_arm label nested (sa z)))
    /\ (forall z label nested, tw sl (loop_local label nested z) (loop_local label nested (sl z))).
  Proof.
    assert (L : forall A (g : A -> A) (f : option string -> bool -> A -> M A) l label nested,
             Forall (fun z => forall la n, tw g (f la n z) (f la n (g z))) l -> Forall (fun z => tw g (f label nested z) (f label nested (g z))) l).
    { intros. eapply Forall_impl; [|eassumption]. cbn. auto. }
    assert (O : forall A (g : A -> A) (f : option string -> bool -> A -> M A) o label nested,
             opt_all (fun z => forall la n, tw g (f la n z) (f la n (g z))) o -> opt_all (fun z => tw g (f label nested z) (f label nested (g z))) o).
    { intros. destruct o; cbn in *; auto. }
    assert (W : forall e la n, vis_tw (Vis (loop_expr la n) (loop_stmt la n) (loop_arm la n) (loop_local la n))
                                     (Vis (loop_expr la n) (loop_stmt la n) (loop_arm la n) (loop_local la n)) e ->
      tw se (walk_expr (Vis (loop_expr la n) (loop_stmt la n) (loop_arm la n) (loop_local la n)) e)
            (walk_expr (Vis (loop_expr la n) (loop_stmt la n) (loop_arm la n) (loop_local la n)) (se e))) by (intros; apply tw_walk; assumption).
    apply ast_ind; intros;
      try match goal with |- tw se (loop_expr _ _ ?e) _ => pose proof (W e) as We end;
      autorewrite with re in *; cbn [loop_expr loop_stmt loop_arm loop_local e_attrs];
      try (destruct (any_empty_attr a NEVER); [apply tw_ret; reflexivity|]);
      try (apply We; cbn [vis_tw on_expr on_stmt on_arm]; auto; fail).
    - destruct k; try (apply We; cbn [vis_tw on_expr on_stmt on_arm]; auto; fail). apply tw_ret; reflexivity.
    - destruct label; [apply We; cbn [vis_tw on_expr on_stmt on_arm]; auto|apply tw_ret; reflexivity].
    - destruct label; [apply We; cbn [vis_tw on_expr on_stmt on_arm]; auto|apply tw_ret; reflexivity].
    - destruct label; [apply We; cbn [vis_tw on_expr on_stmt on_arm]; auto|apply tw_ret; reflexivity].
    - destruct (_ || _).
      + destruct e as [z|]; cbn [option_map].
        * cbn [opt_all] in H. apply tw_read; [intros; apply se_marker|]. intros [].
          -- eapply tw_bind; [apply H|intro; apply tw_ret; reflexivity].
          -- eapply tw_bind; [apply tw_next|]. intros call. eapply tw_bind; [apply H|]. intros z'. apply tw_ret. destruct call; reflexivity.
        * eapply tw_bind; [apply (tw_replace None)|intro; apply tw_ret; reflexivity].
      + eapply tw_bind; [apply tw_optM, O, H|intro; apply tw_ret; reflexivity].
    - apply tw_ret; reflexivity.
    - (cbn [walk_stmt]; autorewrite with re; cbn [walk_stmt]). eapply tw_bind; [apply H|intro; apply tw_ret; reflexivity].
    - apply tw_ret; reflexivity.
    - (cbn [walk_stmt]; autorewrite with re; cbn [walk_stmt]). eapply tw_bind; [apply H|intro; apply tw_ret; reflexivity].
    - apply tw_ret; reflexivity.
    - apply tw_walk_local; auto.
    - apply tw_walk_arm; auto.
  Qed.

  Lemma last_block_re b : tw (map ss) (visit_last_block b) (visit_last_block (map ss b)).
  Proof.
    unfold visit_last_block. apply tw_read; [intros; apply skip_block_re|]. intros []; [apply tw_ret; reflexivity|].
    eapply tw_bind; [apply (tw_next [] (expr_block b))|intro; apply tw_ret; reflexivity].
  Qed.

  Lemma last_if_re : forall e, tw se (visit_last_expr_if e) (visit_last_expr_if (se e)).
  Proof.
    refine (proj1 (ast_ind (fun e => tw se (visit_last_expr_if e) (visit_last_expr_if (se e))) (fun _ => True)
                   (fun _ => True) (fun _ => True) _ _ _ _ _ _ _ _ _ _ _ _ _ _ _ _ _ _ _ _ _ _ _ _ _ _));
      intros; try exact I; (cbn [visit_last_expr_if]; autorewrite with re; cbn [visit_last_expr_if]); try (apply tw_ret; reflexivity).
    eapply tw_bind; [apply last_block_re|intros t']. eapply (tw_bind (option_map se)); [|intro; apply tw_ret; reflexivity].
    destruct els as [els|]; [|cbn [option_map]; eapply tw_bind; [apply tw_error|intro; apply tw_ret; reflexivity]]. cbn in H1.
    destruct els; try apply tw_panic; (cbn [option_map] in *; autorewrite with re in *; cbn [option_map] in *).
    - eapply tw_bind; [apply last_block_re|intro; apply tw_ret; reflexivity].
    - eapply tw_bind; [exact H1|intro; apply tw_ret; reflexivity].
  Qed.

  Lemma map_last_re f b :
    Forall (fun s => match s with SExpr e _ => tw se (f e) (f (se e)) | _ => True end) b ->
    tw (map ss) (map_last_expr f b) (map_last_expr f (map ss b)).
  Proof.
    induction b as [|s r IH]; intros H; [apply tw_ret; reflexivity|]. inversion H; subst.
    destruct r as [|s2 r].
    - cbn [map_last_expr map]. destruct s as [| |e []|]; try (apply tw_ret; reflexivity). autorewrite with re.
      eapply tw_bind; [eassumption|intro; apply tw_ret; reflexivity].
    - change (map_last_expr f (s :: s2 :: r)) with (r' <- map_last_expr f (s2 :: r) ;; ret (s :: r')).
      change (map_last_expr f (map ss (s :: s2 :: r))) with (r' <- map_last_expr f (map ss (s2 :: r)) ;; ret (ss s :: r')).
      eapply tw_bind; [auto|intro; apply tw_ret; reflexivity].
  Qed.

  Lemma child_re : forall e, tw se (child_expr e) (child_expr (se e)).
  Proof.
    refine (proj1 (ast_ind (fun e => tw se (child_expr e) (child_expr (se e)))
                   (fun s => match s with SExpr e _ => tw se (child_expr e) (child_expr (se e)) | _ => True end)
                   (fun _ => True) (fun _ => True)
                   _ _ _ _ _ _ _ _ _ _ _ _ _ _ _ _ _ _ _ _ _ _ _ _ _ _));
      intros; try exact I; try assumption;
      match goal with |- tw se (child_expr ?e) _ => pose proof (fun cx => proj1 (unreachable_both cx) e) as U; pose proof (last_if_re e) as LI end;
      autorewrite with re in *; cbn [child_expr];
      (apply tw_read; [intros; rewrite U; reflexivity|]; intros []; [apply tw_ret; reflexivity|]);
      try (apply tw_ret; reflexivity).
    - eapply tw_bind; [apply map_last_re; assumption|intro; apply tw_ret; reflexivity].
    - destruct k; try (apply tw_ret; reflexivity). eapply tw_bind; [apply map_last_re; assumption|intro; apply tw_ret; reflexivity].
    - eapply tw_bind; [|intro; apply tw_ret; reflexivity]. apply tw_mapM, Forall_forall. intros z _.
      unfold visit_last_arm. apply tw_read; [intros; apply skip_arm_re|]. intros []; [apply tw_ret; reflexivity|].
      destruct z as [a0 p g b c]. autorewrite with re. eapply tw_bind; [apply (tw_next [] b)|intro; apply tw_ret; reflexivity].
    - exact LI.
    - eapply tw_bind; [|intro; apply tw_ret; reflexivity]. unfold visit_last_expr_loop.
      apply tw_mapM, Forall_forall. intros s _. apply loop_re.
    - eapply tw_bind; [eassumption|intro; apply tw_ret; reflexivity].
    - eapply tw_bind; [eassumption|intro; apply tw_ret; reflexivity].
  Qed.
  Lemma child_body_re b : tw (map ss) (map_last_expr child_expr b) (map_last_expr child_expr (map ss b)).
  Proof. apply map_last_re, Forall_forall. intros [] _; auto. apply child_re. Qed.

  (** ** The visitor *)

  Lemma se_check sc e : check_expr sc (se e) = check_expr sc e.
  Proof. destruct e; reflexivity. Qed.
  Lemma ss_attrs s : s_attrs (ss s) = s_attrs s.
  Proof. destruct s as [[]| | |]; cbn; rewrite ?se_attrs; reflexivity. Qed.

  Lemma return_re sc e : tw se (visit_return sc e) (visit_return sc (se e)).
  Proof.
    unfold visit_return. rewrite se_attrs. destruct (_ && _); [|apply tw_ret; reflexivity].
    destruct e; try (apply tw_ret; reflexivity). autorewrite with re.
    apply tw_read; [intros; destruct e; [apply se_marker|reflexivity]|]. intros []; [apply tw_ret; reflexivity|].
    eapply tw_bind; [apply tw_replace|intro; apply tw_ret; reflexivity].
  Qed.
  Lemma try_re sc e : tw se (visit_try sc e) (visit_try sc (se e)).
  Proof.
    unfold visit_try. rewrite se_attrs. destruct (_ && _); [|apply tw_ret; reflexivity].
    destruct e; try (apply tw_ret; reflexivity). autorewrite with re.
    apply tw_read; [intros; apply se_marker|]. intros []; [apply tw_ret; reflexivity|].
    eapply tw_bind; [apply (tw_next [] (EPath [] false (plain_path ["err"])))|intro; apply tw_ret; reflexivity].
  Qed.
  Lemma nested_re sc e a : tw se (visit_nested sc e a) (visit_nested sc (se e) a).
  Proof.
    unfold visit_nested. eapply tw_bind; [apply tw_massert; reflexivity|intros _]. destruct (is_path_only a); [apply child_re|].
    eapply tw_bind; [apply tw_error|intros _; apply tw_ret; reflexivity].
  Qed.
  Lemma compile_error_re : se compile_error_expr = compile_error_expr.
  Proof. cbn. rewrite Res; reflexivity. Qed.
  Lemma macro_re sc e : sc_foreign sc = false -> tw se (visit_marker_macro sc e) (visit_marker_macro sc (se e)).
  Proof.
    intros F. unfold visit_marker_macro. eapply tw_bind; [apply tw_massert; intros; rewrite F; reflexivity|intros _].
    apply tw_read.
    { intros. destruct e; try reflexivity. apply sm_exact. }
    intros ex. destruct e; try (apply tw_ret; reflexivity). destruct m as [p o]. autorewrite with re.
    destruct ex; [|apply tw_ret; reflexivity]. apply (tw_bind se).
    - destruct o; [apply tw_ret; reflexivity|]. cbn [option_map]. eapply tw_bind; [apply tw_error|intros _; apply tw_ret].
      symmetry. apply compile_error_re.
    - intros z. apply tw_read; [reflexivity|]. intros []; [apply tw_ret; reflexivity|]. apply tw_next.
  Qed.
  Lemma attrs_re sc a : tw same (find_remove_attrs sc a) (find_remove_attrs sc a).
  Proof.
    unfold find_remove_attrs. destruct (sc_foreign sc); [apply tw_ret; reflexivity|]. apply (tw_bind same).
    - destruct (find_remove_attr a NEVER) as [[]|]; [|apply tw_ret; reflexivity]. apply (tw_bind same); [|intros; apply tw_ret; reflexivity].
      destruct (is_path_only a0); [apply tw_ret; reflexivity|apply tw_error].
    - intros a'. unfold same. destruct (find_remove_attr a' REC) as [[]|]; [|apply tw_ret; reflexivity].
      apply (tw_bind same); [apply tw_error|intros; apply tw_ret; reflexivity].
  Qed.
  Lemma attrs_expr_re sc e : tw se (find_remove_attrs_expr sc e) (find_remove_attrs_expr sc (se e)).
  Proof. unfold find_remove_attrs_expr. rewrite se_attrs. eapply tw_bind; [apply attrs_re|]. intros a. apply tw_ret. apply se_set. Qed.

  Lemma tw_unless {A} (g : A -> A) z m0 m1 : tw g m0 m1 -> tw g (unless_error z m0) (unless_error (g z) m1).
  Proof. intros H. unfold unless_error. apply tw_read; [reflexivity|]. intros []; [apply tw_ret; reflexivity|exact H]. Qed.

  Lemma tw_note {A} (g : A -> A) a (m0 m1 : M A) : tw g m0 m1 -> tw g (note_child a ;;; m0) (note_child a ;;; m1).
  Proof.
    intros H. unfold note_child. apply (tw_bind same); [|intros; exact H]. destruct (any_attr a NAME); [apply tw_modify; reflexivity|apply tw_ret; reflexivity].
  Qed.

  Lemma plain_vis V W e : plain_expr e = true ->
    (forall z, plain_expr z = true -> tw se (on_expr V z) (on_expr W (se z))) ->
    (forall z, plain_stmt z = true -> tw ss (on_stmt V z) (on_stmt W (ss z))) ->
    (forall z, plain_arm z = true -> tw sa (on_arm V z) (on_arm W (sa z))) -> vis_tw V W e.
  Proof.
    intros P HE HS HA. rewrite plain_expr_eq in P.
    assert (L : forall A (Q : A -> bool) (T : A -> Prop) l, (forall z, Q z = true -> T z) -> fold_list andb true Q l = true -> Forall T l).
    { intros A Q T l H. induction l as [|z l IH]; intros K; [constructor|]. rewrite all_cons in K. apply andb_true_iff in K. destruct K. constructor; auto. }
    assert (O : forall A (Q : A -> bool) (T : A -> Prop) l, (forall z, Q z = true -> T z) -> fold_opt true Q l = true -> opt_all T l).
    { intros A Q T [] H; cbn; auto. }
    destruct e; cbn [vis_tw e_attrs fold_expr] in *; split_and; repeat split; eauto.
  Qed.

  Section Visitor.
    Variables hash0 hash1 : node -> N.
    Variable ta : bool.
    Notation R0 := (engine hash0 ta).
    Notation R1 := (engine hash1 ta).

    Lemma plain_arm_eq a p g b c : plain_arm (Arm a p g b c) = fold_opt true plain_expr g && plain_expr b.
    Proof. reflexivity. Qed.

    Lemma walk_arm_re f0 f1 z : (forall z, plain_expr z = true -> tw se (f0 z) (f1 (se z))) -> plain_arm z = true ->
      tw sa (walk_arm f0 z) (walk_arm f1 (sa z)).
    Proof.
      intros H P. destruct z as [a p g b c]. rewrite plain_arm_eq in P. split_and. apply tw_walk_arm; [|auto]. destruct g; cbn in *; auto.
    Qed.
    Lemma walk_local_re f0 f1 z : (forall z, plain_expr z = true -> tw se (f0 z) (f1 (se z))) -> fold_local andb true plain_expr z = true ->
      tw sl (walk_local f0 z) (walk_local f1 (sl z)).
    Proof.
      intros H P. destruct z as [a p t i d]. cbn [fold_local] in P. split_and. apply tw_walk_local; [destruct i|destruct d]; cbn in *; auto.
    Qed.

    Lemma vs_expr_re Q0 Q1 V W e semi : plain_expr e = true -> vis_tw V W e ->
      tw se (vs_visit_expr hash0 ta Q0 V e semi) (vs_visit_expr hash1 ta Q1 W (se e) semi).
    Proof.
      intros P H. unfold vs_visit_expr. rewrite se_attrs. rewrite plain_expr_eq in P. split_and.
      rewrite (find_remove_free _ P). apply tw_walk. exact H.
    Qed.
    Lemma vs_stmt_re Q0 Q1 V W s : plain_stmt s = true ->
      (forall z, plain_expr z = true -> tw se (on_expr V z) (on_expr W (se z))) ->
      (forall z, plain_stmt z = true -> tw ss (on_stmt V z) (on_stmt W (ss z))) ->
      (forall z, plain_arm z = true -> tw sa (on_arm V z) (on_arm W (sa z))) ->
      (forall z, plain_local z = true -> tw sl (on_local V z) (on_local W (sl z))) ->
      tw ss (vs_visit_stmt hash0 ta Q0 V s) (vs_visit_stmt hash1 ta Q1 W (ss s)).
    Proof.
      intros P HE HS HA HL. destruct s as [l|i|e semi|a m semi]; cbn [vs_visit_stmt]; autorewrite with re.
      - destruct l as [a p t i d]. pose proof P as P'. change (free_of a && fold_local andb true plain_expr (Local a p t i d) = true) in P'.
        split_and. autorewrite with re. cbn [vs_visit_stmt]. rewrite (find_remove_free _ P'). cbn [walk_stmt].
        eapply tw_bind; [|intro; apply tw_ret; reflexivity]. rewrite <- (re_25 fm fe). apply HL. exact P.
      - apply tw_ret; reflexivity.
      - cbn [vs_visit_stmt]. eapply tw_bind; [|intro; apply tw_ret; reflexivity]. apply vs_expr_re; [exact P|]. apply plain_vis; auto.
      - cbn [vs_visit_stmt walk_stmt]. apply tw_ret; reflexivity.
    Qed.

    Definition visits (n : nat) : Prop :=
      (forall sc semi e, sc_foreign sc = false -> plain_expr e = true -> tw se (r_vexpr (R0 n) sc semi e) (r_vexpr (R1 n) sc semi (se e)))
      /\ (forall sc s, sc_foreign sc = false -> plain_stmt s = true -> tw ss (r_vstmt (R0 n) sc s) (r_vstmt (R1 n) sc (ss s)))
      /\ (forall sc z, sc_foreign sc = false -> plain_arm z = true -> tw sa (r_varm (R0 n) sc z) (r_varm (R1 n) sc (sa z)))
      /\ (forall sc z, sc_foreign sc = false -> plain_local z = true -> tw sl (r_vlocal (R0 n) sc z) (r_vlocal (R1 n) sc (sl z)))
      /\ (forall e, plain_expr e = true -> tw se (r_dexpr (R0 n) e) (r_dexpr (R1 n) (se e)))
      /\ (forall s, plain_stmt s = true -> tw ss (r_dstmt (R0 n) s) (r_dstmt (R1 n) (ss s))).

    Lemma plain_free_stmt s : plain_stmt s = true -> match s with SLocal _ => free_of (s_attrs s) = true | SExpr e _ => free_of (e_attrs e) = true | _ => True end.
    Proof.
      destruct s as [[a p t i d]| |e|]; auto; intros P.
      - change (free_of a && fold_local andb true plain_expr (Local a p t i d) = true) in P. split_and. exact P.
      - change (plain_expr e = true) in P. rewrite plain_expr_eq in P. split_and. exact P.
    Qed.

    Lemma visits_all n : visits n.
    Proof.
      induction n as [|n IH]; [repeat split; intros; apply tw_fuel|].
      destruct IH as (VE & VS & VA & VL & DE & DS). unfold visits. cbn [engine step r_vexpr r_vstmt r_varm r_vlocal r_dexpr r_dstmt].
      repeat split; intros; apply tw_unless.
      - unfold visit_expr. eapply (tw_bind same); [apply tw_massert; reflexivity|intros _]. rewrite se_attrs.
        assert (F : free_of (e_attrs e) = true) by (rewrite plain_expr_eq in H0; split_and; exact H0).
        apply tw_note. unfold scope_below. rewrite (any_free _ F), se_check. set (sc' := check_expr sc e).
        assert (F' : sc_foreign sc' = false) by (unfold sc'; destruct e as [| [] | | | | | | | | | | | | | | | | | |]; exact H). clearbody sc'. clear H F.
        apply tw_read; [reflexivity|]. intros mode. eapply (tw_bind_if se se (ok plain_expr)).
        { destruct mode; [apply keeps_ret; exact H0|apply keeps_return; exact H0|apply keeps_try; exact H0]. }
        { destruct mode; [apply tw_ret; reflexivity|apply return_re|apply try_re]. }
        intros e1 P1. cbv beta in P1. rewrite F', se_attrs.
        assert (F1 : free_of (e_attrs e1) = true) by (rewrite plain_expr_eq in P1; split_and; exact P1).
        eapply (tw_bind_if se se (ok plain_expr)).
        { destruct (find_remove_attr (e_attrs e1) NESTED) as [[at_ a']|] eqn:E; [|apply keeps_ret; exact P1].
          apply keeps_nested. apply plain_set; [exact P1|]. exact (free_remove _ _ _ E F1). }
        { destruct (find_remove_attr (e_attrs e1) NESTED) as [[at_ a']|] eqn:E; [|apply tw_ret; reflexivity].
          rewrite se_set. apply nested_re. }
        intros e2 P2. eapply tw_bind.
        { apply vs_expr_re; [exact P2|]. apply plain_vis; [exact P2|..]; cbn [v_vis on_expr on_stmt on_arm]; intros; unfold v_expr; auto. }
        intros e3. cbn [negb orb]. apply (tw_bind fm); [intros cx; reflexivity|]. intros cur.
        eapply tw_bind; [apply macro_re; exact F'|]. intros e4. apply attrs_expr_re.
      - unfold visit_stmt. pose proof (plain_free_stmt _ H0) as F.
        assert (G : match s with SExpr _ _ => True | _ =>
          tw ss (note_child (s_attrs s) ;;; vs_visit_stmt hash0 ta (R0 n) (v_vis (R0 n) (scope_below sc (s_attrs s))) s)
                (note_child (s_attrs (ss s)) ;;; vs_visit_stmt hash1 ta (R1 n) (v_vis (R1 n) (scope_below sc (s_attrs (ss s)))) (ss s)) end).
        { destruct s as [[a p t i d]|i|e semi|a m semi]; auto; rewrite ss_attrs; apply tw_note.
          - cbn [s_attrs] in *. unfold scope_below. rewrite (any_free _ F). apply vs_stmt_re; [assumption|..]; cbn [v_vis on_expr on_stmt on_arm on_local]; intros; unfold v_expr; auto.
          - apply tw_ret; reflexivity.
          - apply tw_ret; reflexivity. }
        destruct s; try exact G. autorewrite with re. eapply tw_bind; [apply VE; assumption|intro; apply tw_ret; reflexivity].
      - destruct z as [a p g b c]. autorewrite with re. unfold visit_arm. rewrite H.
        eapply (tw_bind_if sa sa (ok plain_arm)).
        { destruct (find_remove_attr a NESTED) as [[at_ a']|] eqn:E; [|apply keeps_ret; exact H0].
          rewrite plain_arm_eq in H0. split_and. eapply keeps_bind; [apply keeps_nested; eassumption|]. intros b' Pb. cbv beta in Pb.
          apply keeps_ret. rewrite plain_arm_eq, H0, Pb. reflexivity. }
        { destruct (find_remove_attr a NESTED) as [[at_ a']|] eqn:E; [|apply tw_ret; autorewrite with re; reflexivity].
          eapply tw_bind; [apply nested_re|]. intros b'. apply tw_ret. autorewrite with re. reflexivity. }
        intros z1 P1. eapply tw_bind; [apply walk_arm_re; [|exact P1]; intros; unfold v_expr; auto|]. intros [a2 p2 g2 b2 c2]. autorewrite with re.
        eapply tw_bind; [apply attrs_re|]. intros. apply tw_ret. autorewrite with re. reflexivity.
      - destruct z as [a p t i d]. autorewrite with re. unfold visit_local. rewrite H.
        rewrite plain_local_eq in H0. pose proof H0 as PL. cbn [fold_local] in H0. split_and.
        eapply (tw_bind_if sl sl (ok (fold_local andb true plain_expr))).
        { destruct (find_remove_attr a NESTED) as [[at_ a']|] eqn:E; [|apply keeps_ret; assumption].
          eapply keeps_bind; [apply keeps_optM; [|eassumption]|]. { destruct i; cbn; auto. intros; apply keeps_nested; assumption. }
          intros i' Pi. cbv beta in Pi. apply keeps_ret. cbn [fold_local]. rewrite Pi. assumption. }
        { destruct (find_remove_attr a NESTED) as [[at_ a']|] eqn:E; [|apply tw_ret; autorewrite with re; reflexivity].
          eapply tw_bind; [apply tw_optM; destruct i; cbn; auto; apply nested_re|]. intros i'. apply tw_ret. autorewrite with re. reflexivity. }
        intros z1 P1. eapply tw_bind; [apply walk_local_re; [|exact P1]; intros; unfold v_expr; auto|]. intros [a2 p2 t2 i2 d2]. autorewrite with re.
        eapply tw_bind; [apply attrs_re|]. intros. apply tw_ret. autorewrite with re. reflexivity.
      - unfold dummy_expr. rewrite se_attrs. apply tw_note.
        apply vs_expr_re; [exact H|]. apply plain_vis; [exact H|..]; cbn [d_vis on_expr on_stmt on_arm]; auto. intros. apply walk_arm_re; auto.
      - unfold dummy_stmt. rewrite ss_attrs. apply tw_note. apply vs_stmt_re; [assumption|..]; cbn [d_vis on_expr on_stmt on_arm on_local]; auto.
        + intros. apply walk_arm_re; auto.
        + intros [a p t i d] P. rewrite plain_local_eq in P. apply andb_true_iff in P. apply walk_local_re; [auto|apply P].
    Qed.

    (** ** The whole macro *)

    Lemma build_re {A} (g : A -> A) f z : (forall u, f (GEnum (fe (g_ident u)) (g_params u) (g_variants u) (g_derive u)) (g z) = g (f u z)) -> tw g (build f z) (build f (g z)).
    Proof.
      intros H cx. unfold build. change (has_error (rn cx)) with (has_error cx). change (cx_variants (rn cx)) with (cx_variants cx).
      destruct (has_error cx); [reflexivity|].
      destruct (length (cx_variants cx)) as [|[|]]; [|reflexivity|cbn [renamed]; rewrite <- H; reflexivity].
      change (cx_has_child (rn cx)) with (cx_has_child cx). destruct (cx_has_child cx); reflexivity.
    Qed.

    Variable n : nat.

    Lemma body_re e : plain_expr e = true -> tw se (expand_body ta (R0 n) e) (expand_body ta (R1 n) (se e)).
    Proof.
      intros P. unfold expand_body. eapply tw_bind_if; [apply keeps_child; exact P|apply child_re|]. intros e' P'.
      apply tw_read; [reflexivity|]. destruct (visits_all n) as (VE & _ & _ & _ & DE & _). intros []; auto.
    Qed.
    Lemma expand_re e : plain_expr e = true -> tw se (expand_expr ta (R0 n) e) (expand_expr ta (R1 n) (se e)).
    Proof.
      intros P. unfold expand_expr. apply tw_read; [reflexivity|]. intros vl. pose proof (body_re e P) as B.
      destruct e; try exact B. autorewrite with re in *. destruct vl; [|exact B].
      apply tw_read; [intros; apply count_both|]. intros c. apply (tw_bind same); [apply tw_modify; reflexivity|intros _].
      rewrite plain_expr_eq in P. cbn [fold_expr] in P. split_and. eapply tw_bind; [apply body_re; assumption|]. intros. apply tw_ret. autorewrite with re. reflexivity.
    Qed.
    Lemma parent_expr_re e semi : plain_expr e = true -> tw se (expand_parent_expr ta (R0 n) e semi) (expand_parent_expr ta (R1 n) (se e) semi).
    Proof.
      intros P. unfold expand_parent_expr. apply (tw_bind same); [destruct semi; [apply tw_modify; reflexivity|apply tw_ret; reflexivity]|intros _].
      apply tw_read; [reflexivity|]. destruct (visits_all n) as (_ & _ & _ & _ & DE & _). intros [].
      - apply (tw_bind same); [apply tw_massert; reflexivity|intros _]. apply DE, P.
      - eapply tw_bind; [apply expand_re, P|]. intros e'. apply build_re. reflexivity.
    Qed.
    Lemma local_ty_re t : tw same (local_ty ta t) (local_ty ta t).
    Proof.
      unfold local_ty. destruct ta; [|apply tw_ret; reflexivity]. destruct t; [|apply tw_ret; reflexivity].
      apply tw_read; [reflexivity|]. intros [tr fd]. apply (tw_bind same); [apply tw_modify; reflexivity|intros; apply tw_ret; reflexivity].
    Qed.
    Lemma parent_local_re l : fold_local andb true plain_expr l = true ->
      tw sl (expand_parent_local ta (R0 n) l) (expand_parent_local ta (R1 n) (sl l)).
    Proof.
      intros P. destruct l as [a p t i d]. autorewrite with re. unfold expand_parent_local.
      eapply tw_bind; [apply local_ty_re|]. intros t'. unfold same. apply tw_read; [reflexivity|].
      destruct (visits_all n) as (_ & _ & _ & _ & DE & _). intros [].
      - apply (tw_bind same); [apply tw_massert; reflexivity|intros _].
        pose proof (walk_local_re (r_dexpr (R0 n)) (r_dexpr (R1 n)) (Local a p t' i d) DE P) as L. autorewrite with re in L. exact L.
      - cbn [fold_local] in P. split_and. destruct i as [e|]; cbn [option_map].
        + eapply tw_bind; [apply expand_re, P|]. intros e1. eapply tw_bind; [apply build_re; reflexivity|]. intros e2. apply tw_ret. autorewrite with re. reflexivity.
        + apply (tw_bind same); [apply tw_error|]. intros _. apply tw_ret. autorewrite with re. reflexivity.
    Qed.
    Lemma fn_mode_re out b : tw same (fn_mode out b) (fn_mode out (map ss b)).
    Proof.
      unfold fn_mode. apply tw_read; [reflexivity|]. intros []; [|apply tw_ret; reflexivity].
      assert (T : forall t, tw same (if is_result_impl t then
            count <- gets (fun cx => visit_fn_block cx b) ;;
            if (2 <=? fst count)%nat then modify (set_mode VTry) else ret tt
          else ret tt) (if is_result_impl t then
            count <- gets (fun cx => visit_fn_block cx (map ss b)) ;;
            if (2 <=? fst count)%nat then modify (set_mode VTry) else ret tt
          else ret tt)).
      { intros t. destruct (is_result_impl t); [|apply tw_ret; reflexivity]. apply tw_read; [intros; apply count_body|]. intros c.
        destruct (_ <=? _)%nat; [apply tw_modify; reflexivity|apply tw_ret; reflexivity]. }
      destruct out as [t|]; [|apply tw_ret; reflexivity]. destruct t; try apply T.
      apply tw_read; [intros; apply count_body|]. intros c. apply tw_modify; reflexivity.
    Qed.
    Lemma fn_collect_re out : tw same (fn_collect ta out) (fn_collect ta out).
    Proof.
      unfold fn_collect. destruct ta; [|apply tw_ret; reflexivity]. destruct out; [|apply tw_ret; reflexivity].
      apply tw_read; [reflexivity|]. intros [tr fd]. apply tw_modify; reflexivity.
    Qed.
    Lemma all_forall {A} (P : A -> bool) l : fold_list andb true P l = true -> Forall (fun z => P z = true) l.
    Proof. induction l as [|z l IH]; intros H; [constructor|]. rewrite all_cons in H. split_and. constructor; auto. Qed.
    Lemma parent_fn_re out b : fold_list andb true plain_stmt b = true ->
      tw (map ss) (expand_parent_item_fn ta (R0 n) out b) (expand_parent_item_fn ta (R1 n) out (map ss b)).
    Proof.
      intros P. unfold expand_parent_item_fn. apply (tw_bind same); [apply fn_mode_re|intros _]. apply (tw_bind same); [apply fn_collect_re|intros _].
      apply tw_read; [reflexivity|]. destruct (visits_all n) as (_ & VS & _ & _ & _ & DS).
      assert (D : forall l, fold_list andb true plain_stmt l = true -> tw (map ss) (mapM (r_dstmt (R0 n)) l) (mapM (r_dstmt (R1 n)) (map ss l))).
      { intros l L. apply tw_mapM. eapply Forall_impl; [|apply all_forall, L]. cbn. auto. }
      intros [].
      - apply (tw_bind same); [apply tw_massert; reflexivity|intros _]. apply D, P.
      - eapply (tw_bind_if (map ss) (map ss) (ok (fold_list andb true plain_stmt))).
        + destruct b; [apply keeps_any; intro; apply keeps_ret; reflexivity|]. apply keeps_child_body, P.
        + pose proof (child_body_re b) as C. destruct b; [|exact C]. apply (tw_bind same); [apply tw_error|intros _; apply tw_ret; reflexivity].
        + intros b1 P1. apply tw_read; [reflexivity|]. intros []; [apply D, P1|].
          eapply tw_bind; [|intros b2; apply build_re; reflexivity]. apply tw_mapM. eapply Forall_impl; [|apply all_forall, P1]. cbn. auto.
    Qed.

    Lemma input_re i : plain_input i = true ->
      tw (re_input fm fe) (expand_input ta (R0 n) i) (expand_input ta (R1 n) (re_input fm fe i)).
    Proof.
      set (g := fun s => match s with SItem (IFn a sg out b) => SItem (IFn a sg out (map ss b)) | _ => ss s end).
      assert (G : forall s, re_input fm fe (InStmt s) = InStmt (g s)) by (intros [|[]| |]; reflexivity).
      intros P. destruct i as [s|e|]; try discriminate P.
      - rewrite G. cbn [expand_input]. apply (tw_bind g); [|intros; apply tw_ret; symmetry; apply G].
        destruct s as [l|it|e semi|a m semi]; cbn [plain_input] in P.
        + unfold g at 2. cbn [expand_parent_stmt]. autorewrite with re. cbn [expand_parent_stmt].
          eapply tw_bind; [apply parent_local_re, P|]. intros. apply tw_ret. reflexivity.
        + destruct it as [a0 sg0 out0 body| |]; try discriminate P. cbn [g expand_parent_stmt].
          eapply tw_bind; [apply parent_fn_re|intros; apply tw_ret; reflexivity].
          clear -P. induction body as [|s r IH]; [reflexivity|]. rewrite all_cons. cbn [forallb] in P. split_and. rewrite P. apply IH. assumption.
        + unfold g at 2. cbn [expand_parent_stmt]. autorewrite with re. cbn [expand_parent_stmt].
          eapply tw_bind; [apply parent_expr_re, P|]. intros. apply tw_ret. reflexivity.
        + apply tw_ret. reflexivity.
      - cbn [re_input expand_input]. eapply tw_bind; [apply parent_expr_re, P|]. intros. apply tw_ret. reflexivity.
    Qed.
  End Visitor.
  (** ** With inner attributes *)

  Section Nested.
    Variables hash0 hash1 : node -> N.
    Variable ta : bool.
    Hypothesis Def : fm DEFAULT_MARKER = DEFAULT_MARKER.
    Hypothesis HE : forall e, enum_name (hash1 (NExpr (se e))) = fe (enum_name (hash0 (NExpr e))).
    Hypothesis HS : forall s, enum_name (hash1 (NStmt (ss s))) = fe (enum_name (hash0 (NStmt s))).
    Notation ke := (kept_expr fm).
    Notation ks := (kept_stmt fm).
    Notation ka := (kept_arm fm).
    Notation kl := (kept_local fm).
    Notation kin := (fold_local andb true ke).

    (** The context of a child. *)
    Definition rchild (r : err + ctx) : err + ctx := match r with inl e => inl e | inr c => inr (rn c) end.

    Lemma fixed_in m l : fm m = m -> existsb (String.eqb m) (map fm l) = existsb (String.eqb m) l.
    Proof. intros F. induction l as [|k l IH]; [reflexivity|]. cbn [map existsb]. rewrite IH. rewrite <- F at 1. rewrite fm_eqb. reflexivity. Qed.
    Lemma make_child_re own0 own1 toks :
      own1 = fe own0 -> (forall ps m, parse_args toks = inr (ps, Some m) -> fm m = m) ->
      tw rchild (make_child own0 toks) (make_child own1 toks).
    Proof.
      intros -> K. unfold make_child. apply (tw_bind same); [apply tw_massert; reflexivity|intros _].
      apply (tw_gets (map fm)); [reflexivity|]. intros ms. apply tw_read; [reflexivity|]. intros d.
      apply (tw_bind same); [apply tw_modify; reflexivity|intros _]. apply tw_ret. unfold ctx_new.
      destruct (parse_args toks) as [e|[ps [m|]]] eqn:E; [reflexivity| |].
      - rewrite (fixed_in _ _ (K _ _ eq_refl)). destruct (existsb _ ms); [reflexivity|]. unfold rchild, rn.
        cbn [cx_ident cx_variants cx_marker cx_markers cx_root cx_has_child cx_mode cx_last cx_errs cx_args cx_traits].
        rewrite map_app. cbn [map]. rewrite (K _ _ eq_refl). reflexivity.
      - unfold rchild, rn. cbn [cx_ident cx_variants cx_marker cx_markers cx_root cx_has_child cx_mode cx_last cx_errs cx_args cx_traits].
        rewrite map_app. cbn [map]. rewrite Def. reflexivity.
    Qed.
    Lemma map_removelast l : map fm (removelast l) = removelast (map fm l).
    Proof. induction l as [|a l IH]; [reflexivity|]. destruct l; [reflexivity|]. cbn [removelast map] in *. rewrite IH. reflexivity. Qed.
    Lemma in_child_re {A} (g : A -> A) c f0 f1 : tw g f0 f1 -> tw g (in_child c f0) (in_child (rn c) f1).
    Proof.
      intros H cx. unfold in_child. rewrite (H c). destruct (f0 c) as [[z c']| |]; cbn [renamed]; auto.
      assert (J : tw g (join_child c' ;;; ret z) (join_child (rn c') ;;; ret (g z))).
      { apply (tw_bind same); [|intros _; apply tw_ret; reflexivity]. unfold join_child.
        apply (tw_bind same); [apply tw_massert; intros k; cbn [rn cx_markers]; destruct (cx_markers k); reflexivity|intros _].
        apply (tw_bind same); [apply tw_modify; intros k; unfold set_markers, rn; cbn; rewrite map_removelast; reflexivity|intros _].
        apply tw_modify. reflexivity. }
      apply J.
    Qed.
    Lemma kept_child a q l p toks ps m : find_remove_attr a NAME = Some (q, l) -> forallb (kept_marker fm) a = true -> q = MList p toks ->
      parse_args toks = inr (ps, Some m) -> fm m = m.
    Proof.
      intros E K -> P. assert (I : is_ident p NAME = true).
      { clear K. unfold find_remove_attr in E. revert l E. induction a as [|z a IH]; cbn [find_remove]; intros l E; [discriminate|].
        destruct (is_ident (attr_path z) NAME) eqn:Z; [injection E as -> _; exact Z|]. destruct (find_remove _ a) as [[w r]|]; [|discriminate].
        injection E as -> _. eapply IH. reflexivity. }
      destruct (kept_remove fm _ _ _ E K) as [X _]. cbn [fst kept_marker] in X. change "auto_enum" with NAME in X. rewrite I, P in X.
      apply String.eqb_eq, X.
    Qed.

    Lemma macro_any_re sc e : tw se (visit_marker_macro sc e) (visit_marker_macro sc (se e)).
    Proof.
      unfold visit_marker_macro. eapply tw_bind.
      { apply tw_massert. intros. cbn [rn cx_marker]. rewrite <- Def at 1. rewrite fm_eqb. reflexivity. }
      intros _. apply tw_read.
      { intros. destruct e; try reflexivity. apply sm_exact. }
      intros ex. destruct e; try (apply tw_ret; reflexivity). destruct m as [p o]. autorewrite with re.
      destruct ex; [|apply tw_ret; reflexivity]. apply (tw_bind se).
      - destruct o; [apply tw_ret; reflexivity|]. cbn [option_map]. eapply tw_bind; [apply tw_error|intros _; apply tw_ret].
        symmetry. apply compile_error_re.
      - intros z. apply tw_read; [reflexivity|]. intros []; [apply tw_ret; reflexivity|]. apply tw_next.
    Qed.

    Lemma kept_vis V W e : ke e = true ->
      (forall z, ke z = true -> tw se (on_expr V z) (on_expr W (se z))) ->
      (forall z, ks z = true -> tw ss (on_stmt V z) (on_stmt W (ss z))) ->
      (forall z, ka z = true -> tw sa (on_arm V z) (on_arm W (sa z))) -> vis_tw V W e.
    Proof.
      intros P KE KS KA. rewrite kept_expr_eq in P. apply andb_true_iff in P. destruct P as [_ P].
      assert (L : forall A (Q : A -> bool) (T : A -> Prop) l, (forall z, Q z = true -> T z) -> fold_list andb true Q l = true -> Forall T l).
      { intros A Q T l H. induction l as [|z l IH]; intros K; [constructor|]. rewrite all_cons in K. apply andb_true_iff in K. destruct K. constructor; auto. }
      assert (O : forall A (Q : A -> bool) (T : A -> Prop) l, (forall z, Q z = true -> T z) -> fold_opt true Q l = true -> opt_all T l).
      { intros A Q T [] H; cbn; auto. }
      destruct e; cbn [vis_tw kept_in fold_expr] in *; split_and; repeat split; eauto.
    Qed.
    Lemma walk_arm_kre f0 f1 z : (forall z, ke z = true -> tw se (f0 z) (f1 (se z))) -> ka z = true -> tw sa (walk_arm f0 z) (walk_arm f1 (sa z)).
    Proof.
      intros H P. destruct z as [a p g b c]. rewrite kept_arm_eq in P. split_and. apply tw_walk_arm; [|auto]. destruct g; cbn [opt_all fold_opt] in *; auto.
    Qed.
    Lemma walk_local_kre f0 f1 z : (forall z, ke z = true -> tw se (f0 z) (f1 (se z))) -> kin z = true -> tw sl (walk_local f0 z) (walk_local f1 (sl z)).
    Proof.
      intros H P. destruct z as [a p t i d]. cbn [fold_local] in P. split_and. apply tw_walk_local; [destruct i|destruct d]; cbn [opt_all fold_opt] in *; auto.
    Qed.

    Definition agree (E0 E1 : engine_t) : Prop :=
      (forall sc semi e, ke e = true -> tw se (r_vexpr E0 sc semi e) (r_vexpr E1 sc semi (se e)))
      /\ (forall sc s, ks s = true -> tw ss (r_vstmt E0 sc s) (r_vstmt E1 sc (ss s)))
      /\ (forall sc z, ka z = true -> tw sa (r_varm E0 sc z) (r_varm E1 sc (sa z)))
      /\ (forall sc z, kl z = true -> tw sl (r_vlocal E0 sc z) (r_vlocal E1 sc (sl z)))
      /\ (forall e, ke e = true -> tw se (r_dexpr E0 e) (r_dexpr E1 (se e)))
      /\ (forall s, ks s = true -> tw ss (r_dstmt E0 s) (r_dstmt E1 (ss s))).

    Section Parents.
      Variables E0 E1 : engine_t.
      Hypothesis Ag : agree E0 E1.

      Lemma body_kre e : ke e = true -> tw se (expand_body ta E0 e) (expand_body ta E1 (se e)).
      Proof.
        intros P. unfold expand_body. eapply tw_bind_if; [apply (kept_by_child fm); exact P|apply child_re|]. intros e' P'.
        apply tw_read; [reflexivity|]. destruct Ag as (VE & _ & _ & _ & DE & _). intros []; auto.
      Qed.
      Lemma expand_kre e : ke e = true -> tw se (expand_expr ta E0 e) (expand_expr ta E1 (se e)).
      Proof.
        intros P. unfold expand_expr. apply tw_read; [reflexivity|]. intros vl. pose proof (body_kre e P) as B.
        destruct e; try exact B. autorewrite with re in *. destruct vl; [|exact B].
        apply tw_read; [intros; apply count_both|]. intros c. apply (tw_bind same); [apply tw_modify; reflexivity|intros _].
        rewrite kept_expr_eq in P. cbn [kept_in fold_expr] in P. split_and. eapply tw_bind; [apply body_kre; assumption|]. intros. apply tw_ret. autorewrite with re. reflexivity.
      Qed.
      Lemma parent_expr_kre e semi : ke e = true -> tw se (expand_parent_expr ta E0 e semi) (expand_parent_expr ta E1 (se e) semi).
      Proof.
        intros P. unfold expand_parent_expr. apply (tw_bind same); [destruct semi; [apply tw_modify; reflexivity|apply tw_ret; reflexivity]|intros _].
        apply tw_read; [reflexivity|]. destruct Ag as (_ & _ & _ & _ & DE & _). intros [].
        - apply (tw_bind same); [apply tw_massert; reflexivity|intros _]. apply DE, P.
        - eapply tw_bind; [apply expand_kre, P|]. intros e'. apply build_re. reflexivity.
      Qed.
      Lemma parent_local_kre l : kin l = true -> tw sl (expand_parent_local ta E0 l) (expand_parent_local ta E1 (sl l)).
      Proof.
        intros P. destruct l as [a p t i d]. autorewrite with re. unfold expand_parent_local.
        eapply tw_bind; [apply local_ty_re|]. intros t'. unfold same. apply tw_read; [reflexivity|].
        destruct Ag as (_ & _ & _ & _ & DE & _). intros [].
        - apply (tw_bind same); [apply tw_massert; reflexivity|intros _].
          pose proof (walk_local_kre (r_dexpr E0) (r_dexpr E1) (Local a p t' i d) DE P) as L. autorewrite with re in L. exact L.
        - cbn [fold_local] in P. split_and. destruct i as [e|]; cbn [option_map].
          + eapply tw_bind; [apply expand_kre, P|]. intros e1. eapply tw_bind; [apply build_re; reflexivity|]. intros e2. apply tw_ret. autorewrite with re. reflexivity.
          + apply (tw_bind same); [apply tw_error|]. intros _. apply tw_ret. autorewrite with re. reflexivity.
      Qed.
      Lemma parent_stmt_kre s : match s with SItem _ => False | _ => True end -> ks s = true ->
        tw ss (expand_parent_stmt ta E0 s) (expand_parent_stmt ta E1 (ss s)).
      Proof.
        intros NI P. destruct s as [l|i|e semi|a m semi]; [|contradiction| |]; autorewrite with re; cbn [expand_parent_stmt].
        - eapply tw_bind; [apply parent_local_kre|intros; apply tw_ret; reflexivity]. destruct l as [a p t i d].
          change (kl (Local a p t i d) = true) in P. rewrite kept_local_eq in P. apply andb_true_iff in P. apply P.
        - eapply tw_bind; [apply parent_expr_kre, P|]. intros. apply tw_ret. reflexivity.
        - apply tw_ret. reflexivity.
      Qed.
      Lemma parent_fn_kre out b : fold_list andb true ks b = true ->
        tw (map ss) (expand_parent_item_fn ta E0 out b) (expand_parent_item_fn ta E1 out (map ss b)).
      Proof.
        intros P. unfold expand_parent_item_fn. apply (tw_bind same); [apply fn_mode_re|intros _]. apply (tw_bind same); [apply fn_collect_re|intros _].
        apply tw_read; [reflexivity|]. destruct Ag as (_ & VS & _ & _ & _ & DS).
        assert (D : forall l, fold_list andb true ks l = true -> tw (map ss) (mapM (r_dstmt E0) l) (mapM (r_dstmt E1) (map ss l))).
        { intros l L. apply tw_mapM. eapply Forall_impl; [|apply all_forall, L]. cbn beta. auto. }
        intros [].
        - apply (tw_bind same); [apply tw_massert; reflexivity|intros _]. apply D, P.
        - eapply (tw_bind_if (map ss) (map ss) (ok (fold_list andb true ks))).
          + destruct b; [apply keeps_any; intro; apply keeps_ret; reflexivity|]. apply kept_by_child_body, P.
          + pose proof (child_body_re b) as C. destruct b; [|exact C]. apply (tw_bind same); [apply tw_error|intros _; apply tw_ret; reflexivity].
          + intros b1 P1. apply tw_read; [reflexivity|]. intros []; [apply D, P1|].
            eapply tw_bind; [|intros b2; apply build_re; reflexivity]. apply tw_mapM. eapply Forall_impl; [|apply all_forall, P1]. cbn beta. auto.
      Qed.

      Variables (V W : vis).
      Hypothesis KE : forall z, ke z = true -> tw se (on_expr V z) (on_expr W (se z)).
      Hypothesis KS : forall z, ks z = true -> tw ss (on_stmt V z) (on_stmt W (ss z)).
      Hypothesis KA : forall z, ka z = true -> tw sa (on_arm V z) (on_arm W (sa z)).
      Hypothesis KL : forall z, kl z = true -> tw sl (on_local V z) (on_local W (sl z)).
      Hypothesis KE' : forall z, ke z = true -> keeps (ok ke) (on_expr V z).
      Hypothesis KS' : forall z, ks z = true -> keeps (ok ks) (on_stmt V z).
      Hypothesis KA' : forall z, ka z = true -> keeps (ok ka) (on_arm V z).
      Hypothesis KL' : forall z, kl z = true -> keeps (ok kl) (on_local V z).

      Lemma vs_expr_kre e semi : ke e = true -> tw se (vs_visit_expr hash0 ta E0 V e semi) (vs_visit_expr hash1 ta E1 W (se e) semi).
      Proof.
        intros P. unfold vs_visit_expr. rewrite se_attrs.
        destruct (find_remove_attr (e_attrs e) NAME) as [[q l]|] eqn:E; [|apply tw_walk, kept_vis; auto].
        pose proof (kept_attrs fm _ P) as PA. destruct (kept_remove fm _ _ _ E PA) as [_ PL]. cbn [snd] in PL.
        rewrite se_set. apply (tw_bind rchild).
        { destruct q; try (apply tw_ret; reflexivity). apply make_child_re; [apply HE|]. intros. eapply kept_child; eauto. }
        intros r. assert (P1 : ke (set_attrs e l) = true) by (apply kept_set; assumption).
        eapply tw_bind_if; [apply (walk_kept fm); eauto|apply tw_walk, kept_vis; auto|]. intros e1 W1. destruct r as [er|c]; cbn [rchild].
        - apply (tw_bind same); [apply tw_error|intros _; apply tw_ret; reflexivity].
        - apply in_child_re, parent_expr_kre, W1.
      Qed.
      Lemma vs_stmt_kre s : ks s = true -> tw ss (vs_visit_stmt hash0 ta E0 V s) (vs_visit_stmt hash1 ta E1 W (ss s)).
      Proof.
        intros P. destruct s as [[a p t i d]|i|e semi|a m semi]; cbn [vs_visit_stmt]; autorewrite with re; cbn [vs_visit_stmt].
        - assert (WS : forall a', kl (Local a' p t i d) = true ->
            tw ss (walk_stmt (on_expr V) (on_local V) (SLocal (Local a' p t i d)))
                  (walk_stmt (on_expr W) (on_local W) (SLocal (Local a' p t (option_map se i) (option_map se d))))).
          { intros a' X. cbn [walk_stmt]. eapply tw_bind; [|intro; apply tw_ret; reflexivity]. rewrite <- (re_25 fm fe). apply KL. exact X. }
          destruct (find_remove_attr a NAME) as [[q l]|] eqn:E; [|apply WS, P].
          change (kl (Local a p t i d) = true) in P. rewrite kept_local_eq in P. apply andb_true_iff in P. destruct P as [P0 P1].
          destruct (kept_remove fm _ _ _ E P0) as [_ L]. cbn [snd] in L.
          assert (PL : kl (Local l p t i d) = true) by (rewrite kept_local_eq, L; exact P1).
          assert (HS' : enum_name (hash1 (NStmt (SLocal (Local l p t (option_map se i) (option_map se d))))) = fe (enum_name (hash0 (NStmt (SLocal (Local l p t i d))))))
            by apply (HS (SLocal (Local l p t i d))).
          apply (tw_bind rchild).
          { destruct q; [apply make_child_re; [exact HS'|discriminate]|apply make_child_re; [exact HS'|intros; eapply kept_child; eauto]|apply tw_ret; reflexivity]. }
          intros r. eapply (tw_bind_if ss ss (fun z => ks z = true /\ match z with SItem _ => False | _ => True end)); [|apply WS, PL|].
          { cbn [walk_stmt]. eapply keeps_bind; [apply KL', PL|]. intros. apply keeps_ret. auto. }
          intros s1 [W1 NI]. destruct r as [er|c]; cbn [rchild].
          + apply (tw_bind same); [apply tw_error|intros _; apply tw_ret; reflexivity].
          + apply in_child_re, parent_stmt_kre; assumption.
        - apply tw_ret; reflexivity.
        - eapply tw_bind; [|intro; apply tw_ret; reflexivity]. apply vs_expr_kre. exact P.
        - cbn [walk_stmt]. apply tw_ret; reflexivity.
      Qed.
    End Parents.

    Lemma agree_all n : agree (engine hash0 ta n) (engine hash1 ta n).
    Proof.
      induction n as [|n IH]; [repeat split; intros; apply tw_fuel|].
      pose proof IH as Ag. pose proof (stays_all fm hash0 ta n) as St. destruct St as (TE & TS & TA & TL & TD & TDS).
      destruct IH as (VE & VS & VA & VL & DE & DS). unfold agree. cbn [engine step r_vexpr r_vstmt r_varm r_vlocal r_dexpr r_dstmt].
      repeat split; intros; apply tw_unless.
      - unfold visit_expr. eapply (tw_bind same); [apply tw_massert; reflexivity|intros _]. rewrite se_attrs.
        apply tw_note. rewrite se_check. set (sc' := check_expr _ e). clearbody sc'.
        apply tw_read; [reflexivity|]. intros mode. eapply (tw_bind_if se se (ok ke)).
        { destruct mode; [apply keeps_ret; assumption|apply kept_by_return; assumption|apply kept_by_try; assumption]. }
        { destruct mode; [apply tw_ret; reflexivity|apply return_re|apply try_re]. }
        intros e1 P1. cbv beta in P1. rewrite se_attrs.
        eapply (tw_bind_if se se (ok ke)).
        { destruct (sc_foreign sc'); [apply keeps_ret; exact P1|].
          destruct (find_remove_attr (e_attrs e1) NESTED) as [[at_ a']|] eqn:E; [|apply keeps_ret; exact P1].
          apply kept_by_nested. apply kept_set; [exact P1|]. apply (kept_remove fm _ _ _ E), kept_attrs, P1. }
        { destruct (sc_foreign sc'); [apply tw_ret; reflexivity|].
          destruct (find_remove_attr (e_attrs e1) NESTED) as [[at_ a']|] eqn:E; [|apply tw_ret; reflexivity].
          rewrite se_set. apply nested_re. }
        intros e2 P2. eapply tw_bind.
        { apply vs_expr_kre; [exact Ag|..]; cbn [v_vis on_expr on_stmt on_arm on_local]; intros; unfold v_expr; auto; apply TE; assumption. }
        intros e3. apply (tw_bind fm); [intros cx; reflexivity|]. intros cur.
        assert (EQ : (fm cur =? DEFAULT_MARKER) = (cur =? DEFAULT_MARKER)) by (rewrite <- Def at 1; apply fm_eqb). rewrite EQ.
        destruct (_ || _); [|apply tw_ret; reflexivity].
        eapply tw_bind; [apply macro_any_re|]. intros e4. apply attrs_expr_re.
      - unfold visit_stmt.
        assert (G : match s with SExpr _ _ => True | _ =>
          tw ss (note_child (s_attrs s) ;;; vs_visit_stmt hash0 ta (engine hash0 ta n) (v_vis (engine hash0 ta n) (scope_below sc (s_attrs s))) s)
                (note_child (s_attrs (ss s)) ;;; vs_visit_stmt hash1 ta (engine hash1 ta n) (v_vis (engine hash1 ta n) (scope_below sc (s_attrs (ss s)))) (ss s)) end).
        { assert (G : tw ss (note_child (s_attrs s) ;;; vs_visit_stmt hash0 ta (engine hash0 ta n) (v_vis (engine hash0 ta n) (scope_below sc (s_attrs s))) s)
                (note_child (s_attrs (ss s)) ;;; vs_visit_stmt hash1 ta (engine hash1 ta n) (v_vis (engine hash1 ta n) (scope_below sc (s_attrs (ss s)))) (ss s)));
            [|destruct s; auto]. rewrite ss_attrs. apply tw_note.
          apply vs_stmt_kre; [exact Ag|..]; cbn [v_vis on_expr on_stmt on_arm on_local]; intros; unfold v_expr; auto; apply TE; assumption. }
        destruct s; try exact G. autorewrite with re. eapply tw_bind; [apply VE; assumption|intro; apply tw_ret; reflexivity].
      - destruct z as [a p g b c]. autorewrite with re. unfold visit_arm.
        eapply (tw_bind_if sa sa (ok ka)).
        { destruct (sc_foreign sc); [apply keeps_ret; assumption|].
          destruct (find_remove_attr a NESTED) as [[at_ a']|] eqn:E; [|apply keeps_ret; assumption].
          rewrite kept_arm_eq in H. split_and. eapply keeps_bind; [apply kept_by_nested; eassumption|]. intros b' Pb. cbv beta in Pb.
          apply keeps_ret. rewrite kept_arm_eq, H, Pb. reflexivity. }
        { destruct (sc_foreign sc); [apply tw_ret; autorewrite with re; reflexivity|].
          destruct (find_remove_attr a NESTED) as [[at_ a']|] eqn:E; [|apply tw_ret; autorewrite with re; reflexivity].
          eapply tw_bind; [apply nested_re|]. intros b'. apply tw_ret. autorewrite with re. reflexivity. }
        intros z1 P1. eapply tw_bind; [apply walk_arm_kre; [|exact P1]; intros; unfold v_expr; auto|]. intros [a2 p2 g2 b2 c2]. autorewrite with re.
        eapply tw_bind; [apply attrs_re|]. intros. apply tw_ret. autorewrite with re. reflexivity.
      - destruct z as [a p t i d]. autorewrite with re. unfold visit_local.
        rewrite kept_local_eq in H. cbn [fold_local] in H. rewrite !andb_true_iff in H. destruct H as (H & Z1 & Z2).
        eapply (tw_bind_if sl sl (ok kin)).
        { assert (K0 : kin (Local a p t i d) = true) by (cbn [fold_local]; rewrite Z1, Z2; reflexivity).
          destruct (sc_foreign sc); [apply keeps_ret; exact K0|].
          destruct (find_remove_attr a NESTED) as [[at_ a']|] eqn:E; [|apply keeps_ret; exact K0].
          eapply keeps_bind; [apply keeps_optM; [|eassumption]|]. { destruct i; cbn [opt_all]; auto. intros; apply kept_by_nested; assumption. }
          intros i' Pi. cbv beta in Pi. apply keeps_ret. cbn [fold_local]. rewrite Pi. assumption. }
        { destruct (sc_foreign sc); [apply tw_ret; autorewrite with re; reflexivity|].
          destruct (find_remove_attr a NESTED) as [[at_ a']|] eqn:E; [|apply tw_ret; autorewrite with re; reflexivity].
          eapply tw_bind; [apply tw_optM; destruct i; cbn [opt_all]; auto; apply nested_re|]. intros i'. apply tw_ret. autorewrite with re. reflexivity. }
        intros z1 P1. eapply tw_bind; [apply walk_local_kre; [|exact P1]; intros; unfold v_expr; auto|]. intros [a2 p2 t2 i2 d2]. autorewrite with re.
        eapply tw_bind; [apply attrs_re|]. intros. apply tw_ret. autorewrite with re. reflexivity.
      - unfold dummy_expr. rewrite se_attrs. apply tw_note.
        apply vs_expr_kre; [exact Ag|..]; cbn [d_vis on_expr on_stmt on_arm on_local]; auto; intros; [apply walk_arm_kre|apply walk_arm_kept]; auto.
      - unfold dummy_stmt. rewrite ss_attrs. apply tw_note.
        apply vs_stmt_kre; [exact Ag|..]; cbn [d_vis on_expr on_stmt on_arm on_local]; auto; intros;
          try (apply walk_arm_kre; auto; fail); try (apply walk_arm_kept; auto; fail); try (apply walk_local_full; auto; fail).
        apply walk_local_kre; [auto|]. destruct z as [a p t i d]. rewrite kept_local_eq in H0. apply andb_true_iff in H0. apply H0.
    Qed.

    Lemma input_kre n i : kept_input fm i = true ->
      tw (re_input fm fe) (expand_input ta (engine hash0 ta n) i) (expand_input ta (engine hash1 ta n) (re_input fm fe i)).
    Proof.
      set (g := fun s => match s with SItem (IFn a sg out b) => SItem (IFn a sg out (map ss b)) | _ => ss s end).
      assert (G : forall s, re_input fm fe (InStmt s) = InStmt (g s)) by (intros [|[]| |]; reflexivity).
      pose proof (agree_all n) as Ag.
      intros P. destruct i as [s|e|].
      - rewrite G. cbn [expand_input]. apply (tw_bind g); [|intros; apply tw_ret; symmetry; apply G].
        destruct s as [l|it|e semi|a m semi]; cbn [kept_input] in P.
        + unfold g at 2. cbn [expand_parent_stmt]. autorewrite with re. cbn [expand_parent_stmt].
          eapply tw_bind; [apply parent_local_kre; [exact Ag|exact P]|]. intros. apply tw_ret. reflexivity.
        + destruct it as [a0 sg0 out0 body| |]; cbn [g expand_parent_stmt re_stmt re_item].
          * eapply tw_bind; [apply parent_fn_kre; [exact Ag|]|intros; apply tw_ret; reflexivity].
            clear -P. induction body as [|s r IH]; [reflexivity|]. rewrite all_cons. cbn [forallb] in P. split_and. rewrite P. apply IH. assumption.
          * apply (tw_bind same); [apply tw_error|intros _; apply tw_ret; reflexivity].
          * apply (tw_bind same); [apply tw_error|intros _; apply tw_ret; reflexivity].
        + unfold g at 2. cbn [expand_parent_stmt]. autorewrite with re. cbn [expand_parent_stmt].
          eapply tw_bind; [apply parent_expr_kre; [exact Ag|exact P]|]. intros. apply tw_ret. reflexivity.
        + apply tw_ret. reflexivity.
      - cbn [re_input expand_input]. eapply tw_bind; [apply parent_expr_kre; [exact Ag|exact P]|]. intros. apply tw_ret. reflexivity.
      - cbn [re_input expand_input]. apply (tw_bind same); [apply tw_error|intros _]. apply (tw_bind same); [apply tw_error|intros _]. apply tw_ret. reflexivity.
    Qed.
  End Nested.
End Run.


Theorem rename_run fm fe hash0 hash1 ta n args0 args1 ps mo0 mo1 i :
  (forall a b, fm a = fm b -> a = b) -> (forall s, reserved s = true -> fm s = s) ->
  parse_args args0 = inr (ps, mo0) -> parse_args args1 = inr (ps, mo1) -> own_marker mo1 = fm (own_marker mo0) -> plain_input i = true ->
  enum_name (hash1 (NInput (re_input fm fe i))) = fe (enum_name (hash0 (NInput i))) ->
  but_names fm fe (attribute hash0 ta n args0 i) (attribute hash1 ta n args1 (re_input fm fe i)).
Proof.
  intros Inj Res A0 A1 O P E.
  unfold attribute. rewrite E, (root_start _ _ _ _ A0), (root_start _ _ _ _ A1).
  pose proof (input_re fm fe Inj Res hash0 hash1 ta n i P (start (enum_name (hash0 (NInput i))) (own_marker mo0) ps [] VDefault)) as T.
  unfold rn in T. cbn [start cx_ident cx_variants cx_marker cx_markers cx_root cx_has_child cx_mode cx_last cx_errs cx_args cx_traits map] in T.
  rewrite <- O in T. unfold start in T |- *. rewrite T. destruct (expand_input ta _ i _) as [[i' c]| |]; cbn [renamed but_names]; auto.
  change (cx_errs (rn fm fe c)) with (cx_errs c). destruct (cx_errs c); cbn [but_names]; auto.
Qed.

Lemma other_inj x y a b : other_name x y a = other_name x y b -> a = b.
Proof.
  unfold other_name. destruct (String.eqb_spec a x), (String.eqb_spec b x), (String.eqb_spec a y), (String.eqb_spec b y); intros; subst; congruence.
Qed.
Lemma other_reserved x y s : reserved x = false -> reserved y = false -> reserved s = true -> other_name x y s = s.
Proof.
  unfold other_name. intros X Y R. destruct (String.eqb_spec s x); [congruence|]. destruct (String.eqb_spec s y); [congruence|reflexivity].
Qed.
Lemma other_own x y : other_name x y x = y.
Proof. unfold other_name. rewrite String.eqb_refl. reflexivity. Qed.

Theorem rename_nested fm fe hash0 hash1 ta n args0 args1 ps mo0 mo1 i :
  (forall a b, fm a = fm b -> a = b) -> (forall s, reserved s = true -> fm s = s) -> fm "marker" = "marker" ->
  (forall e, enum_name (hash1 (NExpr (re_expr fm fe e))) = fe (enum_name (hash0 (NExpr e)))) ->
  (forall s, enum_name (hash1 (NStmt (re_stmt fm fe s))) = fe (enum_name (hash0 (NStmt s)))) ->
  enum_name (hash1 (NInput (re_input fm fe i))) = fe (enum_name (hash0 (NInput i))) ->
  parse_args args0 = inr (ps, mo0) -> parse_args args1 = inr (ps, mo1) -> own_marker mo1 = fm (own_marker mo0) -> kept_input fm i = true ->
  but_names fm fe (attribute hash0 ta n args0 i) (attribute hash1 ta n args1 (re_input fm fe i)).
Proof.
  intros Inj Res Def HE HS E A0 A1 O P.
  unfold attribute. rewrite E, (root_start _ _ _ _ A0), (root_start _ _ _ _ A1).
  pose proof (input_kre fm fe Inj Res hash0 hash1 ta Def HE HS n i P (start (enum_name (hash0 (NInput i))) (own_marker mo0) ps [] VDefault)) as T.
  unfold rn in T. cbn [start cx_ident cx_variants cx_marker cx_markers cx_root cx_has_child cx_mode cx_last cx_errs cx_args cx_traits map] in T.
  rewrite <- O in T. unfold start in T |- *. rewrite T. destruct (expand_input ta _ i _) as [[i' c]| |]; cbn [renamed but_names]; auto.
  change (cx_errs (rn fm fe c)) with (cx_errs c). destruct (cx_errs c); cbn [but_names]; auto.
Qed.

(** A renaming that changes no name keeps every marker. *)
Lemma all_true {A} (Q : A -> bool) l : Forall (fun z => Q z = true) l -> fold_list andb true Q l = true.
Proof. induction 1 as [|z l H _ IH]; [reflexivity|]. rewrite all_cons, H. exact IH. Qed.
Lemma opt_true {A} (Q : A -> bool) o : opt_all (fun z => Q z = true) o -> fold_opt true Q o = true.
Proof. destruct o; cbn; auto. Qed.
Lemma same_kept_attrs a : forallb (kept_marker same_name) a = true.
Proof.
  apply forallb_forall. intros x _. destruct x as [p|p toks|p v]; cbn [kept_marker]; auto. destruct (is_ident _ _); auto.
  destruct (parse_args toks) as [|[? [m|]]]; auto. apply String.eqb_refl.
Qed.
Lemma same_kept : (forall e, kept_expr same_name e = true) /\ (forall s, kept_stmt same_name s = true) /\ (forall x, kept_arm same_name x = true) /\ (forall l, kept_local same_name l = true).
Proof.
  apply ast_ind; intros; try reflexivity;
    rewrite ?kept_expr_eq, ?kept_arm_eq, ?kept_local_eq; cbn [e_attrs fold_local]; rewrite ?same_kept_attrs; cbn [kept_in fold_expr];
    repeat match goal with
    | H : Forall _ _ |- _ => apply all_true in H; rewrite H; clear H
    | H : opt_all _ ?o |- _ => first [apply opt_true in H; rewrite H; clear H | destruct o; cbn [opt_all] in H]
    | H : _ = true |- _ => first [rewrite H; clear H | exact H]
    end; try reflexivity.
Qed.
Lemma same_kept_input i : kept_input same_name i = true.
Proof.
  destruct same_kept as (E & S & A & L). destruct i as [[l|it|e semi|a m semi]|e|]; cbn [kept_input]; auto.
  - specialize (L l). destruct l. rewrite kept_local_eq in L. apply andb_true_iff in L. apply L.
  - destruct it; auto. apply forallb_forall. auto.
Qed.
