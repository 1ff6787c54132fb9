(** Lemmas about the monad and about how the context changes in a run. *)

Require Import Coq.Strings.String Coq.Lists.List Coq.Bool.Bool Coq.Arith.Arith Lia.
Require Import Coq.Sorting.Permutation.
Require Import Verif.Syntax Verif.Context Verif.ExprModel Verif.AutoEnum Verif.Edits.
Import ListNotations.
Open Scope string_scope.
Open Scope list_scope.

(** ** Inversion of monadic runs *)

Lemma bind_ok {A B} (m : M A) (k : A -> M B) cx b cx' :
  bind m k cx = ROk (b, cx') -> exists a cx1, m cx = ROk (a, cx1) /\ k a cx1 = ROk (b, cx').
Proof. unfold bind. destruct (m cx) as [[a cx1]| |]; try discriminate. eauto. Qed.

Lemma ret_ok {A} (a : A) cx b cx' : ret a cx = ROk (b, cx') -> b = a /\ cx' = cx.
Proof. unfold ret. intros H; inversion H; auto. Qed.

Lemma gets_ok {A} (f : ctx -> A) cx b cx' : gets f cx = ROk (b, cx') -> b = f cx /\ cx' = cx.
Proof. unfold gets. intros H; inversion H; auto. Qed.

Lemma modify_ok f cx b cx' : modify f cx = ROk (b, cx') -> b = tt /\ cx' = f cx.
Proof. unfold modify. intros H; inversion H; auto. Qed.

Lemma massert_ok f s cx b cx' : massert f s cx = ROk (b, cx') -> f cx = true /\ b = tt /\ cx' = cx.
Proof. unfold massert. destruct (f cx); intros H; inversion H; auto. Qed.

Lemma error_ok e cx b cx' :
  error e cx = ROk (b, cx') -> b = tt /\ cx' = set_errs (cx_errs cx ++ [e]) cx.
Proof. intros H. apply modify_ok in H. exact H. Qed.

(** Replaces the variable [x], if it is one, by what it is equal to. *)
Ltac elim_var x := try (is_var x; subst x).

(** Takes apart a hypothesis [m cx = ROk (b, cx')] for a composed [m]. *)
Ltac minv_step :=
  match goal with
  | H : bind _ _ _ = ROk _ |- _ =>
      let a := fresh "a" in let c := fresh "cx" in let H1 := fresh "H" in
      apply bind_ok in H; destruct H as (a & c & H1 & H)
  | H : ret _ _ = ROk (?b, ?c) |- _ =>
      let E := fresh "E" in let F := fresh "F" in
      apply ret_ok in H; destruct H as [E F]; elim_var c; elim_var b
  | H : gets _ _ = ROk (?b, ?c) |- _ =>
      let E := fresh "E" in let F := fresh "F" in
      apply gets_ok in H; destruct H as [E F]; elim_var c; elim_var b
  | H : modify _ _ = ROk (?b, ?c) |- _ =>
      let E := fresh "E" in let F := fresh "F" in
      apply modify_ok in H; destruct H as [E F]; elim_var c; elim_var b
  | H : massert _ _ _ = ROk (?b, ?c) |- _ =>
      let D := fresh "D" in let E := fresh "E" in let F := fresh "F" in
      apply massert_ok in H; destruct H as (D & E & F); elim_var c; elim_var b
  | H : error _ _ = ROk (?b, ?c) |- _ =>
      let E := fresh "E" in let F := fresh "F" in
      apply error_ok in H; destruct H as [E F]; elim_var c; elim_var b
  | H : panic _ _ = ROk _ |- _ => discriminate H
  | H : out_of_fuel _ = ROk _ |- _ => discriminate H
  end.
Ltac minv := repeat minv_step.

(** ** Extension of a context in a run *)

(** [n] new variant names after [k] old ones. *)
Definition new_variants (k n : nat) : list string := map variant_name (seq k n).

(** Facts about the [auto_enum] attributes of the code: the trait lists that occur as arguments, and
    whether there is any attribute. *)
Class Cfg := MkCfg { c_dk : list path -> Prop; c_ch : Prop }.

Section Ext.
Context {K : Cfg}.

(** The traits to derive begin with a trait list given by the user. *)
Definition derived (g : genum) : Prop :=
  exists ps tr, g_derive g = ps ++ tr /\ c_dk ps.

(** The context has a generated name and a trait list given by the user. *)
Definition fine (cx : ctx) : Prop := gen_name (cx_ident cx) = true /\ c_dk (cx_args cx).

(** What a run does to the fields of its context other than the variants. *)
Record bext (cx cx' : ctx) : Prop := BExt {
  b_ident : cx_ident cx' = cx_ident cx;
  b_marker : cx_marker cx' = cx_marker cx;
  b_root : cx_root cx' = cx_root cx;
  b_args : cx_args cx' = cx_args cx;
  b_child : cx_has_child cx = true -> cx_has_child cx' = true;
  b_child2 : cx_has_child cx' = true -> cx_has_child cx = true \/ c_ch;
  b_markers : cx_markers cx' = cx_markers cx \/ (cx_markers cx' = [] /\ cx_errs cx' <> []);
  b_errs : exists de, cx_errs cx' = cx_errs cx ++ de
}.

(** What a run of a visitor does to its context when it makes edits with labels [t]. *)
Record ext (cx : ctx) (t : list label) (cx' : ctx) : Prop := Ext {
  x_base : bext cx cx';
  x_clean : cx_errs cx' = [] -> fine cx ->
    forallb clean t = true /\ Forall derived (flat_map enums t);
  x_use : exists n,
      cx_variants cx' = cx_variants cx ++ new_variants (length (cx_variants cx)) n
      /\ (cx_errs cx' = [] ->
          Permutation (flat_map used t)
            (map (pair (cx_ident cx)) (new_variants (length (cx_variants cx)) n)
             ++ flat_map ctors (flat_map enums t))
          /\ incl (flat_map free t)
               (map (pair (cx_ident cx)) (new_variants (length (cx_variants cx)) n)));
  x_enums : cx_errs cx' = [] -> flat_map enums t = [] \/ cx_has_child cx' = true
}.

(** The labels of code that uses only the variants it declares. *)
Definition closed (t : list label) : Prop :=
  (forallb clean t = true /\ Forall derived (flat_map enums t)) /\ flat_map free t = []
  /\ Permutation (flat_map used t) (flat_map ctors (flat_map enums t)).

Lemma gen_enum_name h : gen_name (enum_name h) = true.
Proof. unfold gen_name, enum_name. cbn. destruct (dec_N h); reflexivity. Qed.

Lemma new_variants_length k n : length (new_variants k n) = n.
Proof. unfold new_variants. rewrite map_length, seq_length. reflexivity. Qed.

Lemma new_variants_app k n m :
  new_variants k n ++ new_variants (k + n) m = new_variants k (n + m).
Proof. unfold new_variants. rewrite seq_app, map_app. reflexivity. Qed.

Lemma app_nil_inv {A} (l1 l2 : list A) : l1 ++ l2 = [] -> l1 = [] /\ l2 = [].
Proof. apply app_eq_nil. Qed.

Lemma snoc_nonempty {A} (l : list A) x : l ++ [x] <> [].
Proof. intros E. apply app_nil_inv in E. destruct E; discriminate. Qed.

Lemma bext_refl cx : bext cx cx.
Proof. split; auto. exists []. rewrite app_nil_r. reflexivity. Qed.

Lemma bext_trans a b c : bext a b -> bext b c -> bext a c.
Proof.
  intros [a1 a2 a3 a4 a5 a8 a6 [d1 a7]] [c1 c2 c3 c4 c5 c8 c6 [d2 c7]].
  split; try congruence; auto.
  - intros H. destruct (c8 H); auto.
  - destruct c6 as [c6|[c6 c6']]; [|right; tauto].
    destruct a6 as [a6|[a6 a6']]; [left; congruence|right].
    split; [congruence|]. rewrite c7. intros E. apply app_nil_inv in E. tauto.
  - exists (d1 ++ d2). rewrite c7, a7, app_assoc. reflexivity.
Qed.

Lemma x_ident cx t cx' : ext cx t cx' -> cx_ident cx' = cx_ident cx.
Proof. intros X. apply X. Qed.
Lemma x_marker cx t cx' : ext cx t cx' -> cx_marker cx' = cx_marker cx.
Proof. intros X. apply X. Qed.

(** Nothing used. *)
Lemma ext_of_bext cx cx' : bext cx cx' -> cx_variants cx' = cx_variants cx -> ext cx [] cx'.
Proof.
  intros B V. split; [assumption|split; [reflexivity|constructor]| |left; reflexivity].
  exists 0. cbn. rewrite app_nil_r. split; [assumption|].
  intros _. split; [constructor|]. intros x H; inversion H.
Qed.

Lemma ext_refl cx : ext cx [] cx.
Proof. apply ext_of_bext; [apply bext_refl|reflexivity]. Qed.

Lemma bext_errs_nil cx cx' : bext cx cx' -> cx_errs cx' = [] -> cx_errs cx = [].
Proof. intros X H. destruct (b_errs _ _ X) as [de E]. rewrite H in E. symmetry in E.
  apply app_nil_inv in E. tauto. Qed.

Lemma ext_errs_nil cx t cx' : ext cx t cx' -> cx_errs cx' = [] -> cx_errs cx = [].
Proof. intros X. apply bext_errs_nil. apply X. Qed.

Lemma ext_trans cx1 cx2 cx3 t1 t2 : ext cx1 t1 cx2 -> ext cx2 t2 cx3 -> ext cx1 (t1 ++ t2) cx3.
Proof.
  intros X Y. pose proof (ext_errs_nil _ _ _ Y) as EN. pose proof (x_ident _ _ _ X) as a1.
  destruct X as [a0 a8 (n1 & b1 & b2) a9]. destruct Y as [c0 c8 (n2 & e1 & e2) c9].
  split.
  - eapply bext_trans; eassumption.
  - intros E F. destruct (a8 (EN E) F) as [f1 f2]. destruct (c8 E) as [f3 f4].
    { destruct F as [F1 F2]. destruct a0. split; congruence. }
    rewrite forallb_app, f1, f3, flat_map_app. split; [reflexivity|apply Forall_app; auto].
  - exists (n1 + n2). rewrite b1 in *. rewrite app_length, new_variants_length in *.
    rewrite a1 in *. split.
    + rewrite e1, <- app_assoc, new_variants_app. reflexivity.
    + intros E. destruct (e2 E) as [e3 e4]. destruct (b2 (EN E)) as [b3 b4].
      rewrite !flat_map_app, <- new_variants_app, map_app. split; [|apply incl_app_app; assumption].
      eapply Permutation_trans; [apply Permutation_app; eassumption|].
      rewrite <- !app_assoc. apply Permutation_app_head.
      rewrite !app_assoc. apply Permutation_app_tail. apply Permutation_app_comm.
  - intros E. rewrite flat_map_app. destruct (c9 E) as [->|C]; [|right; exact C].
    destruct (a9 (EN E)) as [->|C]; [left; reflexivity|right; apply c0; exact C].
Qed.

Lemma ext_error_lbl cx e t : ext cx t (set_errs (cx_errs cx ++ [e]) cx).
Proof.
  split; cbn.
  - split; cbn; auto. exists [e]. reflexivity.
  - intros E. apply snoc_nonempty in E. contradiction.
  - exists 0. cbn. rewrite app_nil_r. split; [reflexivity|].
    intros E. apply snoc_nonempty in E. contradiction.
  - intros E. apply snoc_nonempty in E. contradiction.
Qed.

Lemma ext_error cx e : ext cx [] (set_errs (cx_errs cx ++ [e]) cx).
Proof. apply ext_error_lbl. Qed.

Lemma ext_next cx :
  ext cx [LWrap (cx_ident cx) (variant_name (length (cx_variants cx)))]
      (set_variants (cx_variants cx ++ [variant_name (length (cx_variants cx))]) cx).
Proof.
  split; cbn; auto.
  - split; cbn; auto. exists []. rewrite app_nil_r. reflexivity.
  - intros _ [-> _]. split; [reflexivity|constructor].
  - exists 1. cbn. split; [reflexivity|]. intros _. split; [reflexivity|apply incl_refl].
Qed.

Lemma bext_same cx cx' :
  cx_ident cx' = cx_ident cx -> cx_marker cx' = cx_marker cx -> cx_root cx' = cx_root cx ->
  cx_args cx' = cx_args cx -> cx_has_child cx' = cx_has_child cx ->
  cx_markers cx' = cx_markers cx -> cx_errs cx' = cx_errs cx -> bext cx cx'.
Proof.
  intros. split; auto; try (rewrite H3; auto). exists []. rewrite app_nil_r. assumption.
Qed.

Lemma ext_child cx : c_ch -> ext cx [] (set_has_child cx).
Proof.
  intros H. apply ext_of_bext; [|reflexivity]. split; auto. exists []. rewrite app_nil_r. reflexivity.
Qed.

End Ext.

Lemma next_expr_ok e cx e' cx' :
  next_expr e cx = ROk (e', cx') ->
  e' = wrap (cx_ident cx) (variant_name (length (cx_variants cx))) e
  /\ cx' = set_variants (cx_variants cx ++ [variant_name (length (cx_variants cx))]) cx.
Proof.
  unfold next_expr, next_expr_with_attrs. intros H. injection H as E1 E2. subst. split; reflexivity.
Qed.

Lemma next_expr_attrs_ok a e cx e' cx' :
  next_expr_with_attrs a e cx = ROk (e', cx') ->
  e' = ECall a (EPath [] false (ctor (cx_ident cx) (variant_name (length (cx_variants cx))))) [e]
  /\ cx' = set_variants (cx_variants cx ++ [variant_name (length (cx_variants cx))]) cx.
Proof.
  unfold next_expr_with_attrs. intros H. injection H as E1 E2. subst. split; reflexivity.
Qed.

(** ** Runs over lists and options *)

Lemma mapM_inv {A B} (f : A -> M B) l cx l' cx' :
  mapM f l cx = ROk (l', cx') ->
  match l with
  | [] => l' = [] /\ cx' = cx
  | x :: r => exists y cx1 ys,
      f x cx = ROk (y, cx1) /\ mapM f r cx1 = ROk (ys, cx') /\ l' = y :: ys
  end.
Proof.
  destruct l as [|x r]; cbn [mapM]; intros H.
  - minv. auto.
  - minv. repeat eexists; eauto.
Qed.

Lemma optM_inv {A B} (f : A -> M B) o cx o' cx' :
  optM f o cx = ROk (o', cx') ->
  match o with
  | None => o' = None /\ cx' = cx
  | Some x => exists y, f x cx = ROk (y, cx') /\ o' = Some y
  end.
Proof. destruct o; cbn [optM]; intros H; minv; eauto. Qed.
