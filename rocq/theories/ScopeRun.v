(** How edits change the uses and the declarations of constructors. *)

Require Import Coq.Strings.String Coq.Lists.List Coq.Bool.Bool Coq.Arith.Arith Lia.
Require Import Coq.Sorting.Permutation.
Require Import Verif.Syntax Verif.ExprModel Verif.AstInd Verif.Edits Verif.Scope.
Import ListNotations.
Open Scope string_scope.
Open Scope list_scope.

Lemma fold_list_flat {A B} (f : A -> list B) l : fold_list (@app B) [] f l = flat_map f l.
Proof. induction l; [reflexivity|]. cbn. rewrite <- IHl. reflexivity. Qed.

(** ** Uses *)

Section Mentions.
  Variable mk : string -> bool.
  Variable iv : string * string.

  Notation ct l := (count_occ ctor_dec l iv).

  Lemma mentions_set_attrs e a : mentions_expr (set_attrs e a) = mentions_expr e.
  Proof. destruct e; reflexivity. Qed.

  Ltac go :=
    intros;
    cbn [mentions_expr mentions_stmt mentions_arm mentions_local fold_expr fold_stmt fold_arm
         fold_local fold_opt flat_map used] in *;
    rewrite ?fold_list_flat, ?flat_map_app, ?count_occ_app, ?app_nil_r in *; cbn [count_occ] in *;
    try lia.

  Lemma mentions_edit :
    (forall t e e', ed_expr mk t e e' ->
       ct (mentions_expr e') = ct (mentions_expr e) + ct (flat_map used t))
    /\ (forall t l l', ed_exprs mk t l l' ->
       ct (flat_map mentions_expr l') = ct (flat_map mentions_expr l) + ct (flat_map used t))
    /\ (forall t o o', ed_opt mk t o o' ->
       ct (fold_opt [] mentions_expr o') = ct (fold_opt [] mentions_expr o) + ct (flat_map used t))
    /\ (forall t s s', ed_stmt mk t s s' ->
       ct (mentions_stmt s') = ct (mentions_stmt s) + ct (flat_map used t))
    /\ (forall t l l', ed_stmts mk t l l' ->
       ct (flat_map mentions_stmt l') = ct (flat_map mentions_stmt l) + ct (flat_map used t))
    /\ (forall t x x', ed_arm mk t x x' ->
       ct (mentions_arm x') = ct (mentions_arm x) + ct (flat_map used t))
    /\ (forall t l l', ed_arms mk t l l' ->
       ct (flat_map mentions_arm l') = ct (flat_map mentions_arm l) + ct (flat_map used t))
    /\ (forall t x x', ed_local mk t x x' ->
       ct (mentions_local x') = ct (mentions_local x) + ct (flat_map used t)).
  Proof.
    apply (ed_ind mk); intros; go.
    all: try (rewrite mentions_set_attrs; lia).
    all: unfold wrap_branch, wrap, question_arms, operand, result_ctor, ctor, plain_path;
      try (destruct o as [x|]); go; cbn [ctor_of map]; cbn [count_occ]; try destruct (ctor_dec _ _); try lia.
    all: cbn -[ctor_dec]; rewrite ?fold_list_flat, ?app_nil_r, ?count_occ_app; try lia.
    all: cbn -[ctor_dec]; repeat destruct (ctor_dec _ _); try congruence; try lia.
  Qed.
End Mentions.

(** ** Declarations *)

Section Decls.
  Variable mk : string -> bool.
  Context {B : Type} (dec : forall x y : B, {x = y} + {x <> y}) (g : genum -> list B) (b : B).

  Notation ct l := (count_occ dec (flat_map g l) b).

  Lemma decls_set_attrs e a : decls_expr (set_attrs e a) = decls_expr e.
  Proof. destruct e; reflexivity. Qed.

  Ltac go :=
    intros;
    cbn [decls_expr decls_stmt decls_arm decls_local fold_expr fold_stmt fold_arm
         fold_local fold_opt flat_map enums] in *;
    rewrite ?fold_list_flat, ?flat_map_app, ?count_occ_app, ?app_nil_r in *; cbn [count_occ] in *;
    try lia.

  (** A property of the enums declared, counted in any way. *)
  Lemma decls_edit :
    (forall t e e', ed_expr mk t e e' ->
       ct (decls_expr e') = ct (decls_expr e) + ct (flat_map enums t))
    /\ (forall t l l', ed_exprs mk t l l' ->
       ct (flat_map decls_expr l') = ct (flat_map decls_expr l) + ct (flat_map enums t))
    /\ (forall t o o', ed_opt mk t o o' ->
       ct (fold_opt [] decls_expr o') = ct (fold_opt [] decls_expr o) + ct (flat_map enums t))
    /\ (forall t s s', ed_stmt mk t s s' ->
       ct (decls_stmt s') = ct (decls_stmt s) + ct (flat_map enums t))
    /\ (forall t l l', ed_stmts mk t l l' ->
       ct (flat_map decls_stmt l') = ct (flat_map decls_stmt l) + ct (flat_map enums t))
    /\ (forall t x x', ed_arm mk t x x' ->
       ct (decls_arm x') = ct (decls_arm x) + ct (flat_map enums t))
    /\ (forall t l l', ed_arms mk t l l' ->
       ct (flat_map decls_arm l') = ct (flat_map decls_arm l) + ct (flat_map enums t))
    /\ (forall t x x', ed_local mk t x x' ->
       ct (decls_local x') = ct (decls_local x) + ct (flat_map enums t)).
  Proof.
    apply (ed_ind mk); intros; go.
    all: try (rewrite decls_set_attrs; lia).
    all: unfold wrap_branch, wrap, question_arms, operand, result_ctor, ctor, plain_path;
      try (destruct o as [x|]); go.
    all: cbn; rewrite ?fold_list_flat, ?app_nil_r, ?flat_map_app, ?count_occ_app; try lia.
  Qed.
End Decls.

Section DeclsIn.
  Variable mk : string -> bool.
  Variable g : genum.

  Ltac go :=
    intros;
    cbn [decls_expr decls_stmt decls_arm decls_local fold_expr fold_stmt fold_arm
         fold_local fold_opt flat_map enums] in *;
    rewrite ?fold_list_flat, ?flat_map_app, ?in_app_iff, ?app_nil_r in *; cbn [In] in *;
    try tauto.

  Lemma decls_in :
    (forall t e e', ed_expr mk t e e' ->
       (In g (decls_expr e') <-> In g (decls_expr e) \/ In g (flat_map enums t)))
    /\ (forall t l l', ed_exprs mk t l l' ->
       (In g (flat_map decls_expr l') <-> In g (flat_map decls_expr l) \/ In g (flat_map enums t)))
    /\ (forall t o o', ed_opt mk t o o' ->
       (In g (fold_opt [] decls_expr o') <-> In g (fold_opt [] decls_expr o) \/ In g (flat_map enums t)))
    /\ (forall t s s', ed_stmt mk t s s' ->
       (In g (decls_stmt s') <-> In g (decls_stmt s) \/ In g (flat_map enums t)))
    /\ (forall t l l', ed_stmts mk t l l' ->
       (In g (flat_map decls_stmt l') <-> In g (flat_map decls_stmt l) \/ In g (flat_map enums t)))
    /\ (forall t x x', ed_arm mk t x x' ->
       (In g (decls_arm x') <-> In g (decls_arm x) \/ In g (flat_map enums t)))
    /\ (forall t l l', ed_arms mk t l l' ->
       (In g (flat_map decls_arm l') <-> In g (flat_map decls_arm l) \/ In g (flat_map enums t)))
    /\ (forall t x x', ed_local mk t x x' ->
       (In g (decls_local x') <-> In g (decls_local x) \/ In g (flat_map enums t))).
  Proof.
    apply (ed_ind mk); intros; go.
    all: try (rewrite decls_set_attrs; tauto).
    all: unfold wrap_branch, wrap, question_arms, operand, result_ctor, ctor, plain_path;
      try (destruct o as [x|]); go.
    all: cbn; rewrite ?fold_list_flat, ?app_nil_r, ?flat_map_app, ?in_app_iff; cbn; try tauto.
  Qed.
End DeclsIn.

(** ** Scopes *)

Definition weaker (G G' : list genum) : Prop :=
  forall x, undeclared G x = true -> undeclared G' x = true.

Lemma undeclared_app G1 G2 x : undeclared (G1 ++ G2) x = undeclared G1 x && undeclared G2 x.
Proof. unfold undeclared. rewrite existsb_app, negb_orb. reflexivity. Qed.

Lemma weaker_app B G G' : weaker G G' -> weaker (B ++ G) (B ++ G').
Proof.
  intros H x. rewrite !undeclared_app. intros E. apply andb_prop in E. destruct E as [-> E].
  apply H in E. rewrite E. reflexivity.
Qed.

Lemma weaker_skip B G : weaker (B ++ G) G.
Proof. intros x. rewrite undeclared_app. intros E. apply andb_prop in E. tauto. Qed.

Lemma filter_weaker G G' l :
  weaker G G' -> incl (filter (undeclared G) l) (filter (undeclared G') l).
Proof. intros H x. rewrite !filter_In. intros [I E]. auto. Qed.

Lemma flat_map_incl {A B} (f g : A -> list B) l :
  Forall (fun x => incl (f x) (g x)) l -> incl (flat_map f l) (flat_map g l).
Proof.
  induction 1; cbn; [apply incl_refl|]. apply incl_app_app; assumption.
Qed.

Definition mono {A} (f : list genum -> A -> list (string * string)) (x : A) : Prop :=
  forall G G', weaker G G' -> incl (f G x) (f G' x).

Lemma mono_flat {A} (f : list genum -> A -> list (string * string)) l G G' :
  Forall (mono f) l -> weaker G G' -> incl (flat_map (f G) l) (flat_map (f G') l).
Proof.
  intros F W. apply flat_map_incl. eapply Forall_impl; [|exact F]. cbn. auto.
Qed.

Lemma unscoped_mono :
  (forall e, mono unscoped_expr e) /\ (forall s, mono unscoped_stmt s)
  /\ (forall x, mono unscoped_arm x) /\ (forall l, mono unscoped_local l).
Proof.
  apply ast_ind; unfold mono; intros;
    cbn [unscoped_expr unscoped_stmt unscoped_arm unscoped_local];
    repeat first
      [ apply incl_refl
      | apply incl_app_app
      | apply mono_flat; [assumption|]; try apply weaker_app; assumption
      | match goal with
        | H : opt_all _ ?o |- incl (match ?o with _ => _ end) _ => destruct o; cbn in H
        | H : forall G G', _ -> incl (_ G ?x) _ |- incl (_ _ ?x) _ => apply H; assumption
        end ].
  destruct q; [apply incl_refl|apply filter_weaker; assumption].
Qed.

Lemma unscoped_set_attrs G e a : unscoped_expr G (set_attrs e a) = unscoped_expr G e.
Proof. destruct e; reflexivity. Qed.

Section Unscoped.
  Variable mk : string -> bool.

  Definition sc {A} (f : list genum -> A -> list (string * string)) (t : list label) (x x' : A) : Prop :=
    forall G, incl (f G x') (f G x ++ filter (undeclared G) (flat_map free t)).

  Definition uopt (G : list genum) (o : option expr) :=
    match o with Some x => unscoped_expr G x | None => [] end.
  Definition ulist {A} (f : list genum -> A -> list (string * string)) (G : list genum) (l : list A) :=
    flat_map (f G) l.

  Lemma incl_pair {A} (x1 x2 y1 y2 z1 z2 : list A) :
    incl x1 (y1 ++ z1) -> incl x2 (y2 ++ z2) -> incl (x1 ++ x2) ((y1 ++ y2) ++ (z1 ++ z2)).
  Proof.
    intros H1 H2 x. rewrite !in_app_iff. intros [H|H].
    - apply H1 in H. rewrite in_app_iff in H. tauto.
    - apply H2 in H. rewrite in_app_iff in H. tauto.
  Qed.

  Lemma sc_block t b b' G :
    sc (ulist unscoped_stmt) t b b' -> block_enums b' = block_enums b ->
    incl (flat_map (unscoped_stmt (block_enums b' ++ G)) b')
         (flat_map (unscoped_stmt (block_enums b ++ G)) b ++ filter (undeclared G) (flat_map free t)).
  Proof.
    intros S E. rewrite E. intros x Hx. apply (S (block_enums b ++ G)) in Hx.
    rewrite in_app_iff in *. destruct Hx as [Hx|Hx]; [left; assumption|right].
    revert Hx. apply filter_weaker, weaker_skip.
  Qed.

  Ltac ctor_case G :=
    let x := fresh in let H := fresh in
    intros x H; cbn in H |- *; rewrite ?app_nil_r in *;
    repeat (rewrite ?in_app_iff in *; cbn in * );
    tauto.

  Lemma unscoped_edit :
    (forall t e e', ed_expr mk t e e' -> sc unscoped_expr t e e')
    /\ (forall t l l', ed_exprs mk t l l' -> sc (ulist unscoped_expr) t l l')
    /\ (forall t o o', ed_opt mk t o o' -> sc uopt t o o')
    /\ (forall t s s', ed_stmt mk t s s' ->
          sc unscoped_stmt t s s' /\ block_enums [s'] = block_enums [s])
    /\ (forall t l l', ed_stmts mk t l l' ->
          sc (ulist unscoped_stmt) t l l' /\ block_enums l' = block_enums l)
    /\ (forall t x x', ed_arm mk t x x' -> sc unscoped_arm t x x')
    /\ (forall t l l', ed_arms mk t l l' -> sc (ulist unscoped_arm) t l l')
    /\ (forall t x x', ed_local mk t x x' -> sc unscoped_local t x x').
  Proof.
    assert (TR : forall A (f : list genum -> A -> list (string * string)) t1 t2 x1 x2 x3,
               sc f t1 x1 x2 -> sc f t2 x2 x3 -> sc f (t1 ++ t2) x1 x3).
    { intros A f t1 t2 x1 x2 x3 H1 H2 G x Hx. apply H2 in Hx. rewrite flat_map_app, filter_app.
      rewrite !in_app_iff in *. destruct Hx as [Hx|Hx]; [|tauto]. apply H1 in Hx.
      rewrite in_app_iff in Hx. tauto. }
    apply (ed_ind mk); intros; try (destruct H as [HS HE]); try (destruct H0 as [HS0 HE0]);
      try (split; [|auto; fail]).
    all: try solve [eapply TR; eassumption].
    all: try solve [intros G; cbn; rewrite ?app_nil_r; auto using incl_refl].
    all: try solve [intros G; cbn [unscoped_expr unscoped_stmt unscoped_arm unscoped_local uopt ulist flat_map];
      rewrite ?flat_map_app, ?filter_app;
      repeat first [ apply incl_pair | apply sc_block; assumption | match goal with
        | H : sc _ _ _ _ |- _ => apply H
        end ]].
    all: try solve [intros G; rewrite unscoped_set_attrs; cbn; rewrite app_nil_r; apply incl_refl].
    all: try solve [intros G; ctor_case G].
    - intros G. destruct o; ctor_case G.
    - intros G. destruct o; ctor_case G.
    - intros G. set (g := enum_of i (variants n) d). rename H into HS.
      cbn [unscoped_expr flat_map unscoped_stmt block_enums app free].
      rewrite !app_nil_r. intros x Hx. apply (HS (g :: G)) in Hx. rewrite in_app_iff in *.
      destruct Hx as [Hx|Hx].
      + left. revert Hx. apply unscoped_mono. apply (weaker_skip [g] G).
      + right. rewrite !filter_In in *. destruct Hx as [Hx E].
        unfold undeclared in E |- *. cbn in E. rewrite negb_orb in E. apply andb_prop in E. tauto.
    - split.
      + intros G. cbn [ulist flat_map]. rewrite flat_map_app, filter_app.
        apply incl_pair; [apply HS|apply HS0].
      + unfold block_enums in *. cbn [flat_map] in *. rewrite !app_nil_r in HE. congruence.
    - split; [eapply TR; eassumption|congruence].
  Qed.
End Unscoped.
