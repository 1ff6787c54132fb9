(** Property C44 for code with attributes inside: code without mistakes whose attributes all have two branches is expanded. *)

Require Import Coq.Strings.String Coq.Lists.List Coq.Bool.Bool Coq.Arith.Arith Coq.NArith.NArith Lia.
Require Import Verif.Syntax Verif.Context Verif.ExprModel Verif.AutoEnum Verif.Edits Verif.AttrFold Verif.Tails.
Require Import Verif.AttributeRun Verif.ArgsSpec Verif.Changes Verif.ChangesTop Verif.Frame Verif.Grammar Verif.HaltRun Verif.Causes Verif.CauseRun Verif.ExitsTop.
Require Import Verif.Steady Verif.SteadyRun Verif.PropErrors Verif.Samples.
Import ListNotations.
Open Scope string_scope.
Open Scope list_scope.

(** If no error has a cause in the input, and every attribute, the outermost included, is on code whose value has two branches
    (Steady.v) or asks for no traits, then the macro expands the code; attributes, annotations, markers, [?] and [return] may
    stand anywhere inside. *)
Theorem C44_nested_accepted : forall hash ta args ps mo i,
  parse_args args = inr (ps, mo) -> wf_input i = true -> (forall e, ~ cause args i e) ->
  ready_input ta ps i = true -> (forall a sg t b, i = InStmt (SItem (IFn a sg (Some t) b)) -> ~ result_impl t) ->
  exists n i' cx, forall k, n <= k -> attribute hash ta k args i = ROk (Code i' cx).
Proof.
  intros hash ta args ps mo i HP WF NC RI NR. destruct (attribute_halts hash ta args i WF) as (n & o & H).
  destruct o as [i' cx|l]; [eauto|exfalso]. pose proof (H n (le_n n)) as H0.
  assert (L : l <> []).
  { unfold attribute in H0. destruct (ctx_root _ args); [injection H0 as <-; discriminate|].
    destruct (expand_input _ _ _ _) as [[j cx]| |]; try discriminate. destruct (cx_errs cx); congruence. }
  assert (F : Forall calm l).
  { eapply steady_calm; [exact HP|exact RI| |exact H0]. intros a sg t b E. specialize (NR _ _ _ _ E).
    destruct (is_result_impl t) eqn:X; [|reflexivity]. exfalso. apply NR. apply result_impl_true. exact X. }
  destruct l as [|e l]; [congruence|]. destruct (C44_errors_have_causes _ _ _ _ _ _ e H0 (or_introl eq_refl)) as [(one & semi & ->)|C].
  - inversion F as [|? ? X _]; subst. discriminate X.
  - exact (NC _ C).
Qed.
Print Assumptions C44_nested_accepted.

(** ** Code without mistakes *)

Definition not_arm (p : part) : bool := match p with PtArm _ => false | _ => true end.

(** An attribute of a part: [#[never]] and [#[nested]] are bare, there is no [#[rec]], and the arguments of [#[auto_enum]] are
    well formed. *)
Definition sound_attr (p : part) (x : attr) : bool :=
  let bare := match x with MPath _ => true | _ => false end in
  (negb (is_ident (attr_path x) "never" || is_ident (attr_path x) "nested") || bare)
  && negb (is_ident (attr_path x) "rec")
  && (negb (is_ident (attr_path x) "auto_enum") || negb (not_arm p)
      || match p with PtLet (Local _ _ _ None _) => false | _ => true end
         && match p, x with
            | _, MList _ toks => match parse_args toks with inr _ => true | inl _ => false end
            | PtLet _, MPath _ => true
            | _, _ => false
            end).

(** A part: an annotated value has an [else] for every [if] at the end, only expressions stand in marker macros, and the
    attributes inside ask for no marker names. *)
Definition sound_part (args : list token) (i : input) (p : part) : bool :=
  forallb (sound_attr p) (part_attrs p)
  && (negb (attr_named "nested" (part_attrs p) || not_arm p && attr_named "auto_enum" (part_attrs p)) || part_ends_well p)
  && match p with
     | PtExpr (EMacro _ (Mac q None)) =>
         negb (existsb (is_ident q) ("marker" :: flat_map (fun r => match snd r with Some m => [m] | None => [] end) (all_args args i)))
     | _ => true
     end
  && forallb (fun it => match snd it with None => true | Some _ => false end) (names_part p).

Definition sound_code (args : list token) (i : input) : bool :=
  match i with
  | InBad | InStmt (SLocal (Local _ _ _ None _)) | InStmt (SItem (IEnum _)) | InStmt (SItem (IOther _)) | InStmt (SItem (IFn _ _ _ [])) => false
  | _ => true
  end
  && input_ends_well i && forallb (sound_part args i) (input_parts i)
  && forallb (fun it => match snd it with None => true | Some _ => false end) (names_input i).

Lemma none_asked l m : forallb (fun it : nitem => match snd it with None => true | Some _ => false end) l = true -> ~ asked l m.
Proof. intros H (ps & I). rewrite forallb_forall in H. discriminate (H _ I). Qed.

Lemma named_in name a x : In x a -> named name x -> attr_named name a = true.
Proof. intros I N. apply existsb_exists. exists x. auto. Qed.

Lemma names_less p l x r : part_attrs p = l ++ x :: r -> incl (names_part (with_attrs p (l ++ r))) (names_part p).
Proof.
  assert (Q : forall k s, incl (flat_map attr_marker (l ++ r) ++ s) (flat_map attr_marker (l ++ x :: r) ++ k ++ s)).
  { intros k s z. rewrite !flat_map_app, !in_app_iff. cbn [flat_map]. rewrite in_app_iff. tauto. }
  destruct p as [e|[a p g b c]|[a p t i d]]; cbn [part_attrs with_attrs names_part].
  - intros E. destruct e; cbn [e_attrs] in E; try (destruct l; discriminate); subst; apply (Q []).
  - intros ->. apply (Q []).
  - intros ->. apply (Q []).
Qed.

(** Code without mistakes has no causes of errors. *)
Theorem C44_sound : forall args ps mo i,
  parse_args args = inr (ps, mo) -> sound_code args i = true -> forall e, ~ cause args i e.
Proof.
  intros args ps mo i HP PC e C. unfold sound_code in PC. apply andb_true_iff in PC. destruct PC as [PC PN].
  apply andb_true_iff in PC. destruct PC as [PC PP].
  apply andb_true_iff in PC. destruct PC as [PK PE]. pose proof (proj1 (forallb_forall _ _) PP) as PA. clear PP.
  assert (SP : forall p, In p (input_parts i) -> (forall x, In x (part_attrs p) -> sound_attr p x = true)
            /\ (attr_named "nested" (part_attrs p) = true \/ (not_arm p = true /\ attr_named "auto_enum" (part_attrs p) = true) -> part_ends_well p = true)
            /\ forallb (fun it => match snd it with None => true | Some _ => false end) (names_part p) = true).
  { intros p I. apply PA in I. unfold sound_part in I. apply andb_true_iff in I. destruct I as [I I4].
    apply andb_true_iff in I. destruct I as [I I3]. apply andb_true_iff in I. destruct I as [I1 I2].
    rewrite forallb_forall in I1. split; [exact I1|]. split; [|exact I4].
    intros [A|[A B]]; rewrite A in I2; rewrite ?B in I2; rewrite ?orb_true_r in I2; exact I2. }
  assert (NA : forall p, (forall y, p <> PtArm y) -> not_arm p = true) by (intros [] H; try reflexivity; destruct (H _ eq_refl)).
  assert (AU : forall p x, In p (input_parts i) -> auto_attr p x ->
            match p with PtLet (Local _ _ _ None _) => false | _ => true end
            && match p, x with
               | _, MList _ toks => match parse_args toks with inr _ => true | inl _ => false end
               | PtLet _, MPath _ => true
               | _, _ => false
               end = true).
  { intros p x I (IX & N & A). destruct (SP p I) as (S1 & _). specialize (S1 x IX). unfold sound_attr in S1.
    rewrite N in S1. rewrite (NA p A) in S1. apply andb_true_iff in S1. apply S1. }
  destruct C as [e E|E|E|it E NF|a p t d E|a p t d x I AX|a s o E|E|p I AN E|p x name I IX E NM NP|p I (x & IX & E)|a p m I E MN
                |p x I AX NL|p x toks e I AX NT PT|m M].
  - congruence.
  - subst i. discriminate PK.
  - subst i. discriminate PK.
  - subst i. destruct it; try discriminate PK. eapply NF. reflexivity.
  - subst i. discriminate PK.
  - specialize (AU _ _ I AX). discriminate AU.
  - subst i. discriminate PK.
  - congruence.
  - destruct (SP p I) as (_ & S2 & _). rewrite S2 in E; [discriminate|].
    destruct AN as [(x & IX & N)|(x & IX & N & A)]; [left; eapply named_in; eassumption|right; split; [auto|eapply named_in; eassumption]].
  - destruct (SP p I) as (S1 & _). specialize (S1 x IX). unfold sound_attr in S1. apply andb_true_iff in S1. destruct S1 as [S1 _].
    apply andb_true_iff in S1. destruct S1 as [S1 _]. unfold named in E.
    assert (B : is_ident (attr_path x) "never" || is_ident (attr_path x) "nested" = true) by (destruct NM; subst; rewrite E; [reflexivity|apply orb_true_r]).
    rewrite B in S1. destruct x; try discriminate S1. eapply NP. reflexivity.
  - destruct (SP p I) as (S1 & _). specialize (S1 x IX). unfold sound_attr in S1. apply andb_true_iff in S1. destruct S1 as [S1 _].
    apply andb_true_iff in S1. destruct S1 as [_ S1]. unfold named in E. rewrite E in S1. discriminate.
  - apply PA in I. unfold sound_part in I. apply andb_true_iff in I. destruct I as [I _]. apply andb_true_iff in I. destruct I as [_ I]. unfold marker_name in MN.
    apply existsb_exists in MN. destruct MN as (m0 & I0 & E0). apply String.eqb_eq in E0. subst m0.
    apply negb_true_iff in I. enough (X : existsb (is_ident p) ("marker" :: flat_map (fun r => match snd r with Some m => [m] | None => [] end) (all_args args i)) = true) by congruence.
    apply existsb_exists. exists m. auto.
  - specialize (AU _ _ I AX). apply andb_true_iff in AU. destruct AU as [_ AU]. destruct AX as (_ & _ & A).
    destruct p as [e|y|l]; [|destruct (A y eq_refl)|]; destruct x; try discriminate; eapply NL; reflexivity.
  - specialize (AU _ _ I AX). apply andb_true_iff in AU. destruct AU as [_ AU].
    destruct p as [e0|y|l]; destruct x; cbn in NT; try contradiction; subst toks; try (rewrite PT in AU; discriminate). discriminate PT.
  - destruct M as [(ps' & mo' & _ & _ & A)|(p & l & x & r & toks & ps' & mo' & I & EP & _ & _ & _ & _ & A)].
    + exact (none_asked _ _ PN A).
    + destruct (SP p I) as (_ & _ & S3). apply (none_asked _ m S3). destruct A as (qs & A). exists qs. eapply names_less; eassumption.
Qed.
Print Assumptions C44_sound.

(** ** Examples *)

(** [fn f() -> impl Iterator { #[auto_enum(Debug)] let y = if c { a() } else { b() };
    let z = #[auto_enum(Clone)] if d { u() } else { v() };
    match x { 0 => { let z = #[auto_enum(Clone)] match z { 0 => u(), _ => v() }; z }, 1 => marker!(b()), _ => w() } }]:
    all conditions hold, and the code is expanded whatever the hash function. *)
Definition steady_fn : input :=
  InStmt (SItem (IFn [] "f" (Some (impl_ty "Iterator"))
    [SLocal (Local [auto_enum_attr [TkIdent "Debug"]] (PBind "y") None
       (Some (EIf [] (var "c") [SExpr (call0 "a") false] (Some (EBlock [] None [SExpr (call0 "b") false])))) None);
     SLocal (Local [] (PBind "z") None (Some sample_nested_if) None);
     SExpr (EMatch [] (var "x")
       [arm1 "0" (EBlock [] None
          [SLocal (Local [] (PBind "z") None
             (Some (EMatch [auto_enum_attr [TkIdent "Clone"]] (var "z") [arm1 "0" (call0 "u"); arm1 "_" (call0 "v")])) None);
           SExpr (var "z") false]);
        arm1 "1" (EMacro [] (Mac (plain_path ["marker"]) (Some (call0 "b")))); arm1 "_" (call0 "w")]) false])).
Lemma steady_fn_conditions : sound_code sample_args steady_fn = true /\ wf_input steady_fn = true
  /\ ready_input false [plain_path ["Iterator"]] steady_fn = true /\ ready_input true [plain_path ["Iterator"]] steady_fn = true.
Proof. vm_compute. auto. Qed.
Example C44_nested_example : forall hash ta, exists n i' cx, forall k, n <= k -> attribute hash ta k sample_args steady_fn = ROk (Code i' cx).
Proof.
  intros hash ta. destruct steady_fn_conditions as (S & W & R0 & R1).
  eapply (C44_nested_accepted hash ta sample_args [plain_path ["Iterator"]] None steady_fn).
  - reflexivity.
  - exact W.
  - eapply C44_sound; [reflexivity|exact S].
  - destruct ta; assumption.
  - intros a sg t b E. injection E as <- <- <- <-. intros H. apply result_impl_iff in H. discriminate.
Qed.

(** One branch under an attribute inside: the code has no mistakes, is not ready, and is refused. *)
Example C44_nested_few_example :
  let i := InExpr (EMatch [] (var "x")
    [arm1 "0" (EBlock [] None [SLocal (Local [] (PBind "z") None
       (Some (EMatch [auto_enum_attr [TkIdent "Clone"]] (var "z") [arm1 "_" (call0 "v")])) None); SExpr (var "z") false]);
     arm1 "_" (call0 "w")]) in
  sound_code sample_args i = true /\ ready_input false [plain_path ["Iterator"]] i = false
  /\ run sample_args i = ROk (Errors [ErrFewVariants true false]).
Proof. vm_compute. auto. Qed.
