(** Property C47: faulty requests are refused wherever they stand.

    Requests.v: [in_code requests tt i] asks of every expression and [let] of the annotated code, at any depth, also inside
    closures and inside the code of other nested attributes, that its [#[auto_enum]] attribute (the first one) has arguments
    in the grammar of C25_grammar, that it has a list of arguments at all unless it stands on a [let], and that a [let] for
    which traits are listed has a value. *)

Require Import Coq.Strings.String Coq.Lists.List Coq.Bool.Bool Coq.NArith.NArith.
Require Import Verif.Syntax Verif.Context Verif.ExprModel Verif.TypeAnalysis Verif.AutoEnum Verif.Edits Verif.TraitRun Verif.Nodes Verif.Annotations.
Require Import Verif.ContextRun Verif.ArgsRun Verif.PropContext Verif.Requests Verif.RequestsTop Verif.Samples.
Import ListNotations.
Open Scope string_scope.
Open Scope list_scope.

(** ** Nested attributes *)

(** Code is returned only if all nested attributes are well-formed; the outermost attribute may have traits or none. *)
Theorem C47_accepted : forall hash ta n args i i' cx,
  attribute hash ta n args i = ROk (Code i' cx) -> in_code requests tt i = true.
Proof. exact attribute_requests. Qed.
Print Assumptions C47_accepted.

(** The same the other way round. *)
Theorem C47_refused : forall hash ta n args i out,
  attribute hash ta n args i = ROk out -> in_code requests tt i = false -> exists l, out = Errors l.
Proof.
  intros hash ta n args i [i' cx|l] H W; [|eauto]. rewrite (C47_accepted _ _ _ _ _ _ _ H) in W. discriminate.
Qed.
Print Assumptions C47_refused.

(** [|q| match x { 0 => a(), _ => { #[auto_enum(..)] let y = match z { .. }; <e> } }] with an attribute on the [let] and one on the
    arm of its [match]. *)
Definition C47_sample (on_let on_arm : attr) (value : bool) : input :=
  InExpr (EClosure [] [PBind "q"] (EMatch [] (var "x") [arm1 "0" (call0 "a");
    arm1 "_" (EBlock [] None [
      SLocal (Local [on_let] (PBind "y") None (if value then Some (EMatch [] (var "z") [arm1 "0" (call0 "u");
        arm1 "1" (EBlock [] None [SExpr (EIf [on_arm] (var "c") [SExpr (call0 "k") false] (Some (EBlock [] None [SExpr (call0 "k1") false]))) false]);
        arm1 "_" (call0 "v")]) else None) None);
      SExpr (call0 "b") false])])).
Definition C47_fine : attr := auto_enum_attr [TkIdent "Clone"].
(** Accepted; then [#[auto_enum]] and [#[auto_enum(=)]] on the inner expression, [#[auto_enum = ..]] on the [let] and a [let] without
    value: each is refused, with and without traits in the outermost attribute. *)
Example C47_example :
  (in_code requests tt (C47_sample C47_fine C47_fine true) = true
   /\ exists i cx, run sample_args (C47_sample C47_fine C47_fine true) = ROk (Code i cx))
  /\ (in_code requests tt (C47_sample (plain_attr "auto_enum") C47_fine true) = true
      /\ exists i cx, run sample_args (C47_sample (plain_attr "auto_enum") C47_fine true) = ROk (Code i cx))
  /\ Forall (fun i => in_code requests tt i = false /\ (exists l, run sample_args i = ROk (Errors l)) /\ exists l, run [] i = ROk (Errors l))
       [C47_sample C47_fine (plain_attr "auto_enum") true; C47_sample C47_fine (auto_enum_attr [TkEq]) true;
        C47_sample (MNameValue (plain_path ["auto_enum"]) "1") C47_fine true; C47_sample C47_fine C47_fine false].
Proof. repeat (split || constructor); vm_compute; eauto. Qed.

(** ** The outermost attribute *)

(** Code is returned only if the arguments are in the grammar and the attribute stands on an expression, a macro call, a [let]
    or a function; if it has traits or the type analysis finds some, the [let] has a value and the function a body. *)
Theorem C47_place : forall hash ta n args i i' cx,
  attribute hash ta n args i = ROk (Code i' cx) ->
  exists ps mo, parse_args args = inr (ps, mo) /\
  match i with
  | InBad => False
  | InStmt (SItem it) => exists a sg out b, it = IFn a sg out b /\ (b = [] -> ps = [] /\ finds_nothing ta i)
  | InStmt (SLocal (Local _ _ _ None _)) => ps = [] /\ finds_nothing ta i
  | _ => True
  end.
Proof.
  intros hash ta n args i i' cx H. apply attribute_place in H. destruct H as (ps & mo & HP & H). exists ps, mo. split; [exact HP|].
  assert (F : forall t0, annotated_type i = t0 -> (ta = true -> forall t, t0 = Some t -> collect_ty [] t = []) -> finds_nothing ta i).
  { intros t0 E K t bs q TA AT IB IQ NT. assert (X : In q (collect_ty [] t)) by (apply collect_exact; eauto).
    rewrite (K TA t) in X by congruence. exact X. }
  destruct i as [[[a p t [e|] d]|it|e semi|a mc semi]|e|]; try exact H.
  - destruct H as [-> H]. split; [reflexivity|]. eapply F; [reflexivity|exact H].
  - destruct H as (a & sg & out & b & -> & H). exists a, sg, out, b. split; [reflexivity|]. intros EB. destruct (H EB) as [-> H1]. split; [reflexivity|].
    eapply F; [reflexivity|exact H1].
Qed.
Print Assumptions C47_place.
(** [fn f() {}] is accepted with [#[auto_enum]] and refused with [#[auto_enum(Iterator)]], or with [impl Iterator] as type if the
    type analysis is on; so is [let x;]; other items and broken input are always refused. *)
Example C47_place_example :
  let fn out := InStmt (SItem (IFn [] "f" out [])) in
  let lt t := InStmt (SLocal (Local [] (PBind "x") t None None)) in
  let ok ta args i := exists i' cx, attribute sample_hash ta 50 args i = ROk (Code i' cx) in
  let no ta args i := exists l, attribute sample_hash ta 50 args i = ROk (Errors l) in
  ok false [] (fn None) /\ no false sample_args (fn None) /\ ok false [] (fn (Some (impl_ty "Iterator"))) /\ no true [] (fn (Some (impl_ty "Iterator")))
  /\ ok false [] (lt None) /\ no false sample_args (lt None) /\ ok false [] (lt (Some (impl_ty "Iterator"))) /\ no true [] (lt (Some (impl_ty "Iterator")))
  /\ no false [] InBad /\ no false [] (InStmt (SItem (IOther "struct S;"))) /\ no false [TkEq] (InExpr (call0 "a")).
Proof. cbv zeta. repeat split; vm_compute; eauto. Qed.

(** ** An attribute between two others *)

(** The code inside a nested attribute is not accepted whenever the same attribute accepts it on its own: with nothing but
    [let z = #[auto_enum(Debug)] match z { .. }; k()] inside, [#[auto_enum(Clone)]] has no branches.  Standing alone it is accepted,
    because an attribute stands inside; nested in a third attribute it is refused, because that one has expanded the
    innermost attribute before. *)
Theorem C12_between_refuted : exists e y,
  (exists i cx, run [TkIdent "Clone"] (InExpr e) = ROk (Code i cx))
  /\ set_attrs e [auto_enum_attr [TkIdent "Clone"]] = y
  /\ run sample_args (InExpr (EMatch [] (var "x") [arm1 "0" (call0 "a"); arm1 "1" (call0 "b");
       arm1 "_" (EBlock [] None [SLocal (Local [] (PBind "y") None (Some y) None); SExpr (call0 "c") false])]))
     = ROk (Errors [ErrFewVariants false false]).
Proof.
  exists (EBlock [] None [SLocal (Local [] (PBind "z") None (Some (EMatch [auto_enum_attr [TkIdent "Debug"]] (var "z")
    [arm1 "0" (call0 "u"); arm1 "_" (call0 "v")])) None); SExpr (call0 "k") false]).
  eexists. split; [do 2 eexists; vm_compute; reflexivity|]. split; [reflexivity|]. vm_compute. reflexivity.
Qed.
Print Assumptions C12_between_refuted.
