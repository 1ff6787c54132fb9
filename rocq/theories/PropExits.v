(** Properties C03, C07, C18, C20 as far as [return] and [?] are concerned: what the attribute does with each
    [return] and each [?] of an annotated function or closure. *)

Require Import Coq.Strings.String Coq.Lists.List Coq.Bool.Bool Coq.Arith.Arith Coq.NArith.NArith.
Require Import Verif.Syntax Verif.Context Verif.ExprModel Verif.AutoEnum Verif.Edits Verif.Eval Verif.Trace.
Require Import Verif.RunLemmas Verif.Twin Verif.Exits Verif.ExitsTop Verif.ExitsMeaning Verif.Samples.
Import ListNotations.
Open Scope string_scope.
Open Scope list_scope.

(** ** C03 *)

(** In a function that returns [impl Trait] each [return x] of the function itself becomes [return Enum::V(x)] with the
    enum of the attribute, other than those excluded (Exits.v); no [return] and no [?] is added or removed. *)
Theorem C03_returns_partial : forall hash ta n args ps m a sg ts b i' cx,
  parse_args args = inr (ps, m) -> ps <> [] ->
  attribute hash ta n args (InStmt (SItem (IFn a sg (Some (TImpl ts)) b))) = ROk (Code i' cx) ->
  exists b', i' = InStmt (SItem (IFn a sg (Some (TImpl ts)) b'))
    /\ Forall2 (return_wrapped (enum_name (hash (NInput (InStmt (SItem (IFn a sg (Some (TImpl ts)) b)))))) (own_marker m))
               (body_exits false b) (body_exits false b').
Proof. intros. eapply impl_fn_exits; eassumption. Qed.
Print Assumptions C03_returns_partial.

(** The sample function: two exits, both wrapped. *)
Example C03_returns_example :
  parse_args sample_args = inr ([plain_path ["Iterator"]], None)
  /\ body_exits false sample_fn_body
     = [(Place false false, XRet [] (Some (call0 "m1"))); (Place false false, XRet [] (Some (call0 "m2")))]
  /\ match code_of (run sample_args sample_fn) with
     | Some (InStmt (SItem (IFn _ _ _ b'))) =>
         body_exits false b'
         = [(Place false false, XRet [] (Some (wrap "__Enum1" "__Variant1" (call0 "m1"))));
            (Place false false, XRet [] (Some (wrap "__Enum1" "__Variant3" (call0 "m2"))))]
     | _ => False
     end.
Proof. vm_compute. auto. Qed.

(** ** C07 *)

(** In a function that returns [Result<T, impl Trait>] with two or more [?]s of its own, each such [?] is replaced. *)
Theorem C07_function : forall hash ta n args ps m a sg t b i' cx,
  parse_args args = inr (ps, m) -> ps <> [] ->
  result_impl t -> 2 <= questions (own_marker m) (body_exits false b) ->
  attribute hash ta n args (InStmt (SItem (IFn a sg (Some t) b))) = ROk (Code i' cx) ->
  exists b', i' = InStmt (SItem (IFn a sg (Some t) b'))
    /\ Forall2 (question_replaced (enum_name (hash (NInput (InStmt (SItem (IFn a sg (Some t) b)))))) (own_marker m))
               (body_exits true b) (body_exits true b').
Proof. intros. eapply result_fn_exits; eassumption. Qed.
Print Assumptions C07_function.

(** In an annotated closure with two or more [?]s these are replaced, in other closures the [return]s are wrapped. *)
Theorem C07_closure : forall hash ta n args ps m i i' cx b,
  parse_args args = inr (ps, m) -> ps <> [] -> closure_input i = Some b ->
  attribute hash ta n args i = ROk (Code i' cx) ->
  exists b', closure_output i' = Some b'
    /\ if (2 <=? questions (own_marker m) (exits false (Place false false) b))%nat
       then Forall2 (question_replaced (enum_name (hash (NInput i))) (own_marker m))
                    (exits true (Place false false) b) (exits true (Place false false) b')
       else Forall2 (return_wrapped (enum_name (hash (NInput i))) (own_marker m))
                    (exits false (Place false false) b) (exits false (Place false false) b').
Proof. intros. eapply closure_exits; eassumption. Qed.
Print Assumptions C07_closure.

(** What takes the place of [x?] does what it should on every execution: it yields the [v] of [Ok(v)] and leaves the
    function with [Err(Enum::V(u))] for [Err(u)]; if [x] ends in another way, so does the whole. *)
Theorem C07_meaning : forall own v a x arms ok,
  gen_name own = true -> quest arms = Some (ok, err_exit own v) -> is_val ok ->
  forall (W : Type) (O : ops W) (mk : string -> bool) (n : nat) (en : env) (w : W),
  match eval W O mk n x en w with
  | (ONorm (VCon c y), w1) =>
      (c = "Ok" -> exists z, eval W O mk n (EMatch a x arms) en w = (ONorm z, w1) /\ in_wrappers y z)
      /\ (c = "Err" -> eval W O mk n (EMatch a x arms) en w = (ORet (VCon "Err" (VWrap own v y)), w1))
  | (ONorm _, _) => True
  | r => eval W O mk n (EMatch a x arms) en w = r
  end.
Proof. exact quest_eval. Qed.
Print Assumptions C07_meaning.

(** The enum of an attribute has a name as above. *)
Theorem C07_name : forall h, gen_name (enum_name h) = true.
Proof. exact gen_enum_name. Qed.
Print Assumptions C07_name.

(** [fn f() -> Result<T, impl Trait> { let y = a()?; b(|| c()?)?; try { d()? }; #[never] e()?; return Ok(y); }] *)
Definition result_ty : ty :=
  TPath None (Path false [Seg "Result" (AAngle false [GType (TOther "T" []); GType (impl_ty "Trait")])]).
Definition sample_question_body : list stmt :=
  [SLocal (Local [] (PBind "y") None (Some (ETry [] (call0 "a"))) None);
   SExpr (ETry [] (ECall [] (var "b") [EClosure [] [] (ETry [] (call0 "c"))])) true;
   SExpr (EBlk KTry [] [SExpr (ETry [] (call0 "d")) false]) true;
   SExpr (ETry [plain_attr "never"] (call0 "e")) true;
   SExpr (EReturn [] (Some (ECall [] (var "Ok") [var "y"]))) true].
Definition sample_question : input := InStmt (SItem (IFn [] "f" (Some result_ty) sample_question_body)).
Example C07_example :
  result_impl result_ty /\ questions "marker" (body_exits false sample_question_body) = 3
  /\ match code_of (run sample_args sample_question) with
     | Some (InStmt (SItem (IFn _ _ _ b'))) =>
         map snd (body_exits true b')
         = [XQuest [] (call0 "a") (var "val") (err_exit "__Enum1" "__Variant0");
            XQuest [] (ECall [] (var "b") [EClosure [] [] (ETry [] (call0 "c"))]) (var "val") (err_exit "__Enum1" "__Variant1");
            XTry [] (call0 "d"); XTry [] (call0 "e");
            XRet [] (Some (ECall [] (var "Ok") [var "y"]))]
     | _ => False
     end.
Proof.
  split; [exists false, [], "Result", (TOther "T" []), [BTrait (plain_path ["Trait"])]; split; [reflexivity|left; reflexivity]|].
  vm_compute. auto.
Qed.
(** The same body as a closure, as the value of a [let]; and with one [?] and one [return]. *)
Example C07_closure_example :
  let body := EBlock [] None sample_question_body in
  let i := InStmt (SLocal (Local [] (PBind "g") None (Some (EClosure [] [] body)) None)) in
  closure_input i = Some body
  /\ match code_of (run sample_args i) with
     | Some i' => match closure_output i' with
                  | Some b' => map snd (exits true (Place false false) b')
                      = [XQuest [] (call0 "a") (var "val") (err_exit "__Enum1" "__Variant0");
                         XQuest [] (ECall [] (var "b") [EClosure [] [] (ETry [] (call0 "c"))]) (var "val") (err_exit "__Enum1" "__Variant1");
                         XTry [] (call0 "d"); XTry [] (call0 "e");
                         XRet [] (Some (ECall [] (var "Ok") [var "y"]))]
                  | None => False
                  end
     | None => False
     end.
Proof. vm_compute. auto. Qed.
Example C07_closure_return_example :
  let body := EBlock [] None [SExpr (EIf [] (ETry [] (call0 "a")) [SExpr (EReturn [] (Some (call0 "b"))) true] None) false;
                              SExpr (EMatch [] (var "x") [arm1 "0" (call0 "c"); arm1 "_" (call0 "d")]) false] in
  match code_of (run sample_args (InExpr (EClosure [] [] body))) with
  | Some i' => match closure_output i' with
               | Some b' => map snd (exits false (Place false false) b')
                   = [XTry [] (call0 "a"); XRet [] (Some (wrap "__Enum2" "__Variant2" (call0 "b")))]
               | None => False
               end
  | None => False
  end.
Proof. vm_compute. auto. Qed.
(** A run of the replacement. *)
Definition sample_quest : expr :=
  EMatch [] (ECall [] (var "Err") [call0 "a"]) (question_arms "__Enum1" "__Variant0").
Example C07_meaning_example :
  gen_name "__Enum1" = true
  /\ quest (question_arms "__Enum1" "__Variant0") = Some (var "val", err_exit "__Enum1" "__Variant0")
  /\ is_val (var "val")
  /\ eval trace (traced {| q_reply := fun _ _ _ => RVal (VOp "e" []); q_limit := 3; q_value := fun _ _ _ => VUnit;
                           q_more := fun _ _ _ => true; q_pat := fun _ _ _ => None; q_is := fun _ _ => false;
                           q_mode := fun _ _ => false |}) (fun _ => false) 1 sample_quest [] []
     = (ORet (VCon "Err" (VWrap "__Enum1" "__Variant0" (VOp "e" []))), [("call", [VOp "a" []])]).
Proof. repeat split; try (vm_compute; reflexivity). constructor. Qed.

(** ** C18, C20 *)

(** A [return] or [?] that is annotated [#[never]], or whose operand is a marker, is left as it is but for edits inside the
    operand and removed annotations. *)
Definition left_alone (m : string) (x x' : place * exit) : Prop :=
  match snd x with
  | XRet a o => never a = true \/ marks_opt m o = true -> kept (snd x) (snd x')
  | XTry a y => never a = true \/ marks m y = true -> kept (snd x) (snd x')
  | XQuest _ _ _ _ => True
  end.
Theorem C18_exits_partial : forall hash ta n args ps m a sg ts b i' cx,
  parse_args args = inr (ps, m) -> ps <> [] ->
  attribute hash ta n args (InStmt (SItem (IFn a sg (Some (TImpl ts)) b))) = ROk (Code i' cx) ->
  exists b', i' = InStmt (SItem (IFn a sg (Some (TImpl ts)) b'))
    /\ Forall2 (left_alone (own_marker m)) (body_exits false b) (body_exits false b').
Proof.
  intros hash ta n args ps m a sg ts b i' cx HP N H. destruct (C03_returns_partial _ _ _ _ _ _ _ _ _ _ _ _ HP N H) as (b' & -> & F).
  exists b'. split; [reflexivity|]. revert F. apply Forall2_weaken. intros x x'. unfold return_wrapped, left_alone, excluded.
  destruct (snd x) as [ra o|ta' y|]; auto. intros K [E|E]; rewrite E, ?orb_true_r in K; exact K.
Qed.
Print Assumptions C18_exits_partial.
Theorem C18_questions_partial : forall hash ta n args ps m a sg t b i' cx,
  parse_args args = inr (ps, m) -> ps <> [] ->
  result_impl t -> 2 <= questions (own_marker m) (body_exits false b) ->
  attribute hash ta n args (InStmt (SItem (IFn a sg (Some t) b))) = ROk (Code i' cx) ->
  exists b', i' = InStmt (SItem (IFn a sg (Some t) b'))
    /\ Forall2 (left_alone (own_marker m)) (body_exits true b) (body_exits true b').
Proof.
  intros hash ta n args ps m a sg t b i' cx HP N RI Q H. destruct (C07_function _ _ _ _ _ _ _ _ _ _ _ _ HP N RI Q H) as (b' & -> & F).
  exists b'. split; [reflexivity|]. revert F. apply Forall2_weaken. intros x x'. unfold question_replaced, left_alone, excluded.
  destruct (snd x) as [ra o|ta' y|]; auto. cbn [marks_opt]. intros K [E|E]; rewrite E, ?orb_true_r in K; exact K.
Qed.
Print Assumptions C18_questions_partial.

(** [return] with [#[never]], with a marker, and alone. *)
Example C18_exits_example :
  let b := [SExpr (EIf [] (var "c") [SExpr (EReturn [plain_attr "never"] (Some (call0 "a"))) true] None) false;
            SExpr (EIf [] (var "c") [SExpr (EReturn [] (Some (EMacro [] (Mac (plain_path ["marker"]) (Some (call0 "b")))))) true] None) false;
            SExpr (EIf [] (var "c") [SExpr (EReturn [] (Some (call0 "d"))) true] None) false;
            SExpr sample_match false] in
  match code_of (run sample_args (InStmt (SItem (IFn [] "f" (Some (impl_ty "Iterator")) b)))) with
  | Some (InStmt (SItem (IFn _ _ _ b'))) =>
      map snd (body_exits false b')
      = [XRet [] (Some (call0 "a")); XRet [] (Some (wrap "__Enum1" "__Variant2" (call0 "b")));
         XRet [] (Some (wrap "__Enum1" "__Variant3" (call0 "d")))]
  | _ => False
  end.
Proof. vm_compute. auto. Qed.
