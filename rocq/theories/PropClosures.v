(** Property C08: functions inside the annotated code keep their own [return]s and [?]s.  For closures and items it
    holds; for [async] blocks it does not. *)

Require Import Coq.Strings.String Coq.Lists.List Coq.Bool.Bool Coq.Arith.Arith Coq.NArith.NArith.
Require Import Verif.Syntax Verif.Context Verif.ExprModel Verif.AutoEnum Verif.Edits.
Require Import Verif.Exits Verif.Closures Verif.ClosuresRun Verif.Samples.
Import ListNotations.
Open Scope string_scope.
Open Scope list_scope.

(** Closures: at any depth, each closure of the annotated code that is not itself annotated has the same [return]s and
    [?]s before and after, and no closure is added or removed.  Missing for the whole of C08: [async] blocks, of
    which it is false (below). *)
Theorem C08_closures_partial : forall hash ta n args i i' cx,
  attribute hash ta n args i = ROk (Code i' cx) ->
  Forall2 closure_kept (input_closures i) (input_closures i').
Proof. exact attribute_closures. Qed.
Print Assumptions C08_closures_partial.

(** Items: those inside the annotated code are all there afterwards, unchanged; only generated enums are added. *)
Theorem C08_items_partial : forall hash ta n args i i' cx,
  attribute hash ta n args i = ROk (Code i' cx) ->
  enums_added (input_items i) (input_items i').
Proof. exact attribute_items. Qed.
Print Assumptions C08_items_partial.

(** [async] blocks: the [return] of such a block is wrapped as if it left the function. *)
Theorem C08_async_refuted : exists hash ta n args x r g own v r' cx,
  attribute hash ta n args
    (InStmt (SItem (IFn [] "f" (Some (impl_ty "Iterator"))
      (SLocal (Local [] (PBind "t") None (Some (EBlk KAsync [] [SExpr (EReturn [] (Some x)) false])) None) :: r))))
  = ROk (Code (InStmt (SItem (IFn [] "f" (Some (impl_ty "Iterator"))
      (SItem (IEnum g) ::
       SLocal (Local [] (PBind "t") None (Some (EBlk KAsync [] [SExpr (EReturn [] (Some (wrap own v x))) false])) None) :: r')))) cx)
  /\ g_ident g = own.
Proof.
  exists sample_hash, false, 50, sample_args, (call0 "a"), [SExpr sample_match false].
  eexists. eexists. eexists. eexists. eexists. vm_compute. split; reflexivity.
Qed.
Print Assumptions C08_async_refuted.

(** [fn f() -> impl Iterator {
       fn g() { return h(); }
       let k = |z| { if z? { return a(); } b(|| return d()) };
       #[auto_enum(Clone)] let m = || match x { 0 => return u(), _ => v(), _ => w() };
       if c { return e(); }
       match x { 0 => a(), 1 => b(), _ => panic!() } }] *)
Definition sample_inner : item := IFn [] "g" None [SExpr (EReturn [] (Some (call0 "h"))) true].
Definition sample_k_body : expr :=
  EBlock [] None
    [SExpr (EIf [] (ETry [] (var "z")) [SExpr (EReturn [] (Some (call0 "a"))) true] None) false;
     SExpr (ECall [] (var "b") [EClosure [] [] (EReturn [] (Some (call0 "d")))]) false].
Definition sample_m_body : expr :=
  EMatch [] (var "x") [arm1 "0" (EReturn [] (Some (call0 "u"))); arm1 "_" (call0 "v"); arm1 "_" (call0 "w")].
Definition sample_closures : input :=
  InStmt (SItem (IFn [] "f" (Some (impl_ty "Iterator"))
    [SItem sample_inner;
     SLocal (Local [] (PBind "k") None (Some (EClosure [] [PBind "z"] sample_k_body)) None);
     SLocal (Local [auto_enum_attr [TkIdent "Clone"]] (PBind "m") None (Some (EClosure [] [] sample_m_body)) None);
     SExpr (EIf [] (var "c") [SExpr (EReturn [] (Some (call0 "e"))) true] None) false;
     SExpr sample_match false])).
(** Three closures; the annotated one is changed, the others and the item are not. *)
Example C08_example :
  match code_of (run sample_args sample_closures) with
  | Some i' =>
      map fst (input_closures sample_closures) = [false; false; true]
      /\ map (fun x => map snd (exits false (Place false false) (snd x))) (input_closures i')
         = [[XTry [] (var "z"); XRet [] (Some (call0 "a"))]; [XRet [] (Some (call0 "d"))];
            [XRet [] (Some (wrap "__Enum5" "__Variant2" (call0 "u")))]]
      /\ input_items sample_closures = [sample_inner]
      /\ exists g h, input_items i' = [IEnum g; sample_inner; IEnum h]
      /\ match i' with InStmt (SItem (IFn _ _ _ b')) => map snd (body_exits false b')
                         = [XRet [] (Some (wrap "__Enum1" "__Variant2" (call0 "e")))] | _ => False end
  | None => False
  end.
Proof. vm_compute. repeat split; eauto. Qed.
