(** Induction over syntax trees, with hypotheses for all children. *)

Require Import Coq.Strings.String Coq.Lists.List.
Require Import Verif.Syntax.
Import ListNotations.

(** Holds of the value inside an option. *)
Definition opt_all {A} (P : A -> Prop) (o : option A) : Prop :=
  match o with Some x => P x | None => True end.

Section AstInd.
  Variables (Pe : expr -> Prop) (Ps : stmt -> Prop) (Pa : arm -> Prop) (Pl : local -> Prop).

  (** Hypothesis for items: function bodies. *)
  Definition item_all (i : item) : Prop :=
    match i with IFn _ _ _ b => Forall Ps b | _ => True end.

  Hypothesis HBlock : forall a l b, Forall Ps b -> Pe (EBlock a l b).
  Hypothesis HBlk : forall k a b, Forall Ps b -> Pe (EBlk k a b).
  Hypothesis HMatch : forall a s arms, Pe s -> Forall Pa arms -> Pe (EMatch a s arms).
  Hypothesis HIf : forall a c t els, Pe c -> Forall Ps t -> opt_all Pe els -> Pe (EIf a c t els).
  Hypothesis HLet : forall a p e, Pe e -> Pe (ELet a p e).
  Hypothesis HLoop : forall a l b, Forall Ps b -> Pe (ELoop a l b).
  Hypothesis HWhile : forall a l c b, Pe c -> Forall Ps b -> Pe (EWhile a l c b).
  Hypothesis HFor : forall a l p it b, Pe it -> Forall Ps b -> Pe (EFor a l p it b).
  Hypothesis HBreak : forall a l e, opt_all Pe e -> Pe (EBreak a l e).
  Hypothesis HContinue : forall a l, Pe (EContinue a l).
  Hypothesis HReturn : forall a e, opt_all Pe e -> Pe (EReturn a e).
  Hypothesis HTry : forall a e, Pe e -> Pe (ETry a e).
  Hypothesis HClosure : forall a ps b, Pe b -> Pe (EClosure a ps b).
  Hypothesis HMacro : forall a p e, opt_all Pe e -> Pe (EMacro a (Mac p e)).
  Hypothesis HMethod : forall a r m args, Pe r -> Forall Pe args -> Pe (EMethodCall a r m args).
  Hypothesis HParen : forall a e, Pe e -> Pe (EParen a e).
  Hypothesis HCall : forall a f args, Pe f -> Forall Pe args -> Pe (ECall a f args).
  Hypothesis HPath : forall a q p, Pe (EPath a q p).
  Hypothesis HOther : forall a k es, Forall Pe es -> Pe (EOther a k es).
  Hypothesis HVerbatim : forall s, Pe (EVerbatim s).
  Hypothesis HSLocal : forall l, Pl l -> Ps (SLocal l).
  Hypothesis HSItem : forall i, item_all i -> Ps (SItem i).
  Hypothesis HSExpr : forall e semi, Pe e -> Ps (SExpr e semi).
  Hypothesis HSMacro : forall a p e semi, opt_all Pe e -> Ps (SMacro a (Mac p e) semi).
  Hypothesis HLocal : forall a p t i d, opt_all Pe i -> opt_all Pe d -> Pl (Local a p t i d).
  Hypothesis HArm : forall a p g b c, opt_all Pe g -> Pe b -> Pa (Arm a p g b c).

  Section Lists.
    Context {A : Type} {P : A -> Prop} (f : forall x, P x).
    Fixpoint all_list (l : list A) : Forall P l :=
      match l with
      | [] => Forall_nil P
      | x :: r => Forall_cons x (f x) (all_list r)
      end.
    Definition all_opt (o : option A) : opt_all P o :=
      match o with Some x => f x | None => I end.
  End Lists.

  Fixpoint expr_ast (e : expr) : Pe e :=
    match e with
    | EBlock a l b => HBlock a l b (all_list stmt_ast b)
    | EBlk k a b => HBlk k a b (all_list stmt_ast b)
    | EMatch a s arms => HMatch a s arms (expr_ast s) (all_list arm_ast arms)
    | EIf a c t els => HIf a c t els (expr_ast c) (all_list stmt_ast t) (all_opt expr_ast els)
    | ELet a p x => HLet a p x (expr_ast x)
    | ELoop a l b => HLoop a l b (all_list stmt_ast b)
    | EWhile a l c b => HWhile a l c b (expr_ast c) (all_list stmt_ast b)
    | EFor a l p it b => HFor a l p it b (expr_ast it) (all_list stmt_ast b)
    | EBreak a l x => HBreak a l x (all_opt expr_ast x)
    | EContinue a l => HContinue a l
    | EReturn a x => HReturn a x (all_opt expr_ast x)
    | ETry a x => HTry a x (expr_ast x)
    | EClosure a ps b => HClosure a ps b (expr_ast b)
    | EMacro a (Mac p x) => HMacro a p x (all_opt expr_ast x)
    | EMethodCall a r m args => HMethod a r m args (expr_ast r) (all_list expr_ast args)
    | EParen a x => HParen a x (expr_ast x)
    | ECall a f args => HCall a f args (expr_ast f) (all_list expr_ast args)
    | EPath a q p => HPath a q p
    | EOther a k es => HOther a k es (all_list expr_ast es)
    | EVerbatim s => HVerbatim s
    end
  with stmt_ast (s : stmt) : Ps s :=
    match s with
    | SLocal l => HSLocal l (local_ast l)
    | SItem i => HSItem i (item_ast i)
    | SExpr e semi => HSExpr e semi (expr_ast e)
    | SMacro a (Mac p x) semi => HSMacro a p x semi (all_opt expr_ast x)
    end
  with local_ast (l : local) : Pl l :=
    match l with
    | Local a p t i d => HLocal a p t i d (all_opt expr_ast i) (all_opt expr_ast d)
    end
  with arm_ast (x : arm) : Pa x :=
    match x with
    | Arm a p g b c => HArm a p g b c (all_opt expr_ast g) (expr_ast b)
    end
  with item_ast (i : item) : item_all i :=
    match i with
    | IFn a s o b => all_list stmt_ast b
    | IEnum _ => I
    | IOther _ => I
    end.

  Theorem ast_ind : (forall e, Pe e) /\ (forall s, Ps s) /\ (forall x, Pa x) /\ (forall l, Pl l).
  Proof. repeat split; [apply expr_ast|apply stmt_ast|apply arm_ast|apply local_ast]. Qed.
End AstInd.
