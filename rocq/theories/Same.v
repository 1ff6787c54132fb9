(** Specification: results that are the same up to the wrappers of generated enums.

    All relations have the annotated code on the left and the expanded code on the right. *)

Require Import Coq.Strings.String Coq.Lists.List Coq.Bool.Bool.
Require Import Verif.Syntax Verif.Edits Verif.Eval.
Import ListNotations.
Open Scope string_scope.
Open Scope list_scope.

Section Same.
  Variable mk : string -> bool.

  (** [y] is [x] with wrappers put around it or values in it. The bodies of closures are
      those of the annotated and of the expanded code. *)
  Inductive vrel : value -> value -> Prop :=
  | vr_unit : vrel VUnit VUnit
  | vr_bool b : vrel (VBool b) (VBool b)
  | vr_none : vrel VNone VNone
  | vr_con c x y : vrel x y -> vrel (VCon c x) (VCon c y)
  | vr_conf c : vrel (VConF c) (VConF c)
  | vr_wrap i v x y : vrel x y -> vrel (VWrap i v x) (VWrap i v y)
  | vr_wrapped i v x y : vrel x y -> vrel x (VWrap i v y)
  | vr_wrapf i v : vrel (VWrapF i v) (VWrapF i v)
  | vr_clos ps t b b' en en' :
      ed_expr mk t b b' -> forallb clean t = true -> erel en en' -> vrel (VClos ps b en) (VClos ps b' en')
  | vr_nolet : vrel (VLet None) (VLet None)
  | vr_let bs bs' : erel bs bs' -> vrel (VLet (Some bs)) (VLet (Some bs'))
  | vr_op s l l' : vsrel l l' -> vrel (VOp s l) (VOp s l')
  with erel : env -> env -> Prop :=
  | er_nil : erel [] []
  | er_cons x b v v' r r' : vrel v v' -> erel r r' -> erel ((x, (b, v)) :: r) ((x, (b, v')) :: r')
  with vsrel : list value -> list value -> Prop :=
  | vs_nil : vsrel [] []
  | vs_cons v v' r r' : vrel v v' -> vsrel r r' -> vsrel (v :: r) (v' :: r').

  (** The same end. *)
  Inductive orel : out -> out -> Prop :=
  | or_norm x y : vrel x y -> orel (ONorm x) (ONorm y)
  | or_break l x y : vrel x y -> orel (OBreak l x) (OBreak l y)
  | or_cont l : orel (OCont l) (OCont l)
  | or_ret x y : vrel x y -> orel (ORet x) (ORet y)
  | or_panic : orel OPanic OPanic
  | or_fuel : orel OFuel OFuel.

  Section World.
    Context {W : Type} (wrel : W -> W -> Prop).

    (** The same end and the same final state, unless the expanded code is stuck: it uses a
        generated enum where the enum is not allowed, so that it is not accepted by the compiler. *)
    Definition rrel (r r' : result W) : Prop :=
      fst r' = OStuck \/ (orel (fst r) (fst r') /\ wrel (snd r) (snd r')).

    Inductive srel : sres W -> sres W -> Prop :=
    | sr_stuck r w : srel r (SOut _ OStuck w)
    | sr_go bs bs' x y w w' : erel bs bs' -> vrel x y -> wrel w w' -> srel (SGo _ bs x w) (SGo _ bs' y w')
    | sr_out o o' w w' : orel o o' -> wrel w w' -> srel (SOut _ o w) (SOut _ o' w').

    Inductive prel : pres * W -> pres * W -> Prop :=
    | pr_stuck r w : prel r (PStuck, w)
    | pr_no w w' : wrel w w' -> prel (PNo, w) (PNo, w')
    | pr_yes bs bs' w w' : erel bs bs' -> wrel w w' -> prel (PYes bs, w) (PYes bs', w').

    (** What an operation does, given values that are the same up to wrappers. *)
    Inductive arel : act W -> act W -> Prop :=
    | ar_stuck a : arel a (AStuck _)
    | ar_done x y w w' : vrel x y -> wrel w w' -> arel (ADone _ x w) (ADone _ y w')
    | ar_panic w w' : wrel w w' -> arel (APanic _ w) (APanic _ w')
    | ar_call f f' l l' w w' k k' :
        vrel f f' -> vsrel l l' -> wrel w w' ->
        (forall x y u u', vrel x y -> wrel u u' -> arel (k x u) (k' y u')) ->
        arel (ACall _ f l w k) (ACall _ f' l' w' k').

    (** The operations do not look at wrappers (but may be stuck on them): given the same up to wrappers they
        do the same up to wrappers. *)
    Record respects (O : ops W) : Prop := Respects {
      rs_refl : forall w, wrel w w;
      rs_trans : forall w1 w2 w3, wrel w1 w2 -> wrel w2 w3 -> wrel w1 w3;
      rs_global : forall pl q p w w', wrel w w' -> vrel (o_global _ O pl q p w) (o_global _ O pl q p w');
      rs_use : forall x y w w', vrel x y -> wrel w w' -> vrel (o_use _ O x w) (o_use _ O y w');
      rs_decl : forall w w', wrel w w' ->
        vrel (fst (o_decl _ O w)) (fst (o_decl _ O w')) /\ wrel (snd (o_decl _ O w)) (snd (o_decl _ O w'));
      rs_call : forall f f' l l' w w', vrel f f' -> vsrel l l' -> wrel w w' ->
        arel (o_call _ O f l w) (o_call _ O f' l' w');
      rs_method : forall m l l' w w', vsrel l l' -> wrel w w' -> arel (o_method _ O m l w) (o_method _ O m l' w');
      rs_more : forall s l l' w w', vsrel l l' -> wrel w w' -> o_more _ O s l w = o_more _ O s l' w';
      rs_other : forall s pl l l' w w', vsrel l l' -> wrel w w' -> arel (o_other _ O s pl l w) (o_other _ O s pl l' w');
      rs_macro : forall p e en en' w w', erel en en' -> wrel w w' -> arel (o_macro _ O p e en w) (o_macro _ O p e en' w');
      rs_verbatim : forall s en en' w w', erel en en' -> wrel w w' -> arel (o_verbatim _ O s en w) (o_verbatim _ O s en' w');
      rs_pat : forall s x y w w', vrel x y -> wrel w w' -> prel (o_pat _ O s x w) (o_pat _ O s y w');
      rs_fields : forall p x y w w', vrel x y -> wrel w w' ->
        match o_fields _ O p x w, o_fields _ O p y w' with
        | Some l, Some l' => vsrel l l'
        | None, None => True
        | _, _ => False
        end;
      rs_iter : forall x y w w', vrel x y -> wrel w w' -> arel (o_iter _ O x w) (o_iter _ O y w');
      rs_next : forall x y w w', vrel x y -> wrel w w' -> arel (o_next _ O x w) (o_next _ O y w')
    }.
  End World.
End Same.

Scheme vrel_mut := Induction for vrel Sort Prop
  with erel_mut := Induction for erel Sort Prop
  with vsrel_mut := Induction for vsrel Sort Prop.
Combined Scheme vrel_ind3 from vrel_mut, erel_mut, vsrel_mut.
