(** Induction over types and paths, with hypotheses for all children. *)

Require Import Coq.Strings.String Coq.Lists.List Coq.Bool.Bool.
Require Import Verif.Syntax Verif.AstInd.
Import ListNotations.

Section TyInd.
  Variables (Pt : ty -> Prop) (Pb : bound -> Prop) (Pp : path -> Prop) (Ps : seg -> Prop)
            (Pa : segargs -> Prop) (Pg : garg -> Prop).
  Hypothesis HImpl : forall bs, Forall Pb bs -> Pt (TImpl bs).
  Hypothesis HTPath : forall q p, opt_all Pt q -> Pp p -> Pt (TPath q p).
  Hypothesis HTOther : forall k ts, Forall Pt ts -> Pt (TOther k ts).
  Hypothesis HBTrait : forall p, Pp p -> Pb (BTrait p).
  Hypothesis HBOther : forall s, Pb (BOther s).
  Hypothesis HPath : forall l segs, Forall Ps segs -> Pp (Path l segs).
  Hypothesis HSeg : forall i a, Pa a -> Ps (Seg i a).
  Hypothesis HANone : Pa ANone.
  Hypothesis HAngle : forall c l, Forall Pg l -> Pa (AAngle c l).
  Hypothesis HParen : forall ins out, Forall Pt ins -> opt_all Pt out -> Pa (AParen ins out).
  Hypothesis HGType : forall t, Pt t -> Pg (GType t).
  Hypothesis HGAssoc : forall i t, Pt t -> Pg (GAssoc i t).
  Hypothesis HGConstraint : forall i bs, Forall Pb bs -> Pg (GConstraint i bs).
  Hypothesis HGOther : forall s, Pg (GOther s).

  Fixpoint ty_rec (t : ty) : Pt t :=
    match t with
    | TImpl bs => HImpl bs (all_list bound_rec bs)
    | TPath q p => HTPath q p (all_opt ty_rec q) (path_rec p)
    | TOther k ts => HTOther k ts (all_list ty_rec ts)
    end
  with bound_rec (b : bound) : Pb b :=
    match b with
    | BTrait p => HBTrait p (path_rec p)
    | BOther s => HBOther s
    end
  with path_rec (p : path) : Pp p :=
    match p with Path l segs => HPath l segs (all_list seg_rec segs) end
  with seg_rec (s : seg) : Ps s :=
    match s with Seg i a => HSeg i a (args_rec a) end
  with args_rec (a : segargs) : Pa a :=
    match a with
    | ANone => HANone
    | AAngle c l => HAngle c l (all_list garg_rec l)
    | AParen ins out => HParen ins out (all_list ty_rec ins) (all_opt ty_rec out)
    end
  with garg_rec (g : garg) : Pg g :=
    match g with
    | GType t => HGType t (ty_rec t)
    | GAssoc i t => HGAssoc i t (ty_rec t)
    | GConstraint i bs => HGConstraint i bs (all_list bound_rec bs)
    | GOther s => HGOther s
    end.

  Theorem ty_ind_all :
    (forall t, Pt t) /\ (forall b, Pb b) /\ (forall p, Pp p) /\ (forall s, Ps s)
    /\ (forall a, Pa a) /\ (forall g, Pg g).
  Proof.
    repeat split; [apply ty_rec|apply bound_rec|apply path_rec|apply seg_rec|apply args_rec|apply garg_rec].
  Qed.
End TyInd.
