(** Specification: syntax trees that Rust's grammar can produce, as far as the theorems need it. *)

Require Import Coq.Strings.String Coq.Lists.List Coq.Bool.Bool.
Require Import Verif.Syntax Verif.ExprModel.
Import ListNotations.

(** What may follow [else]: a block or another [if]. *)
Definition is_branch (e : expr) : bool :=
  match e with EBlock _ _ _ | EIf _ _ _ _ => true | _ => false end.

(** Every [else] inside the code (also inside the arguments of macros) is followed by a block or by
    another [if]. *)
Fixpoint wf_expr (e : expr) : bool :=
  match e with EIf _ _ _ (Some x) => is_branch x | _ => true end
  && match e with
     | EMacro _ (Mac _ (Some x)) => wf_expr x
     | _ => fold_expr andb true wf_expr wf_stmt wf_arm e
     end
with wf_stmt (s : stmt) : bool := fold_stmt true wf_expr wf_local s
with wf_arm (x : arm) : bool := fold_arm andb true wf_expr x
with wf_local (x : local) : bool := fold_local andb true wf_expr x.

(** Function bodies. *)
Definition wf_block (b : list stmt) : bool := forallb wf_stmt b.

(** What [#[auto_enum]] stands on. *)
Definition wf_input (i : input) : bool :=
  match i with
  | InStmt (SItem (IFn _ _ _ b)) => wf_block b
  | InStmt s => wf_stmt s
  | InExpr e => wf_expr e
  | InBad => true
  end.
