(** Specification: operations that write a record of everything they are asked to do.

    Everything outside the language is decided by an arbitrary oracle, which sees the events so far, the
    name of the operation and its arguments (without the wrappers of generated enums, because no
    operation can see them except through the traits the enum derives, which forward).  It answers with a value,
    with one of the arguments, with a panic, or by calling one of the arguments and being asked again. *)

Require Import Coq.Strings.String Coq.Lists.List Coq.Bool.Bool.
Require Import Verif.Syntax Verif.Edits Verif.Eval Verif.Same Verif.EvalRun.
Import ListNotations.
Open Scope string_scope.
Open Scope list_scope.

(** What an operation sees of a value. *)
Fixpoint shape (x : value) : value :=
  match x with
  | VCon c y => VCon c (shape y)
  | VWrap _ _ y => shape y
  | VClos _ _ _ => VOp "closure" []
  | VLet o => VBool (match o with Some _ => true | None => false end)
  | VOp s l => VOp s (map shape l)
  | _ => x
  end.

Definition event := (string * list value)%type.
Definition trace := list event.

Inductive reply :=
| RVal (x : value)
| RArg (i : nat)
| RPanic
(* call argument [i] with the values or arguments listed *)
| RCall (i : nat) (l : list (nat + value)).

Record oracle := Oracle {
  q_reply : trace -> string -> list value -> reply;
  (* how often an operation may call its arguments *)
  q_limit : nat;
  q_value : trace -> string -> list value -> value;
  q_more : trace -> string -> list value -> bool;
  q_pat : trace -> string -> value -> option env;
  q_is : path -> string -> bool;
  q_mode : string -> nat -> bool
}.

Section Traced.
  Variable Q : oracle.

  Definition arg (xs : list value) (a : nat + value) : value :=
    match a with inl i => nth i xs VUnit | inr v => v end.

  Fixpoint ask (b : nat) (name : string) (xs : list value) (w : trace) : act trace :=
    let w1 := (name, map shape xs) :: w in
    match q_reply Q w name (map shape xs) with
    | RVal v => ADone _ v w1
    | RArg i => ADone _ (nth i xs VUnit) w1
    | RPanic => APanic _ w1
    | RCall i l =>
        match b with
        | 0 => APanic _ w1
        | S b' => ACall _ (nth i xs VUnit) (map (arg xs) l) w1 (fun x u => ask b' name (x :: xs) u)
        end
    end.

  Definition vals (en : env) : list value := map (fun x => snd (snd x)) en.
  Definition path_text (p : path) : string := String.concat "::" (path_ids p).

  Definition traced : ops trace := {|
    o_global := fun pl q p w => VOp (path_text p) [];
    o_use := fun x w => q_value Q w "read" [shape x];
    o_decl := fun w => (q_value Q w "let" [], ("let", []) :: w);
    o_call := fun f l w => ask (q_limit Q) "call" (f :: l) w;
    o_method := fun m l w => ask (q_limit Q) ("." ++ m) l w;
    o_mode := q_mode Q;
    o_more := fun s l w => q_more Q w s (map shape l);
    o_other := fun s pl l w => ask (q_limit Q) s l w;
    o_macro := fun p e en w => ask (q_limit Q) (path_text p ++ "!") (vals en) w;
    o_verbatim := fun s en w => ask (q_limit Q) s (vals en) w;
    o_pat := fun s x w => (match q_pat Q w s (shape x) with Some bs => PYes bs | None => PNo end, w);
    o_fields := fun p x w => match peel x with VOp s l => if q_is Q p s then Some l else None | _ => None end;
    o_iter := fun x w => ask (q_limit Q) "into_iter" [x] w;
    o_next := fun x w => ask (q_limit Q) "next" [x] w
  |}.

  Lemma shape_rel3 mk :
    (forall x y, vrel mk x y -> shape x = shape y)
    /\ (forall l l', erel mk l l' -> map shape (vals l) = map shape (vals l'))
    /\ (forall l l', vsrel mk l l' -> map shape l = map shape l').
  Proof. apply vrel_ind3; intros; cbn; try reflexivity; try congruence. unfold vals in *. congruence. Qed.

  Lemma vals_rel mk l l' : erel mk l l' -> vsrel mk (vals l) (vals l').
  Proof. intros H. induction H; constructor; assumption. Qed.

  Lemma nth_rel mk i l l' : vsrel mk l l' -> vrel mk (nth i l VUnit) (nth i l' VUnit).
  Proof. intros H. revert i. induction H; intros [|i]; cbn; try constructor; auto. Qed.

  Lemma ask_rel mk : forall b name xs ys w, vsrel mk xs ys -> arel mk eq (ask b name xs w) (ask b name ys w).
  Proof.
    induction b as [|b IH]; intros name xs ys w H; pose proof (proj2 (proj2 (shape_rel3 mk)) _ _ H) as S; cbn [ask]; rewrite S;
      destruct (q_reply Q w name (map shape ys)); try (constructor; reflexivity).
    all: try (constructor; [apply vrel_refl|reflexivity]); try (constructor; [apply nth_rel; assumption|reflexivity]).
    constructor; [apply nth_rel; assumption| |reflexivity|].
    - induction l as [|[j|v] l IHl]; constructor; try assumption; [apply nth_rel; assumption|apply vrel_refl].
    - intros x y u u' V <-. apply IH. constructor; assumption.
  Qed.

  Lemma traced_respects mk : respects mk eq traced.
  Proof.
    constructor; cbn; intros; subst.
    - reflexivity.
    - reflexivity.
    - apply vrel_refl.
    - rewrite (proj1 (shape_rel3 mk) _ _ H). apply vrel_refl.
    - split; [apply vrel_refl|reflexivity].
    - apply ask_rel. constructor; assumption.
    - apply ask_rel. assumption.
    - rewrite (proj2 (proj2 (shape_rel3 mk)) _ _ H). reflexivity.
    - apply ask_rel. assumption.
    - apply ask_rel. apply vals_rel. assumption.
    - apply ask_rel. apply vals_rel. assumption.
    - rewrite (proj1 (shape_rel3 mk) _ _ H). destruct (q_pat Q w' s (shape y)); constructor; try reflexivity. apply erel_refl.
    - pose proof (peel_head mk _ _ H) as K.
      destruct (peel x) as [| | | | | | | |[]|], (peel y) as [| | | | | | | |[]|]; cbn in K; try contradiction; try exact I.
      destruct K as [-> K]. destruct (q_is Q p s0); [exact K|exact I].
    - apply ask_rel. constructor; [assumption|constructor].
    - apply ask_rel. constructor; [assumption|constructor].
  Qed.
End Traced.
