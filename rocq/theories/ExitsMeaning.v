(** The meaning of the expression that takes the place of [?]. *)

Require Import Coq.Strings.String Coq.Lists.List Coq.Bool.Bool Lia.
Require Import Verif.Syntax Verif.ExprModel Verif.Edits Verif.Eval Verif.Exits.
Import ListNotations.
Open Scope string_scope.
Open Scope list_scope.

(** The value, perhaps in variants of generated enums. *)
Inductive in_wrappers (x : value) : value -> Prop :=
| iw_same : in_wrappers x x
| iw_wrap i v y : in_wrappers x y -> in_wrappers x (VWrap i v y).

Section Meaning.
  Variables (W : Type) (O : ops W) (mk : string -> bool) (k : nat) (self : expr -> env -> W -> result W).
  Notation ev := (Eval.ev W O mk k self).

  Lemma ids_len l l' : length l <> length l' -> ids_eqb l l' = false.
  Proof. intros H. unfold ids_eqb. destruct (list_eq_dec string_dec l l'); [subst; contradiction|reflexivity]. Qed.
  Lemma not_named i v m n : length m <> 0 -> named (ctor i v) m n = false.
  Proof.
    intros H. unfold named. change (path_ids (ctor i v)) with [i; v].
    rewrite !ids_len; [reflexivity|..]; cbn; rewrite ?app_length; cbn; lia.
  Qed.
  Lemma ev_ctor pl i v en w : gen_name i = true -> ev pl (EPath [] false (ctor i v)) en w = (ONorm (VWrapF i v), w).
  Proof.
    intros G. cbn [Eval.ev]. unfold con_of, none_of. rewrite !not_named by (cbn; lia).
    unfold variant_of. change (path_ids (ctor i v)) with [i; v]. cbv beta iota. rewrite G. reflexivity.
  Qed.
  Lemma ev_wrap pl i v e en w : gen_name i = true ->
    ev pl (wrap i v e) en w = bnd _ (ev false e en w) (fun x w1 => (ONorm (VWrap i v x), w1)).
  Proof.
    intros G. change (bnd W (ev false (EPath [] false (ctor i v)) en w) (fun x w1 =>
          ev_list W ev values (all W) [e] [] en w1 (fun xs w2 =>
            if is_fn x then apply_fn W O self x xs w2 else act_in W O self w2 (o_call W O x xs w2)))
      = bnd W (ev false e en w) (fun x w1 => (ONorm (VWrap i v x), w1))).
    rewrite ev_ctor by assumption. cbn [bnd]. unfold ev_list. cbn [values all length].
    unfold values, all. destruct (ev false e en w) as [[] u]; reflexivity.
  Qed.
  Lemma ev_val e y en w : is_val e -> exists z, ev false e (("val", (false, y)) :: en) w = (ONorm z, w) /\ in_wrappers y z.
  Proof.
    induction 1 as [|i v e G _ (z & E & I)]; [exists y; split; [reflexivity|constructor]|].
    exists (VWrap i v z). rewrite ev_wrap, E by assumption. split; [reflexivity|constructor; exact I].
  Qed.
  Lemma ev_err own v y en w : gen_name own = true ->
    ev false (err_exit own v) (("err", (false, y)) :: en) w = (ORet (VCon "Err" (VWrap own v y)), w).
  Proof.
    intros G. set (en1 := ("err", (false, y)) :: en).
    assert (X : ev false (EReturn [] (Some (ECall [] (EPath [] false (result_ctor "Err")) [wrap own v (EPath [] false (plain_path ["err"]))]))) en1 w
              = (ORet (VCon "Err" (VWrap own v y)), w)).
    { change (bnd W (bnd W (ev false (wrap own v (EPath [] false (plain_path ["err"]))) en1 w) (fun x w1 => (ONorm (VCon "Err" x), w1)))
        (fun v0 w1 => (ORet v0, w1)) = (ORet (VCon "Err" (VWrap own v y)), w)).
      rewrite ev_wrap by assumption. reflexivity. }
    change (ev false (err_exit own v) en1 w) with
      (match as_stmt W [] (fun _ => VUnit) (ev false (EReturn [] (Some (ECall [] (EPath [] false (result_ctor "Err")) [wrap own v (EPath [] false (plain_path ["err"]))]))) en1 w) with
       | SGo _ bs x0 w1 => (ONorm x0, w1) | SOut _ o w1 => (o, w1) end).
    rewrite X. reflexivity.
  Qed.

  Lemma result_pat p c x : is_result_pat p c x = true -> p = PCtor (result_ctor c) [PBind x].
  Proof.
    unfold is_result_pat. destruct p as [|? |q ps|]; try discriminate. destruct q as [[] segs]; [|discriminate].
    destruct segs as [|[s1 []] segs]; try discriminate. destruct segs as [|[s2 []] segs]; try discriminate.
    destruct segs as [|[s3 []] segs]; try discriminate. destruct segs as [|[s4 []] segs]; try discriminate.
    destruct segs; try discriminate. destruct ps as [|p ps]; try discriminate. destruct p; try discriminate. destruct ps; try discriminate.
    intros H. repeat (apply andb_prop in H; destruct H as [H ?]).
    repeat match goal with K : (_ =? _) = true |- _ => apply String.eqb_eq in K end. subst. reflexivity.
  Qed.
  Lemma quest_arms arms ok er : quest arms = Some (ok, er) -> exists a1 c1 a2 c2,
    arms = [Arm a1 (PCtor (result_ctor "Ok") [PBind "val"]) None ok c1; Arm a2 (PCtor (result_ctor "Err") [PBind "err"]) None er c2].
  Proof.
    unfold quest. destruct arms as [|[a1 p1 [] b1 c1] [|[a2 p2 [] b2 c2] [|]]]; try discriminate.
    destruct (is_result_pat p1 _ _) eqn:E1; [|discriminate]. destruct (is_result_pat p2 _ _) eqn:E2; [|discriminate].
    apply result_pat in E1. apply result_pat in E2. subst. intros H. injection H as -> ->. eauto.
  Qed.

  Lemma quest_ev own v a x arms ok pl en w :
    gen_name own = true -> quest arms = Some (ok, err_exit own v) -> is_val ok ->
    match ev false x en w with
    | (ONorm (VCon c y), w1) =>
        (c = "Ok" -> exists z, ev pl (EMatch a x arms) en w = (ONorm z, w1) /\ in_wrappers y z)
        /\ (c = "Err" -> ev pl (EMatch a x arms) en w = (ORet (VCon "Err" (VWrap own v y)), w1))
    | (ONorm _, _) => True
    | r => ev pl (EMatch a x arms) en w = r
    end.
  Proof.
    intros G Q V. apply quest_arms in Q. destruct Q as (a1 & c1 & a2 & c2 & ->).
    change (ev pl (EMatch a x ?arms) en w) with (bnd W (ev false x en w) (fun x w1 => ev_arms W (Eval.ev_arm W O mk k self) x arms en w1)).
    destruct (ev false x en w) as [[y| | | | | |] w1]; try reflexivity. destruct y as [| | |c y| | | | | |]; try exact I.
    cbn [bnd Eval.ev_arms Eval.ev_arm pmatch].
    change (con_of (result_ctor "Ok")) with (Some "Ok"). change (con_of (result_ctor "Err")) with (Some "Err"). cbv beta iota.
    split; intros ->.
    - cbn [String.eqb Ascii.eqb Bool.eqb pmatches pmatch app]. apply ev_val. exact V.
    - cbn [String.eqb Ascii.eqb Bool.eqb pmatches pmatch app]. apply ev_err. exact G.
  Qed.
End Meaning.

Lemma quest_eval own v a x arms ok :
  gen_name own = true -> quest arms = Some (ok, err_exit own v) -> is_val ok ->
  forall (W : Type) (O : ops W) (mk : string -> bool) (n : nat) (en : env) (w : W),
  match eval W O mk n x en w with
  | (ONorm (VCon c y), w1) =>
      (c = "Ok" -> exists z, eval W O mk n (EMatch a x arms) en w = (ONorm z, w1) /\ in_wrappers y z)
      /\ (c = "Err" -> eval W O mk n (EMatch a x arms) en w = (ORet (VCon "Err" (VWrap own v y)), w1))
  | (ONorm _, _) => True
  | r => eval W O mk n (EMatch a x arms) en w = r
  end.
Proof. intros G Q V W O mk n en w. destruct n; cbn [eval]; eapply quest_ev; eassumption. Qed.
