(** Lemmas about operations and their ports. *)
From Coq Require Import List Bool NArith Arith Lia.
From Verif Require Import TagModel TypesModel TypesProofs GraphModel OpModel OpSpec.
Import ListNotations.

Lemma nth_values : forall r s i, nth_error (values r ++ s) i =
  if Nat.ltb i (length r) then option_map EValue (nth_error r i) else nth_error s (i - length r).
Proof.
  intros r s i. unfold values. destruct (Nat.ltb_spec i (length r)).
  - rewrite nth_error_app1 by (rewrite map_length; lia). apply nth_error_map.
  - rewrite nth_error_app2 by (rewrite map_length; lia). now rewrite map_length.
Qed.

Lemma values_app : forall a b, values (a ++ b) = values a ++ values b.
Proof. intros. apply map_app. Qed.

(** The general layout computed from the model. *)
Definition layout (o : op) (d : dir) : list ekind :=
  values (side d (sig_of o)) ++ (match static_port_kind o d with Some k => [k] | None => [] end) ++
  (match other_port_kind o d with Some k => repeat k (non_df_port_count o d) | None => [] end).

Lemma non_df_none : forall o d, other_port_kind o d = None -> non_df_port_count o d = 0.
Proof. intros o d E. destruct o; cbn in E |- *; try reflexivity; try discriminate; destruct d; cbn; congruence. Qed.

Lemma repeat_nth : forall {A} (k : A) n i, i < n -> nth_error (repeat k n) i = Some k.
Proof. induction n as [|n IH]; intros i L; [lia|]. destruct i; [reflexivity|]. cbn. apply IH. lia. Qed.

Lemma layout_length : forall o d, length (layout o d) = port_count o d.
Proof.
  intros o d. unfold layout, port_count, value_port_count, values. rewrite !app_length, map_length, <- Nat.add_assoc. f_equal.
  destruct (other_port_kind o d) as [k|] eqn:E.
  - rewrite repeat_length. now destruct (static_port_kind o d).
  - rewrite (non_df_none o d E). now destruct (static_port_kind o d).
Qed.

Lemma layout_kind : forall o d i, i < port_count o d -> port_kind o d i = nth_error (layout o d) i.
Proof.
  intros o d i L. unfold layout, port_kind, port_count in *. rewrite nth_values. fold (value_port_count o d).
  destruct (Nat.ltb_spec i (value_port_count o d)) as [|G]; [reflexivity|].
  destruct (Nat.eqb_spec i (value_port_count o d)) as [->|Ne].
  - rewrite Nat.sub_diag. destruct (static_port_kind o d) as [k|]; [reflexivity|]. cbn [app is_some Nat.b2n] in *.
    destruct (other_port_kind o d) as [k|] eqn:E.
    + symmetry. apply repeat_nth. lia.
    + rewrite (non_df_none o d E) in L. lia.
  - destruct (other_port_kind o d) as [k|] eqn:E.
    + destruct (static_port_kind o d) as [k'|]; cbn [app is_some Nat.b2n] in *.
      * destruct (i - value_port_count o d) as [|j] eqn:Ej; [lia|]. cbn [nth_error]. symmetry. apply repeat_nth. lia.
      * symmetry. apply repeat_nth. lia.
    + rewrite (non_df_none o d E) in L. destruct (static_port_kind o d); cbn [is_some Nat.b2n] in L; lia.
Qed.

Lemma repeat_map : forall {A B} (k : A) (l : list B), repeat k (length l) = map (fun _ => k) l.
Proof. induction l as [|x l IH]; [reflexivity|]. cbn. now f_equal. Qed.

Lemma layout_ports : forall o d l, ports o d l -> layout o d = l.
Proof.
  intros o d l P. destruct P; unfold layout, values; cbn; rewrite ?app_nil_r, ?repeat_map; try reflexivity; try (destruct d; reflexivity).
  - unfold sig_of, side; cbn. now rewrite (nth_error_nth vs t [] H).
  - rewrite map_app, <- app_assoc. reflexivity.
  - rewrite map_app, <- app_assoc. reflexivity.
Qed.

Lemma ports_exists : forall o d, tag_in_range o = true -> exists l, ports o d l.
Proof.
  intros o d T. destruct o; try (destruct s as [x y]); try (destruct inst as [x y]); destruct d; try solve [eexists; constructor].
  cbn in T. apply Nat.ltb_lt in T. destruct (nth_error variants tag) as [r|] eqn:E.
  - eexists. constructor. exact E.
  - apply nth_error_None in E. lia.
Qed.

(** ** Substitution *)
Section Env.
  Variable env : N -> N -> option typedef.

  Lemma subst_row_app : forall s a b, subst_row env s (a ++ b) =
    match subst_row env s a, subst_row env s b with Some x, Some y => Some (x ++ y) | _, _ => None end.
  Proof.
    intros s a b. unfold subst_row. rewrite map_app. induction a as [|t a IH]; cbn [map app].
    - cbn. now destruct (all_some (map (subst_ty env s) b)).
    - unfold all_some in *. cbn [fold_right]. destruct (subst_ty env s t) as [l|]; [|reflexivity].
      destruct (fold_right _ (Some []) (map (subst_ty env s) a ++ map (subst_ty env s) b)) as [u|];
      destruct (fold_right _ (Some []) (map (subst_ty env s) a)) as [v|];
      destruct (fold_right _ (Some []) (map (subst_ty env s) b)) as [w|]; cbn in *; try discriminate; try reflexivity.
      injection IH as E. rewrite E. now rewrite app_assoc.
  Qed.

  Lemma subst_row_cons1 : forall s t r x y, subst_ty env s t = Some [x] -> subst_row env s r = Some y ->
    subst_row env s (t :: r) = Some (x :: y).
  Proof.
    intros s t r x y E F. change (t :: r) with ([t] ++ r). rewrite subst_row_app, F. unfold subst_row. cbn. now rewrite E.
  Qed.

  Lemma subst_row_sum : forall s rows rows', subst_rows env s rows = Some rows' ->
    subst_ty env s (new_sum rows) = Some [new_sum rows'].
  Proof.
    intros s rows rows' E. unfold new_sum at 1. rewrite subst_sum_eq. unfold subst_rows in E. change (all_some (map (fun row => option_map (@concat ty) (all_some (map (subst_ty env s) row))) rows)) with (all_some (map (subst_row env s) rows)). now rewrite E.
  Qed.

  Lemma subst_row_fun : forall s i o x, subst_sig env s (i, o) = Some x ->
    subst_ty env s (TFun i o) = Some [TFun (fst x) (snd x)].
  Proof.
    intros s i o x E. rewrite subst_fun_eq. unfold subst_sig, subst_row in E. cbn [fst snd] in E.
    destruct (all_some (map (subst_ty env s) i)), (all_some (map (subst_ty env s) o)); cbn in E; try discriminate.
    now injection E as <-.
  Qed.

  Lemma subst_rows_nth : forall s rows rows' i, subst_rows env s rows = Some rows' ->
    match nth_error rows i with
    | Some r => exists r', nth_error rows' i = Some r' /\ subst_row env s r = Some r'
    | None => nth_error rows' i = None
    end.
  Proof.
    intros s rows rows' i E. unfold subst_rows in E. apply all_some_Forall2 in E. revert i.
    induction E as [|r r' l l' F E IH]; intros i; destruct i; cbn; eauto. apply IH.
  Qed.
End Env.
