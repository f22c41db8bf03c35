(** Theorems about constant folding of lists, tuples, [Noop] and [load_nat], about the validation of constants, and
    about the code emitted for list operations. *)
From Coq Require Import ZArith NArith List Bool Lia Permutation.
From Verif Require Import TypesModel FloatModel CollModel CollSpec CollProofs.
Import ListNotations.

(** * Lists *)
(** With all inputs known, in whatever order, [pop], [push], [get] and [set] are folded to constants for all output
    ports, of the types of the signature, that are what the operation computes. *)
Theorem list_fold_exact op e ins args cs :
  op <> Insert -> op <> Length -> Forall2 typed ins (fst (list_signature op e)) -> args_of op ins args -> Permutation cs (ports_from 0 ins) ->
  exists outs rs, gives (list_fold op cs) outs /\ sem op args rs /\ Forall2 res_of outs rs /\ Forall2 typed outs (snd (list_signature op e)).
Proof.
  intros N1 N2 Ht Ha P. destruct op; try contradiction; cbn [list_signature fst] in Ht;
  repeat match goal with H : Forall2 typed _ (_ :: _) |- _ => inversion H; subst; clear H | H : Forall2 typed _ [] |- _ => inversion H; subst; clear H end.
  - apply pop_right with (v := x); assumption.
  - apply push_right with (v := x) (w := x0); assumption.
  - apply get_right with (v := x) (w := x0); assumption.
  - apply set_right with (v := x) (w := x0) (u := x1); assumption.
Qed.
Print Assumptions list_fold_exact.
(** [insert] too, if the index is out of bounds; otherwise the list is right, but the success value is not that of the
    signature. *)
Theorem list_insert_fold e ins args cs :
  Forall2 typed ins (fst (list_signature Insert e)) -> args_of Insert ins args -> Permutation cs (ports_from 0 ins) ->
  (exists outs rs, gives (list_fold Insert cs) outs /\ sem Insert args rs /\ Forall2 res_of outs rs /\ Forall2 typed outs (snd (list_signature Insert e))) \/
  exists a y b x, args = [AList (a ++ y :: b); AIndex (N.of_nat (length a)); AElem x] /\
    gives (list_fold Insert cs) [VList (a ++ x :: y :: b) e; VSum 1 [] [[e]; []]] /\ typed (VList (a ++ x :: y :: b) e) (list_type e).
Proof.
  intros Ht Ha P. cbn [list_signature fst] in Ht.
  repeat match goal with H : Forall2 typed _ (_ :: _) |- _ => inversion H; subst; clear H | H : Forall2 typed _ [] |- _ => inversion H; subst; clear H end.
  destruct (insert_right e x x0 x1 args cs) as [R|(a & y & b & E & G & T)]; try assumption; [left; exact R|right].
  exists a, y, b, x1. auto.
Qed.
Print Assumptions list_insert_fold.
(** An empty row is not a unit: the success value has another type than the output. *)
Theorem list_insert_type_refuted : exists e ins outs,
  Forall2 typed ins (fst (list_signature Insert e)) /\ gives (list_fold Insert (ports_from 0 ins)) outs /\
  ~ Forall2 typed outs (snd (list_signature Insert e)) /\ map get_type outs <> snd (list_signature Insert e).
Proof.
  exists usize_t, [VList [VUsize 3] usize_t; VUsize 0; VUsize 7], [VList [VUsize 7; VUsize 3] usize_t; VSum 1 [] [[usize_t]; []]].
  assert (D : map get_type [VList [VUsize 7; VUsize 3] usize_t; VSum 1 [] [[usize_t]; []]] <> snd (list_signature Insert usize_t)) by discriminate.
  split; [repeat constructor|]. split; [reflexivity|]. split; [|exact D]. intros H. apply D. apply typed_types. exact H.
Qed.
Print Assumptions list_insert_type_refuted.
(** The length is found, but given to the port of the list; the port of the length gets nothing. *)
Theorem list_length_fold e vs cs : typed (VList vs e) (list_type e) -> Permutation cs (ports_from 0 [VList vs e]) ->
  list_fold Length cs = Outs [(0%Z, VUsize (N.of_nat (length vs)))].
Proof. intros _ P. unfold list_fold. rewrite (sorted_all _ _ P). reflexivity. Qed.
Print Assumptions list_length_fold.
Theorem list_length_port_refuted : exists e v x, typed v (list_type e) /\ list_fold Length [(0%Z, v)] = Outs [(0%Z, x)] /\
  nth_error (snd (list_signature Length e)) 0 = Some (list_type e) /\ get_type x <> list_type e.
Proof. exists usize_t, (VList [] usize_t), (VUsize 0). split; [repeat constructor|]. split; [reflexivity|]. split; [reflexivity|discriminate]. Qed.
Print Assumptions list_length_port_refuted.
(** With an input missing nothing is folded. *)
Theorem list_fold_incomplete op e (cs : list (Z * value)) : length cs <> length (fst (list_signature op e)) -> list_fold op cs = NoFold.
Proof.
  intros H. rewrite <- (sorted_len cs) in H. unfold list_fold. destruct (sorted_consts cs) as [|a [|b [|c [|d l]]]], op; cbn in H; try reflexivity; contradiction.
Qed.
Print Assumptions list_fold_incomplete.
(** Inputs whose elements can be seen are arguments; so the theorems above are about all of these. *)
Theorem list_args_seen op e ins : Forall2 typed ins (fst (list_signature op e)) ->
  (forall p v t, nth_error ins p = Some v -> nth_error (fst (list_signature op e)) p = Some t -> t = list_type e \/ t = usize_t -> transparent v) ->
  exists args, args_of op ins args.
Proof.
  intros Ht Hs. assert (L : forall v, typed v (list_type e) -> transparent v -> exists l, v = VList l e).
  { intros v T S. inversion T; subst; [eexists; reflexivity|]. edestruct S. reflexivity. }
  assert (U : forall v, typed v usize_t -> transparent v -> exists i, v = VUsize i).
  { intros v T S. inversion T; subst; [eexists; reflexivity|]. edestruct S. reflexivity. }
  destruct op; cbn [list_signature fst] in *;
  repeat match goal with H : Forall2 typed _ (_ :: _) |- _ => inversion H; subst; clear H | H : Forall2 typed _ [] |- _ => inversion H; subst; clear H end;
  (match goal with H : typed ?x (list_type e) |- _ => destruct (L x H) as (l & ->); [apply (Hs 0 x (list_type e)); auto|] end).
  - exists [AList l]. split; [reflexivity|]. intros [|[|p]] v a E1 E2; cbn in E1, E2; try discriminate. injection E1 as <-. injection E2 as <-. cbn. eauto.
  - exists [AList l; AElem x0]. split; [reflexivity|]. intros [|[|[|p]]] v a E1 E2; cbn in E1, E2; try discriminate; injection E1 as <-; injection E2 as <-; cbn; eauto.
  - destruct (U x0) as (i & ->); [assumption|apply (Hs 1 x0 usize_t); auto|]. exists [AList l; AIndex i]. split; [reflexivity|].
    intros [|[|[|p]]] v a E1 E2; cbn in E1, E2; try discriminate; injection E1 as <-; injection E2 as <-; cbn; eauto. split; [discriminate|reflexivity].
  - destruct (U x0) as (i & ->); [assumption|apply (Hs 1 x0 usize_t); auto|]. exists [AList l; AIndex i; AElem x1]. split; [reflexivity|].
    intros [|[|[|[|p]]]] v a E1 E2; cbn in E1, E2; try discriminate; injection E1 as <-; injection E2 as <-; cbn; eauto. split; [discriminate|reflexivity].
  - destruct (U x0) as (i & ->); [assumption|apply (Hs 1 x0 usize_t); auto|]. exists [AList l; AIndex i; AElem x1]. split; [reflexivity|].
    intros [|[|[|[|p]]]] v a E1 E2; cbn in E1, E2; try discriminate; injection E1 as <-; injection E2 as <-; cbn; eauto. split; [discriminate|reflexivity].
  - exists [AList l]. split; [reflexivity|]. intros [|[|p]] v a E1 E2; cbn in E1, E2; try discriminate. injection E1 as <-. injection E2 as <-. cbn. eauto.
Qed.
Print Assumptions list_args_seen.
(** Other constants of list type, for instance external symbols, make the folder panic. *)
Theorem list_fold_panic_refuted : exists op e ins, Forall2 typed ins (fst (list_signature op e)) /\ list_fold op (ports_from 0 ins) = Panic.
Proof.
  exists Pop, usize_t, [VOther 0 (list_type usize_t)]. split; [|reflexivity]. constructor; [|constructor]. constructor. discriminate.
Qed.
Print Assumptions list_fold_panic_refuted.

Definition three : list value := [VUsize 1; VUsize 2; VUsize 3].
Example list_fold_set : list_fold Set_ [(2, VUsize 9); (0, VList three usize_t); (1, VUsize 1)]%Z =
  Outs [(0, VList [VUsize 1; VUsize 9; VUsize 3] usize_t); (1, VSum 1 [VUsize 2] [[usize_t]; [usize_t]])]%Z.
Proof. reflexivity. Qed.
Example list_fold_set_hyps : Forall2 typed [VList three usize_t; VUsize 1; VUsize 9] (fst (list_signature Set_ usize_t)) /\
  args_of Set_ [VList three usize_t; VUsize 1; VUsize 9] [AList three; AIndex 1; AElem (VUsize 9)] /\
  Permutation [(2, VUsize 9); (0, VList three usize_t); (1, VUsize 1)]%Z (ports_from 0 [VList three usize_t; VUsize 1; VUsize 9]).
Proof.
  split; [repeat constructor|]. split.
  - split; [reflexivity|]. intros [|[|[|[|p]]]] v a E1 E2; cbn in E1, E2; try discriminate; injection E1 as <-; injection E2 as <-; cbn; eauto. split; [discriminate|reflexivity].
  - cbn. eapply perm_trans; [apply perm_swap|]. apply perm_skip. apply perm_swap.
Qed.
Example list_fold_pop : list_fold Pop [(0, VList three usize_t)]%Z = Outs [(0, VList [VUsize 1; VUsize 2] usize_t); (1, VSum 1 [VUsize 3] [[]; [usize_t]])]%Z.
Proof. reflexivity. Qed.
Example list_fold_get_out : list_fold Get [(0, VList three usize_t); (1, VUsize 3)]%Z = Outs [(0, VSum 0 [] [[]; [usize_t]])]%Z.
Proof. reflexivity. Qed.
Example list_fold_insert_end : list_fold Insert [(0, VList three usize_t); (1, VUsize 3); (2, VUsize 4)]%Z =
  Outs [(0, VList three usize_t); (1, VSum 0 [VUsize 4] [[usize_t]; [unit_t]])]%Z.
Proof. reflexivity. Qed.

(** * Tuples, [Noop], [load_nat] *)
Theorem make_tuple_fold_exact ins ts cs : Forall2 typed ins ts -> Permutation cs (ports_from 0 ins) ->
  gives (make_tuple_fold cs) [VSum 0 ins [ts]] /\ typed (VSum 0 ins [ts]) (new_sum [ts]).
Proof.
  intros H P. split; [|eapply t_sum; [reflexivity|exact H]]. unfold make_tuple_fold, gives. rewrite (sorted_all _ _ P), (typed_types _ _ H), (sum_ok 0 ins [ts] ts eq_refl H). reflexivity.
Qed.
Print Assumptions make_tuple_fold_exact.
(** With an input missing a tuple is made of the others. *)
Theorem make_tuple_partial_refuted : exists ins ts cs v, Forall2 typed ins ts /\ incl cs (ports_from 0 ins) /\ make_tuple_fold cs = Outs [(0%Z, v)] /\ get_type v <> new_sum [ts].
Proof.
  exists [VUsize 1; VUsize 2], [usize_t; usize_t], [(1%Z, VUsize 2)], (VSum 0 [VUsize 2] [[usize_t]]).
  split; [repeat constructor|]. split; [intros x [<-|[]]; cbn; tauto|]. split; [reflexivity|discriminate].
Qed.
Print Assumptions make_tuple_partial_refuted.
Theorem unpack_tuple_fold_exact p v ts : typed v (new_sum [ts]) -> transparent v ->
  exists vs, gives (unpack_tuple_fold [(p, v)]) vs /\ Forall2 typed vs ts /\ v = VSum 0 vs [ts].
Proof.
  intros H T. inversion H as [| |tag vs rows row Hn Hf E1 E2|k t Hr E1 E2]; subst; [|edestruct T; reflexivity].
  destruct tag as [|tag]; [|destruct tag; discriminate Hn]. injection Hn as <-. exists vs. split; [unfold gives, unpack_tuple_fold, as_tuple, fold_out_row; rewrite enumerate_ports; reflexivity|]. split; [exact Hf|reflexivity].
Qed.
Print Assumptions unpack_tuple_fold_exact.
Theorem unpack_tuple_panic_refuted : exists v ts, typed v (new_sum [ts]) /\ unpack_tuple_fold [(0%Z, v)] = Panic.
Proof. exists (VOther 0 (new_sum [[usize_t]])), [usize_t]. split; [constructor; discriminate|reflexivity]. Qed.
Print Assumptions unpack_tuple_panic_refuted.
Theorem noop_fold_exact p v t : typed v t -> gives (noop_fold [(p, v)]) [v] /\ typed v t.
Proof. intros H. split; [reflexivity|exact H]. Qed.
Print Assumptions noop_fold_exact.
Theorem load_nat_fold_exact n cs : (n < 2 ^ 64)%N -> gives (load_nat_fold [MNat n] cs) [VUsize n] /\ typed (VUsize n) usize_t.
Proof. intros H. split; [reflexivity|constructor; exact H]. Qed.
Print Assumptions load_nat_fold_exact.
(** Packing and unpacking undo each other. *)
Theorem tuple_round_trip ins ts cs : Forall2 typed ins ts -> Permutation cs (ports_from 0 ins) ->
  exists v, make_tuple_fold cs = Outs [(0%Z, v)] /\ gives (unpack_tuple_fold [(0%Z, v)]) ins.
Proof.
  intros H P. exists (VSum 0 ins [ts]). split; [apply make_tuple_fold_exact; assumption|]. unfold gives, unpack_tuple_fold, as_tuple, fold_out_row. rewrite enumerate_ports. reflexivity.
Qed.
Print Assumptions tuple_round_trip.
Example tuple_example : make_tuple_fold [(1, VUsize 2); (0, VList three usize_t)]%Z = Outs [(0%Z, VSum 0 [VList three usize_t; VUsize 2] [[list_type usize_t; usize_t]])].
Proof. reflexivity. Qed.

(** * Validation of constants *)
(** Well-typed constants are accepted and report their type. *)
Theorem typed_validates other v t : (forall k t, (forall i b, t <> TRow i b) -> other k t = true) -> typed v t -> validate other v = true /\ get_type v = t.
Proof.
  intros Ho H. split; [|apply typed_type; exact H]. inversion H; subst; cbn.
  - reflexivity.
  - apply forallb_forall. intros x Hx. rewrite Forall_forall in H0. rewrite (typed_type _ _ (H0 x Hx)). apply ty_refl.
  - unfold check_type. rewrite H0, (typed_no_rows _ _ H1), (typed_types _ _ H1), tys_refl. reflexivity.
  - apply Ho. assumption.
Qed.
Print Assumptions typed_validates.
(** If every constant inside passes, the constant is well-typed. *)
Inductive passes (other : N -> ty -> bool) : value -> Prop :=
| p_usize n : (n < 2 ^ 64)%N -> passes other (VUsize n)
| p_list vs t : validate other (VList vs t) = true -> Forall (passes other) vs -> passes other (VList vs t)
| p_sum tag vs rows : validate other (VSum tag vs rows) = true -> Forall (passes other) vs -> passes other (VSum tag vs rows)
| p_other k t : (forall i b, t <> TRow i b) -> passes other (VOther k t).
Theorem validated_throughout other v : passes other v -> typed v (get_type v).
Proof.
  revert v. fix IH 2. intros v H. destruct H as [n Hn|vs t Hv Hf|tag vs rows Hv Hf|k t Hr].
  - constructor. exact Hn.
  - cbn. constructor. cbn in Hv. induction Hf as [|x vs Hx Hf IHf]; [constructor|]. cbn in Hv. apply andb_prop in Hv. destruct Hv as [E Hv].
    constructor; [|apply IHf; exact Hv]. apply TypesProofs.eqb_eq_both in E. rewrite <- E. apply IH. exact Hx.
  - cbn in Hv. unfold check_type in Hv. destruct (nth_error rows tag) as [row|] eqn:En; [|discriminate Hv]. apply andb_prop in Hv. destruct Hv as [_ Hv].
    cbn. eapply t_sum; [exact En|]. clear En. revert row Hv. induction Hf as [|x vs Hx Hf IHf]; intros [|t row] Hv; cbn in Hv; try discriminate Hv; [constructor|].
    apply andb_prop in Hv. destruct Hv as [E Hv]. constructor; [|apply IHf; exact Hv]. apply TypesProofs.eqb_eq_both in E. rewrite <- E. apply IH. exact Hx.
  - cbn. constructor. exact Hr.
Qed.
Print Assumptions validated_throughout.
(** The constant itself passing is not enough: constants inside are asked for their type, but not validated. *)
Theorem validate_nested_refuted : exists v, (forall other, validate other v = true) /\ ~ typed v (get_type v).
Proof.
  exists (VSum 0 [VList [VSum 0 [] [[]]] usize_t] [[list_type usize_t]]). split; [reflexivity|]. intros H.
  inversion H as [| |tag vs rows row Hn Hf E1 E2|]; subst. injection Hn as <-. inversion Hf as [|? ? ? ? Hl _ E3 E4]; subst.
  inversion Hl as [|vs' t' Ha E5 E6| |]; subst. inversion Ha as [|? ? Hb _]; subst. apply typed_type in Hb. discriminate Hb.
Qed.
Print Assumptions validate_nested_refuted.
Example passes_example : passes (fun _ _ => true) (VSum 1 [VList three usize_t] [[]; [list_type usize_t]]).
Proof. constructor; [reflexivity|]. repeat constructor. Qed.

(** * Emitted code *)
(** With a runtime whose functions do what they are called, the code for all operations but [set] on an index in
    bounds computes the operation. *)
Theorem list_emitted (E : Type) (rt : runtime (list E) E) (op : list_op) args rs vs junk :
  correct_runtime rt -> sem op args rs -> Forall2 arg_run vs args -> (forall l e, op = Set_ -> rs <> [OList l; OOk e]) ->
  exists outs, emit_list_op _ _ rt op junk vs = Some outs /\ Forall2 res_run outs rs.
Proof.
  intros C H Hv Hs. destruct H; repeat match goal with H : Forall2 arg_run _ _ |- _ => inversion H; subst; clear H end;
    repeat match goal with H : arg_run _ _ |- _ => cbn in H; subst end; cbn [emit_list_op].
  - rewrite (c_pop _ C). eexists. split; [reflexivity|]. repeat constructor.
  - destruct (c_pop_empty _ C junk) as (e & ->). eexists. split; [reflexivity|]. repeat constructor.
  - rewrite (c_push _ C). eexists. split; [reflexivity|]. repeat constructor.
  - rewrite (c_get _ C). eexists. split; [reflexivity|]. repeat constructor.
  - destruct (c_get_out _ C l i junk) as (e & ->); [assumption|]. eexists. split; [reflexivity|]. repeat constructor.
  - edestruct Hs; reflexivity.
  - rewrite (c_set_out _ C) by assumption. eexists. split; [reflexivity|]. repeat constructor.
  - destruct (c_insert _ C a y b x) as (e & ->). eexists. split; [reflexivity|]. repeat constructor.
  - destruct (c_insert_out _ C l i x) as (e & ->); [assumption|]. eexists. split; [reflexivity|]. repeat constructor.
  - rewrite (c_length _ C). eexists. split; [reflexivity|]. repeat constructor.
Qed.
Print Assumptions list_emitted.
(** Whatever the runtime: if [set] succeeds, the new element is returned, not the old one. *)
Theorem list_set_emitted (L E : Type) (rt : runtime L E) l i x junk l' old :
  rt_set _ _ rt l i x = (true, l', old) -> emit_list_op _ _ rt Set_ junk [RList l; RNat i; RElem x] = Some [RList l'; RTag 1 [RElem x]].
Proof. intros H. cbn. rewrite H. reflexivity. Qed.
Print Assumptions list_set_emitted.
Definition lists : runtime (list N) N := {|
  rt_push l e := l ++ [e];
  rt_pop l j := match rev l with x :: r => (true, rev r, x) | [] => (false, [], j) end;
  rt_get l i j := match nth_error l (N.to_nat i) with Some x => (true, l, x) | None => (false, l, j) end;
  rt_set l i x := match nth_error l (N.to_nat i) with Some y => (true, firstn (N.to_nat i) l ++ x :: skipn (S (N.to_nat i)) l, y) | None => (false, l, x) end;
  rt_insert l i x := match nth_error l (N.to_nat i) with Some y => (true, firstn (N.to_nat i) l ++ x :: skipn (N.to_nat i) l, x) | None => (false, l, x) end;
  rt_length l := N.of_nat (length l) |}.
Lemma nth_mid {A} (a : list A) x b : nth_error (a ++ x :: b) (N.to_nat (N.of_nat (length a))) = Some x.
Proof. rewrite Nnat.Nat2N.id, nth_error_app2, Nat.sub_diag by lia. reflexivity. Qed.
Lemma nth_out {A} (l : list A) i : (N.of_nat (length l) <= i)%N -> nth_error l (N.to_nat i) = None.
Proof. intros H. apply nth_error_None. lia. Qed.
Lemma lists_correct : correct_runtime lists.
Proof.
  constructor; intros; unfold lists; cbn [rt_push rt_pop rt_get rt_set rt_insert rt_length].
  - reflexivity.
  - rewrite rev_app_distr. cbn [rev app]. rewrite rev_involutive. reflexivity.
  - eexists. reflexivity.
  - rewrite nth_mid. reflexivity.
  - rewrite nth_out by assumption. eexists. reflexivity.
  - rewrite nth_mid, Nnat.Nat2N.id, firstn_app, firstn_all, Nat.sub_diag, app_nil_r, skipn_app, skipn_all2 by lia. replace (S (length a) - length a) with 1 by lia. reflexivity.
  - rewrite nth_out by assumption. reflexivity.
  - rewrite nth_mid, Nnat.Nat2N.id, firstn_app, firstn_all, Nat.sub_diag, app_nil_r, skipn_app, skipn_all, Nat.sub_diag. eexists. reflexivity.
  - rewrite nth_out by assumption. eexists. reflexivity.
  - reflexivity.
Qed.
Theorem list_set_emitted_refuted : exists (rt : runtime (list N) N) args rs vs junk outs, correct_runtime rt /\ sem Set_ args rs /\ Forall2 arg_run vs args /\
  emit_list_op _ _ rt Set_ junk vs = Some outs /\ ~ Forall2 res_run outs rs.
Proof.
  exists lists, [AList [5]; AIndex 0; AElem 6]%N, [OList [6]; OOk 5]%N, [RList [5]; RNat 0; RElem 6]%N, 0%N, [RList [6]; RTag 1 [RElem 6]]%N.
  split; [apply lists_correct|]. split; [apply (s_set [] 5%N [] 0%N 6%N); reflexivity|]. split; [repeat constructor|]. split; [reflexivity|].
  intros H. inversion H as [|? ? ? ? _ H2]; subst. inversion H2 as [|? ? ? ? H3 _]; subst. cbn in H3. discriminate H3.
Qed.
Print Assumptions list_set_emitted_refuted.
Example list_emitted_example : emit_list_op _ _ lists Insert 0%N [RList [5; 7]; RNat 1; RElem 6]%N = Some [RList [5; 6; 7]; RTag 1 [RUnit]]%N.
Proof. reflexivity. Qed.
