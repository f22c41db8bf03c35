(** Proofs about constant folding of lists and tuples. *)
From Coq Require Import ZArith NArith List Bool Lia Permutation.
From Verif Require Import TypesModel TypesProofs FloatModel CollModel CollSpec.
Import ListNotations.

(** ** Sorting by port *)
Open Scope Z_scope.
Lemma insert_swap {A} (x y : Z * A) l : fst x <> fst y -> insert_port x (insert_port y l) = insert_port y (insert_port x l).
Proof.
  intros N. induction l as [|z l IH]; cbn.
  - destruct (Z.leb_spec (fst x) (fst y)), (Z.leb_spec (fst y) (fst x)); try reflexivity; lia.
  - destruct (Z.leb_spec (fst y) (fst z)), (Z.leb_spec (fst x) (fst z)); cbn;
      repeat match goal with |- context [?a <=? ?b] => destruct (Z.leb_spec a b) end; try lia; try reflexivity.
    rewrite IH. reflexivity.
Qed.
Lemma sort_perm {A} (l m : list (Z * A)) : Permutation l m -> NoDup (map fst l) -> sort_ports l = sort_ports m.
Proof.
  intros P. induction P as [|x l m P IH|x y l|l m n P IH Q IH']; intros D; cbn.
  - reflexivity.
  - inversion D; subst. unfold sort_ports in IH. rewrite IH by assumption. reflexivity.
  - apply insert_swap. inversion D as [|? ? H1 H2]; subst. intros E. apply H1. left. exact (eq_sym E) || (left; exact E).
  - rewrite IH by assumption. apply IH'. eapply Permutation_NoDup; [|exact D]. apply Permutation_map. exact P.
Qed.
Lemma ports_keys {A} i (vs : list A) k : In k (map fst (ports_from i vs)) -> i <= k.
Proof. revert i. induction vs as [|v vs IH]; intros i; cbn; [tauto|]. intros [<-|H]; [lia|]. apply IH in H. lia. Qed.
Lemma ports_nodup {A} i (vs : list A) : NoDup (map fst (ports_from i vs)).
Proof. revert i. induction vs as [|v vs IH]; intros i; cbn; constructor; [|apply IH]. intros H. apply ports_keys in H. lia. Qed.
Lemma sort_ports_from {A} i (vs : list A) : sort_ports (ports_from i vs) = ports_from i vs.
Proof.
  revert i. induction vs as [|v vs IH]; intros i; [reflexivity|]. cbn. unfold sort_ports in IH. rewrite IH. destruct vs as [|w vs]; cbn; [reflexivity|].
  destruct (Z.leb_spec i (i + 1)); [reflexivity|lia].
Qed.
Lemma ports_snd {A} i (vs : list A) : map snd (ports_from i vs) = vs.
Proof. revert i. induction vs as [|v vs IH]; intros i; cbn; [reflexivity|]. rewrite IH. reflexivity. Qed.
Lemma sorted_all {A} (cs : list (Z * A)) vs : Permutation cs (ports_from 0 vs) -> sorted_consts cs = vs.
Proof.
  intros P. unfold sorted_consts. rewrite (sort_perm _ _ P), sort_ports_from, ports_snd; [reflexivity|].
  eapply Permutation_NoDup; [apply Permutation_map; apply Permutation_sym; exact P|apply ports_nodup].
Qed.
Lemma insert_len {A} (x : Z * A) l : length (insert_port x l) = S (length l).
Proof. induction l as [|y l IH]; cbn; [reflexivity|]. destruct (_ <=? _); cbn; [reflexivity|]. rewrite IH. reflexivity. Qed.
Lemma sorted_len {A} (cs : list (Z * A)) : length (sorted_consts cs) = length cs.
Proof. unfold sorted_consts. rewrite map_length. induction cs as [|c cs IH]; [reflexivity|]. cbn. unfold sort_ports in IH. rewrite insert_len, IH. reflexivity. Qed.
Lemma enumerate_ports i vs : enumerate i vs = ports_from i vs.
Proof. revert i. induction vs as [|v vs IH]; intros i; cbn; [reflexivity|]. rewrite IH. reflexivity. Qed.
Close Scope Z_scope.

(** ** Types *)
Lemma ty_refl t : ty_eqb t t = true. Proof. apply eqb_eq_both. reflexivity. Qed.
Lemma tys_refl l : list_eqb ty_eqb l l = true.
Proof. induction l as [|t l IH]; cbn; [reflexivity|]. rewrite ty_refl. exact IH. Qed.
Lemma typed_type v t : typed v t -> get_type v = t.
Proof. intros H. inversion H; reflexivity. Qed.
Lemma typed_types vs ts : Forall2 typed vs ts -> map get_type vs = ts.
Proof. intros H. induction H as [|v t vs ts Hv _ IH]; cbn; [reflexivity|]. rewrite IH, (typed_type _ _ Hv). reflexivity. Qed.
Lemma typed_no_row v t : typed v t -> is_row_var t = false.
Proof. intros H. inversion H; try reflexivity. subst. destruct t; try reflexivity. edestruct (H0); reflexivity. Qed.
Lemma typed_no_rows vs ts : Forall2 typed vs ts -> existsb is_row_var ts = false.
Proof. intros H. induction H as [|v t vs ts Hv _ IH]; cbn; [reflexivity|]. rewrite IH, (typed_no_row _ _ Hv). reflexivity. Qed.
Lemma sum_ok tag vs rows row : nth_error rows tag = Some row -> Forall2 typed vs row -> value_sum tag vs rows = Some (VSum tag vs rows).
Proof.
  intros Hn Hf. unfold value_sum, check_type. rewrite Hn, (typed_no_rows _ _ Hf), (typed_types _ _ Hf), tys_refl. reflexivity.
Qed.

(** ** Lists *)
Lemma nth_split_at {A} (l : list A) i x : nth_error l i = Some x -> exists a b, l = a ++ x :: b /\ length a = i.
Proof. apply nth_error_split. Qed.
Lemma replace_split a old b x : replace_at (length a) x (a ++ old :: b) = a ++ x :: b.
Proof.
  unfold replace_at. rewrite firstn_app, firstn_all, Nat.sub_diag, app_nil_r, skipn_app, skipn_all2 by lia.
  replace (S (length a) - length a) with 1 by lia. reflexivity.
Qed.
Lemma insert_split a b x : insert_at (length a) x (a ++ b) = a ++ x :: b.
Proof. unfold insert_at. rewrite firstn_app, firstn_all, Nat.sub_diag, skipn_app, skipn_all, Nat.sub_diag. cbn. rewrite app_nil_r. reflexivity. Qed.
Lemma Forall_mid {A} (P : A -> Prop) a x b : Forall P (a ++ x :: b) -> Forall P a /\ P x /\ Forall P b.
Proof. rewrite Forall_app. intros [Ha Hb]. inversion Hb. auto. Qed.

Lemma list_inv vs t e : typed (VList vs t) (list_type e) -> t = e /\ Forall (fun v => typed v e) vs.
Proof. intros H. inversion H; subst. auto. Qed.
Lemma some_ok v t : typed v t -> const_some v = Some (VSum 1 [v] [[]; [t]]).
Proof. intros H. unfold const_some, const_right_tuple. cbn [map]. rewrite (typed_type _ _ H). apply sum_ok with (row := [t]); [reflexivity|repeat constructor; assumption]. Qed.
Lemma none_ok t : const_none t = Some (VSum 0 [] [[]; [t]]).
Proof. apply sum_ok with (row := []); [reflexivity|constructor]. Qed.
Lemma ok_ok v t u : typed v t -> const_ok v u = Some (VSum 1 [v] [[u]; [t]]).
Proof. intros H. unfold const_ok, const_right_tuple. cbn [map]. rewrite (typed_type _ _ H). apply sum_ok with (row := [t]); [reflexivity|repeat constructor; assumption]. Qed.
Lemma fail_ok v t u : typed v t -> const_fail v u = Some (VSum 0 [v] [[t]; [u]]).
Proof. intros H. unfold const_fail, const_left_tuple. cbn [map]. rewrite (typed_type _ _ H). apply sum_ok with (row := [t]); [reflexivity|repeat constructor; assumption]. Qed.

Lemma typed_either tag v rows row : nth_error rows tag = Some [row] -> typed v row -> typed (VSum tag [v] rows) (new_sum rows).
Proof. intros H1 H2. eapply t_sum; [exact H1|]. repeat constructor. exact H2. Qed.
Lemma typed_nil tag rows : nth_error rows tag = Some [] -> typed (VSum tag [] rows) (new_sum rows).
Proof. intros H1. eapply t_sum; [exact H1|constructor]. Qed.

Ltac f2 := match goal with H : Forall2 _ _ _ |- _ => inversion H; subst; clear H end.
Lemma args_1 op v args : args_of op [v] args -> exists a, args = [a] /\ arg_of op v 0 a.
Proof. intros (L & H). destruct args as [|a [|]]; try discriminate L. exists a. split; [reflexivity|]. apply (H 0); reflexivity. Qed.
Lemma args_2 op v w args : args_of op [v; w] args -> exists a b, args = [a; b] /\ arg_of op v 0 a /\ arg_of op w 1 b.
Proof. intros (L & H). destruct args as [|a [|b [|]]]; try discriminate L. exists a, b. split; [reflexivity|]. split; [apply (H 0)|apply (H 1)]; reflexivity. Qed.
Lemma args_3 op v w u args : args_of op [v; w; u] args -> exists a b c, args = [a; b; c] /\ arg_of op v 0 a /\ arg_of op w 1 b /\ arg_of op u 2 c.
Proof. intros (L & H). destruct args as [|a [|b [|c [|]]]]; try discriminate L. exists a, b, c. split; [reflexivity|]. split; [apply (H 0)|split; [apply (H 1)|apply (H 2)]]; reflexivity. Qed.

Definition right_fold (op : list_op) (e : ty) (cs : list (Z * value)) (args : list (arg value)) (res_ty : list ty) : Prop :=
  exists outs rs, gives (list_fold op cs) outs /\ sem op args rs /\ Forall2 res_of outs rs /\ Forall2 typed outs res_ty.
Ltac start := unfold right_fold, gives, list_fold.
Ltac sorts P := rewrite (sorted_all _ _ P).
Ltac first_list H a := destruct a as [l|?|?]; cbn in H; try contradiction; destruct H as (t & ->).

Lemma pop_right e v args cs : typed v (list_type e) -> args_of Pop [v] args -> Permutation cs (ports_from 0 [v]) ->
  right_fold Pop e cs args (snd (list_signature Pop e)).
Proof.
  intros Hv Ha P. destruct (args_1 _ _ _ Ha) as (a & -> & H). first_list H a. apply list_inv in Hv. destruct Hv as (-> & Hv). start. sorts P.
  destruct (rev l) as [|x r] eqn:E.
  - apply (f_equal (@rev value)) in E. rewrite rev_involutive in E. subst l. rewrite none_ok. cbn. exists [VList [] e; VSum 0 [] [[]; [e]]], [OList []; ONone].
    split; [reflexivity|]. split; [constructor|]. split; [repeat constructor; cbn; eauto|]. constructor; [constructor; constructor|]. constructor; [|constructor]. apply typed_nil. reflexivity.
  - apply (f_equal (@rev value)) in E. rewrite rev_involutive in E. cbn in E. subst l. apply Forall_mid in Hv. destruct Hv as (Hr & Hx & _).
    rewrite (some_ok _ _ Hx). cbn. exists [VList (rev r) e; VSum 1 [x] [[]; [e]]], [OList (rev r); OSome x].
    split; [reflexivity|]. split; [constructor|]. split; [repeat constructor; cbn; eauto|]. constructor; [constructor; assumption|]. constructor; [|constructor]. eapply typed_either; [reflexivity|exact Hx].
Qed.
Lemma push_right e v w args cs : typed v (list_type e) -> typed w e -> args_of Push [v; w] args -> Permutation cs (ports_from 0 [v; w]) ->
  right_fold Push e cs args (snd (list_signature Push e)).
Proof.
  intros Hv Hw Ha P. destruct (args_2 _ _ _ _ Ha) as (a & b & -> & H & H'). first_list H a. apply list_inv in Hv. destruct Hv as (-> & Hv). start. sorts P.
  destruct b as [|i|x]; cbn in H'; try contradiction; [destruct H' as (H' & _); contradiction|]. destruct H' as (_ & <-).
  exists [VList (l ++ [w]) e], [OList (l ++ [w])]. split; [reflexivity|]. split; [constructor|]. split; [repeat constructor; cbn; eauto|]. constructor; [|constructor]. constructor. apply Forall_app. auto.
Qed.
Ltac index H' b := destruct b as [|i|x]; cbn in H'; try contradiction; [|destruct H' as (H' & _); discriminate H']; destruct H' as (_ & ->).
Lemma get_right e v w args cs : typed v (list_type e) -> args_of Get [v; w] args -> Permutation cs (ports_from 0 [v; w]) ->
  right_fold Get e cs args (snd (list_signature Get e)).
Proof.
  intros Hv Ha P. destruct (args_2 _ _ _ _ Ha) as (a & b & -> & H & H'). first_list H a. apply list_inv in Hv. destruct Hv as (-> & Hv). start. sorts P. index H' b.
  destruct (nth_error l (N.to_nat i)) as [x|] eqn:E.
  - destruct (nth_split_at _ _ _ E) as (p & q & -> & Hl). apply Forall_mid in Hv. destruct Hv as (_ & Hx & _). rewrite (some_ok _ _ Hx). cbn.
    exists [VSum 1 [x] [[]; [e]]], [OSome x]. split; [reflexivity|]. split; [constructor; lia|]. split; [repeat constructor; cbn; eauto|]. constructor; [|constructor]. eapply typed_either; [reflexivity|exact Hx].
  - apply nth_error_None in E. rewrite none_ok. cbn. exists [VSum 0 [] [[]; [e]]], [ONone]. split; [reflexivity|]. split; [constructor; lia|]. split; [repeat constructor; cbn; eauto|]. constructor; [|constructor]. apply typed_nil. reflexivity.
Qed.
Lemma set_right e v w u args cs : typed v (list_type e) -> typed u e -> args_of Set_ [v; w; u] args -> Permutation cs (ports_from 0 [v; w; u]) ->
  right_fold Set_ e cs args (snd (list_signature Set_ e)).
Proof.
  intros Hv Hu Ha P. destruct (args_3 _ _ _ _ _ Ha) as (a & b & c & -> & H & H' & H''). first_list H a. apply list_inv in Hv. destruct Hv as (-> & Hv). start. sorts P. index H' b.
  destruct c as [|?|z]; cbn in H''; try contradiction. subst z.
  destruct (nth_error l (N.to_nat i)) as [x|] eqn:E.
  - destruct (nth_split_at _ _ _ E) as (p & q & -> & Hl). apply Forall_mid in Hv. destruct Hv as (Hp & Hx & Hq). rewrite (ok_ok _ _ _ Hx). rewrite <- Hl, replace_split. cbn.
    exists [VList (p ++ u :: q) e; VSum 1 [x] [[e]; [e]]], [OList (p ++ u :: q); OOk x]. split; [reflexivity|]. split; [constructor; lia|]. split; [repeat constructor; cbn; eauto|].
    constructor; [constructor; apply Forall_app; split; [assumption|constructor; assumption]|]. constructor; [|constructor]. eapply typed_either; [reflexivity|exact Hx].
  - apply nth_error_None in E. rewrite (fail_ok _ _ _ Hu). cbn. exists [VList l e; VSum 0 [u] [[e]; [e]]], [OList l; OErr u]. split; [reflexivity|]. split; [constructor; lia|]. split; [repeat constructor; cbn; eauto|].
    constructor; [constructor; assumption|]. constructor; [|constructor]. eapply typed_either; [reflexivity|exact Hu].
Qed.
(** [Insert]: right when the index is out of bounds; otherwise right up to the success value, which is empty. *)
Lemma insert_right e v w u args cs : typed v (list_type e) -> typed u e -> args_of Insert [v; w; u] args -> Permutation cs (ports_from 0 [v; w; u]) ->
  right_fold Insert e cs args (snd (list_signature Insert e)) \/
  exists a y b, args = [AList (a ++ y :: b); AIndex (N.of_nat (length a)); AElem u] /\
                gives (list_fold Insert cs) [VList (a ++ u :: y :: b) e; VSum 1 [] [[e]; []]] /\ typed (VList (a ++ u :: y :: b) e) (list_type e).
Proof.
  intros Hv Hu Ha P. destruct (args_3 _ _ _ _ _ Ha) as (a & b & c & -> & H & H' & H''). first_list H a. apply list_inv in Hv. destruct Hv as (-> & Hv). start. sorts P. index H' b.
  destruct c as [|?|z]; cbn in H''; try contradiction. subst z. destruct (N.ltb_spec i (N.of_nat (length l))) as [Hi|Hi].
  - right. destruct (nth_error l (N.to_nat i)) as [x|] eqn:E; [|apply nth_error_None in E; lia]. destruct (nth_split_at _ _ _ E) as (p & q & -> & Hl).
    exists p, x, q. rewrite <- Hl, insert_split. replace i with (N.of_nat (length p)) by lia. split; [reflexivity|]. split; [reflexivity|]. constructor. apply Forall_app in Hv. apply Forall_app. split; [apply Hv|constructor; [assumption|apply Hv]].
  - left. rewrite (fail_ok _ _ _ Hu). cbn. exists [VList l e; VSum 0 [u] [[e]; [unit_t]]], [OList l; OErr u]. split; [reflexivity|]. split; [constructor; lia|]. split; [repeat constructor; cbn; eauto|].
    constructor; [constructor; assumption|]. constructor; [|constructor]. eapply typed_either; [reflexivity|exact Hu].
Qed.
