(** Theorems about the canonical renumbering (C24). *)
From Coq Require Import List Bool NArith Arith Lia Permutation.
From Verif Require Import GraphModel GraphSpec GraphProofs GraphRemove GraphBfs InsertSpec CanonModel CanonProofs.
Import ListNotations.

(** Full statement: also [h_meta h' (s n) = h_meta h n] for every node; false, see
    [canonicalize_metadata_refuted].  The renumbering never fails, is a bijection of the indices under
    which operations, ports, links, hierarchy with child order, root and entrypoint correspond, and the
    new indices are [0..n-1] in breadth-first order. *)
Theorem canonicalize_isomorphism_partial : forall O M (h : hugr O M), wf h ->
  exists h' calls s, canonicalize_nodes h = Some (h', calls) /\ wf h' /\
    (forall x y, s x = s y -> x = y) /\ (forall n, exists m, n = s m) /\
    (forall n, In n (h_nodes h') <-> (n < N.of_nat (length (h_nodes h)))%N) /\
    (forall n, In (s n) (h_nodes h') <-> In n (h_nodes h)) /\
    (forall n, h_ops h' (s n) = h_ops h n /\ h_in h' (s n) = h_in h n /\ h_out h' (s n) = h_out h n /\
               h_parent h' (s n) = option_map s (h_parent h n) /\ h_kids h' (s n) = map s (h_kids h n)) /\
    h_links h' = map (move_link s) (h_links h) /\
    h_root h' = s (h_root h) /\ h_root h' = 0%N /\ h_entry h' = s (h_entry h) /\
    descendants h' (h_root h') = map N.of_nat (seq 0 (length (h_nodes h))) /\
    (** The calls of the callback, read as exchanges of indices in order, give the renumbering. *)
    (forall n, s n = fold_left (fun n c => swapN (snd c) (fst c) n) calls n).
Proof.
  intros O M h W. destruct (canonicalize_spec h W) as (h' & calls & s & E & R & Hs & Ms & Rt & R0 & En & Me & Ds).
  assert (Onto : forall n, exists m, n = s m).
  { intros n. destruct (apply_calls_onto calls n) as (m & ->). exists m. now rewrite Hs. }
  assert (Wf : wf h') by (apply (renamed_wf h h' s); auto).
  assert (Hn : forall n, In (s n) (h_nodes h') <-> In n (h_nodes h)).
  { intros n. rewrite (rn_nodes _ _ _ R), in_map_iff. split; [intros (x & X & I); apply (rn_inj _ _ _ R) in X; now subst|]. intros I. exists n. auto. }
  exists h', calls, s. split; [exact E|]. split; [exact Wf|]. split; [apply (rn_inj _ _ _ R)|]. split; [exact Onto|]. split.
  { intros n. destruct (canonical_spec h' Wf) as (_ & Hi & _). rewrite <- Hi, Ds, in_map_iff. split.
    - intros (k & <- & I). apply in_seq in I. lia.
    - intros L. exists (N.to_nat n). split; [apply N2Nat.id|]. apply in_seq. lia. }
  split; [exact Hn|]. split.
  { intros n. split; [apply (rn_ops _ _ _ R)|]. split; [apply (rn_in _ _ _ R)|]. split; [apply (rn_out _ _ _ R)|]. split; [apply (rn_parent _ _ _ R)|apply (rn_kids _ _ _ R)]. }
  split; [apply (rn_links _ _ _ R)|]. split; [exact Rt|]. split; [congruence|]. split; [exact En|]. split; [exact Ds|exact Hs].
Qed.
Print Assumptions canonicalize_isomorphism_partial.

(** Renumbering again changes nothing. *)
Theorem canonicalize_stable : forall O M (h h' : hugr O M) calls, wf h -> canonicalize_nodes h = Some (h', calls) ->
  canonicalize_nodes h' = Some (h', []).
Proof.
  intros O M h h' calls W E. destruct (canonicalize_isomorphism_partial O M h W) as (h1 & calls1 & s & E1 & Wf & _ & _ & Hn & _ & _ & _ & _ & R0 & _ & Ds & _).
  rewrite E in E1. injection E1 as <- <-. clear E. rewrite R0 in Ds. unfold canonicalize_nodes. rewrite R0, Ds.
  set (n := length (h_nodes h)) in *.
  assert (G : forall j k e, j + k = n ->
    canon_loop (map N.of_nat (seq 0 n)) (map N.of_nat (seq j k)) (N.of_nat j) h' e [] =
    Some (h', if (N.of_nat j <=? h_entry h')%N && (h_entry h' <? N.of_nat n)%N then Some (h_entry h') else e, [])).
  { intros j k. revert j. induction k as [|k IH]; intros j e L.
    - cbn. destruct (N.leb_spec (N.of_nat j) (h_entry h')), (N.ltb_spec (h_entry h') (N.of_nat n)); try reflexivity. lia.
    - cbn [seq map canon_loop]. cbn [chase]. rewrite N.ltb_irrefl, N.eqb_refl.
      replace (N.of_nat j + 1)%N with (N.of_nat (S j)) by lia. rewrite IH by lia.
      destruct (N.eqb_spec (N.of_nat j) (h_entry h')), (N.leb_spec (N.of_nat (S j)) (h_entry h')), (N.leb_spec (N.of_nat j) (h_entry h')), (N.ltb_spec (h_entry h') (N.of_nat n)); cbn [andb]; try reflexivity; try lia; congruence. }
  change 0%N with (N.of_nat 0) at 1. rewrite (G 0 n None eq_refl).
  assert (Le : (h_entry h' < N.of_nat n)%N) by (apply Hn; apply (wf_entry h' Wf)). apply N.ltb_lt in Le. rewrite Le. cbn [N.leb N.of_nat andb].
  destruct (N.leb_spec 0 (h_entry h')); [|lia]. cbn [andb rev]. f_equal. f_equal. destruct h'. cbn in R0 |- *. now subst.
Qed.
Print Assumptions canonicalize_stable.

Definition built (acts : list (act (O := nat) (M := nat))) : option (hugr nat nat) :=
  run 0 (fun k => k) (fun k => k) (new_hugr 0 0) acts.

(** The metadata stays at the old indices: here the metadata of one node ends up on another one. *)
Theorem canonicalize_metadata_refuted : exists (h h' : hugr nat nat) calls,
  built [AddChild 2 0 1; AddChild 1 0 2; WriteMeta 2 7] = Some h /\ canonicalize_nodes h = Some (h', calls) /\
  (** node 2 with operation 1 and metadata 7 comes first and becomes node 1, without metadata *)
  h_ops h 2 = 1 /\ h_meta h 2 = Some 7 /\ h_meta h 1 = None /\
  h_kids h' 0 = [1; 2]%N /\ h_ops h' 1 = 1 /\ h_meta h' 1 = None /\ h_ops h' 2 = 2 /\ h_meta h' 2 = Some 7.
Proof. eexists _, _, _. split; [vm_compute; reflexivity|]. split; [vm_compute; reflexivity|]. repeat split. Qed.
Print Assumptions canonicalize_metadata_refuted.

(** "The rekey function is called for each moved node with the old and new indices" (hugr.rs:352): the
    first index of a call need not be the old index of the node that ends up at the second one. *)
Theorem canonicalize_rekey_refuted : exists (h h' : hugr nat nat) calls,
  built [AddChild 3 0 3; AddChild 1 0 1; AddChild 2 0 2] = Some h /\ canonicalize_nodes h = Some (h', calls) /\
  calls = [(3, 1); (3, 2)]%N /\
  (** node 1 becomes node 2, and node 2 becomes node 3; neither is reported *)
  h_kids h 0 = [3; 1; 2]%N /\ h_kids h' 0 = [1; 2; 3]%N /\ h_ops h' 2 = h_ops h 1 /\ h_ops h 3 <> h_ops h' 2 /\
  h_ops h' 3 = h_ops h 2.
Proof. eexists _, _, _. split; [vm_compute; reflexivity|]. split; [vm_compute; reflexivity|]. repeat split. cbn. discriminate. Qed.
Print Assumptions canonicalize_rekey_refuted.

(** A gap, a cycle, a nested region, links and an entrypoint that is not the root. *)
Example canonicalize_nonvacuous : exists h h' calls,
  built [AddChild 5 0 2; AddChild 2 0 2; AddChild 7 5 1; AddChild 1 2 3; AddBeside false 3 2 1; SetEntry 7;
         Connect 7 0 1 2; Connect 3 0 2 1] = Some h /\
  canonicalize_nodes h = Some (h', calls) /\
  h_kids h 0 = [5; 3; 2]%N /\ h_kids h' 0 = [1; 2; 3]%N /\ h_kids h' 1 = [4]%N /\ h_kids h' 3 = [5]%N /\
  map (h_ops h') [0; 1; 2; 3; 4; 5]%N = [0; 2; 1; 2; 1; 3] /\ h_entry h' = 4%N /\
  h_links h' = [((4%N, 0), (5%N, 2)); ((2%N, 0), (3%N, 1))].
Proof. eexists _, _, _. split; [vm_compute; reflexivity|]. split; [vm_compute; reflexivity|]. repeat split. Qed.
