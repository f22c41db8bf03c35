(** Lemmas about serial HUGRs. *)
From Coq Require Import List Bool NArith Arith Lia Permutation.
From Verif Require Import Graphs TypesModel TypesProofs GraphModel GraphSpec GraphProofs GraphRemove GraphBfs InsertSpec InsertModel InsertProofs
  OpModel OpSpec OpProofs SeqProofs OpProps CanonProofs SerialModel SerialSpec.
Import ListNotations.

Lemma nth_ext' : forall {A} (l m : list A), (forall i, nth_error l i = nth_error m i) -> l = m.
Proof.
  intros A. induction l as [|x l IH]; intros [|y m] H; [reflexivity|discriminate (H 0)|discriminate (H 0)|].
  pose proof (H 0) as E. injection E as ->. f_equal. apply IH. intros i. exact (H (S i)).
Qed.

Lemma position_nth : forall l n k i, NoDup l -> nth_error l k = Some n -> position n l i = Some (i + N.of_nat k)%N.
Proof.
  induction l as [|m l IH]; intros n k i D E; [destruct k; discriminate|]. inversion D as [|? ? Nm D']; subst. cbn [position].
  destruct k as [|k].
  - injection E as ->. rewrite N.eqb_refl. f_equal. lia.
  - cbn in E. destruct (N.eqb_spec m n) as [->|]; [exfalso; apply Nm; eapply nth_error_In; eassumption|].
    rewrite (IH n k (i + 1)%N D' E). f_equal. lia.
Qed.

Lemma put_spec : forall {A} i (a : A) l, i < length l -> exists l', put i a l = Some l' /\ length l' = length l /\
  forall k, nth_error l' k = if Nat.eqb k i then Some a else nth_error l k.
Proof.
  intros A. induction i as [|i IH]; intros a [|b l] L; cbn in L; try lia.
  - eexists. split; [reflexivity|]. split; [reflexivity|]. intros [|k]; reflexivity.
  - destruct (IH a l) as (l' & E & Len & N); [lia|]. cbn [put]. rewrite E. eexists. split; [reflexivity|]. split; [cbn; lia|].
    intros [|k]; [reflexivity|]. exact (N k).
Qed.

Lemma all_some_map_Some : forall {A B} (f : A -> option B) (g : A -> B) (l : list A), (forall x, In x l -> f x = Some (g x)) ->
  all_some (map f l) = Some (map g l).
Proof.
  intros A B f g l H. apply all_some_Forall2. induction l as [|x l IH]; constructor.
  - apply H. now left.
  - apply IH. intros y I. apply H. now right.
Qed.

(** A port whose offset is not written is the one that is assumed when reading. *)
Lemma dropped_offset : forall o d i, i < port_count o d -> keeps_offset o d i = false -> other_port (ser_op o) d = Some i.
Proof.
  intros o d i L K. unfold keeps_offset in K. apply orb_false_iff in K. destruct K as [K K3]. apply orb_false_iff in K. destruct K as [K1 K2].
  apply negb_false_iff in K3. apply Nat.ltb_ge in K1.
  assert (S : other_port (ser_op o) d = other_port o d) by (destruct o; reflexivity). rewrite S.
  destruct (other_port_kind o d) as [[]|] eqn:Ok; try discriminate. unfold other_port. rewrite Ok. cbn [is_some andb].
  unfold port_count in L. unfold static_port in K2.
  assert (Nd : non_df_port_count o d = 1).
  { destruct o; cbn in *; try reflexivity; try discriminate; destruct d; try reflexivity; discriminate. }
  rewrite Nd in *. cbn [Nat.leb]. f_equal. destruct (static_port_kind o d) as [k|] eqn:Sk.
  - apply Nat.eqb_neq in K2. cbn [is_some Nat.b2n] in L. destruct d.
    + replace (within TagModel.TStaticInput (op_tag o)) with true; [cbn [Nat.b2n]; lia|]. destruct o; try discriminate; reflexivity.
    + exfalso. destruct o; discriminate.
  - cbn [is_some Nat.b2n] in L. destruct d; [|cbn [Nat.b2n]; lia].
    replace (within TagModel.TStaticInput (op_tag o)) with false; [cbn [Nat.b2n]; lia|]. destruct o; try discriminate; reflexivity.
Qed.

Lemma ser_op_ports : forall o, in_count (ser_op o) = in_count o /\ out_count (ser_op o) = out_count o.
Proof. intros []; split; reflexivity. Qed.

Section Roundtrip.
  Context {M : Type}.
  Notation hugr := (hugr op M).
  Variable h : hugr.
  Hypothesis W : wf h.
  Hypothesis PM : ports_match h.

  Let order := descendants h (h_root h).
  Definition place (n : N) : N := match rekey h n with Some i => i | None => 0%N end.

  Lemma order_nodup : NoDup order.
  Proof. apply (canonical_spec h W). Qed.
  Lemma order_in : forall n, In n order <-> In n (h_nodes h).
  Proof. apply (canonical_spec h W). Qed.
  Lemma order_len : length order = length (h_nodes h).
  Proof. apply Permutation_length. apply (canonical_spec h W). Qed.

  Lemma rekey_at : forall k n, nth_error order k = Some n -> rekey h n = Some (N.of_nat k).
  Proof. intros k n E. unfold rekey. rewrite (position_nth (descendants h (h_root h)) n k 0%N order_nodup E). reflexivity. Qed.
  Lemma place_at : forall k n, nth_error order k = Some n -> place n = N.of_nat k.
  Proof. intros k n E. unfold place. now rewrite (rekey_at k n E). Qed.
  Lemma rekey_live : forall n, In n (h_nodes h) -> rekey h n = Some (place n) /\ exists k, nth_error order k = Some n /\ place n = N.of_nat k.
  Proof.
    intros n I. apply order_in in I. apply In_nth_error in I. destruct I as [k E]. unfold place. rewrite (rekey_at k n E). eauto.
  Qed.
  Lemma place_inj : forall a b, In a (h_nodes h) -> In b (h_nodes h) -> place a = place b -> a = b.
  Proof.
    intros a b A B E. destruct (rekey_live a A) as (_ & i & Ei & Pi). destruct (rekey_live b B) as (_ & j & Ej & Pj).
    assert (i = j) by lia. subst. congruence.
  Qed.

  Definition parent_or_self (n : N) : N := match get_parent h n with Some p => p | None => n end.
  Definition node_of (n : N) : nodeser := {| ns_parent := place (parent_or_self n); ns_op := ser_op (h_ops h n) |}.

  Lemma get_parent_live : forall n, In n (h_nodes h) -> get_parent h n = h_parent h n.
  Proof.
    intros n I. unfold get_parent, contains. rewrite (proj2 (memN_iff _ _) I). cbn [andb].
    destruct (N.eqb_spec n (h_root h)) as [->|]; [|reflexivity]. now rewrite (wf_top h W).
  Qed.
  Lemma parent_or_self_live : forall n, In n (h_nodes h) -> In (parent_or_self n) (h_nodes h).
  Proof.
    intros n I. unfold parent_or_self. rewrite get_parent_live by exact I. destruct (h_parent h n) as [p|] eqn:E; [|exact I].
    apply (wf_parent_live h W n p E).
  Qed.

  Lemma fill_spec : forall todo ns ms, (forall n, In n todo -> In n (h_nodes h)) -> length ns = length order -> length ms = length order ->
    exists ns' ms', fill h todo ns ms = Some (ns', ms') /\ length ns' = length order /\ length ms' = length order /\
      forall k n, nth_error order k = Some n ->
        nth_error ns' k = (if memN n todo then Some (Some (node_of n)) else nth_error ns k) /\
        nth_error ms' k = (if memN n todo then Some (h_meta h n) else nth_error ms k).
  Proof.
    induction todo as [|n todo IH]; intros ns ms H Ln Lm.
    - exists ns, ms. repeat split; auto.
    - cbn [fill]. assert (I : In n (h_nodes h)) by (apply H; now left).
      fold (parent_or_self n). destruct (rekey_live _ (parent_or_self_live n I)) as [-> _]. destruct (rekey_live n I) as (-> & k & Ek & Pk).
      assert (Lk : k < length order) by (apply nth_error_Some; congruence). rewrite Pk, Nat2N.id.
      destruct (put_spec k (Some {| ns_parent := place (parent_or_self n); ns_op := ser_op (h_ops h n) |}) ns) as (ns1 & -> & L1 & N1); [lia|].
      destruct (put_spec k (h_meta h n) ms) as (ms1 & -> & L2 & N2); [lia|].
      destruct (IH ns1 ms1) as (ns' & ms' & E & La & Lb & R); [intros m J; apply H; now right|lia|lia|].
      exists ns', ms'. repeat split; auto; destruct (R _ _ H0) as [R1 R2].
      + rewrite R1, N1, memN_cons. destruct (memN n0 todo); [now rewrite orb_true_r|]. rewrite orb_false_r.
        destruct (Nat.eqb_spec k0 k) as [->|Ne].
        * assert (n0 = n) by congruence. subst. now rewrite N.eqb_refl.
        * destruct (N.eqb_spec n0 n) as [->|]; [|reflexivity]. exfalso. apply Ne.
          apply (proj1 (NoDup_nth_error order) order_nodup); [apply nth_error_Some; congruence|congruence].
      + rewrite R2, N2, memN_cons. destruct (memN n0 todo); [now rewrite orb_true_r|]. rewrite orb_false_r.
        destruct (Nat.eqb_spec k0 k) as [->|Ne].
        * assert (n0 = n) by congruence. subst. now rewrite N.eqb_refl.
        * destruct (N.eqb_spec n0 n) as [->|]; [|reflexivity]. exfalso. apply Ne.
          apply (proj1 (NoDup_nth_error order) order_nodup); [apply nth_error_Some; congruence|congruence].
  Qed.

  (** What is written. *)
  Definition edge_of (l : link) : (N * option nat) * (N * option nat) :=
    let off e d := if keeps_offset (h_ops h (fst e)) d (snd e) then Some (snd e) else None in
    ((place (fst (fst l)), off (fst l) Out), (place (fst (snd l)), off (snd l) Inc)).

  Lemma listed_perm : Permutation (listed h) (h_links h).
  Proof.
    assert (E : listed h = flat_map (links_out h) (h_nodes h)).
    { unfold listed. apply flat_map_ext. intros n. unfold links_out. apply flat_map_ext. intros i. unfold linked_inputs. rewrite map_map.
      unfold at_port. induction (h_links h) as [|[a b] ls IH]; [reflexivity|]. cbn [filter fst]. destruct (ep_eqb a (n, i)) eqn:Ep; [|exact IH].
      cbn [map snd]. apply ep_eqb_iff in Ep. now rewrite IH, Ep. }
    rewrite E. clear E.
    assert (G : forall ns, NoDup ns -> Permutation (flat_map (links_out h) ns) (filter (fun l => memN (fst (fst l)) ns) (h_links h))).
    { induction ns as [|n ns IH]; intros D.
      - cbn [flat_map]. replace (filter _ _) with (@nil link); [constructor|]. induction (h_links h); auto.
      - inversion D as [|? ? Nn D']; subst. cbn [flat_map].
        eapply Permutation_trans; [apply Permutation_app; [apply (links_out_perm h W)|apply (IH D')]|].
        eapply Permutation_trans; [apply Permutation_sym, filter_or|].
        + intros l _ El. apply N.eqb_eq in El. rewrite El. now apply memN_false.
        + apply Permutation_refl'. apply filter_ext. intros l. now rewrite memN_cons. }
    eapply Permutation_trans; [apply G, (wf_nodup h W)|]. apply Permutation_refl'.
    assert (X : forall ls : list link, (forall l : link, In l ls -> In (fst (fst l)) (h_nodes h)) -> filter (fun l : link => memN (fst (fst l)) (h_nodes h)) ls = ls).
    { induction ls as [|l ls IH]; intros Hl; [reflexivity|]. cbn [filter]. rewrite (proj2 (memN_iff _ _) (Hl l (or_introl eq_refl))). f_equal.
      apply IH. intros x I. apply Hl. now right. }
    apply X. intros l I. apply (wf_links h W l I).
  Qed.

  Lemma encode_spec : encode h = Some {| s_nodes := map node_of order; s_edges := map edge_of (listed h);
                                         s_meta := Some (map (h_meta h) order); s_entry := Some (place (h_entry h)) |}.
  Proof.
    unfold encode. destruct (fill_spec (h_nodes h) (repeat None (length (h_nodes h))) (repeat None (length (h_nodes h)))) as (ns & ms & -> & Ln & Lm & R);
      [auto|now rewrite repeat_length, order_len|now rewrite repeat_length, order_len|].
    assert (Es : ns = map (fun n => Some (node_of n)) order).
    { apply nth_ext'. intros k. rewrite nth_error_map. destruct (nth_error order k) as [n|] eqn:E.
      - cbn [option_map]. rewrite (proj1 (R k n E)). assert (I : In n (h_nodes h)) by (apply order_in; eapply nth_error_In; exact E).
        now rewrite (proj2 (memN_iff _ _) I).
      - apply nth_error_None in E. apply nth_error_None. lia. }
    assert (Em : ms = map (h_meta h) order).
    { apply nth_ext'. intros k. rewrite nth_error_map. destruct (nth_error order k) as [n|] eqn:E.
      - cbn [option_map]. rewrite (proj2 (R k n E)). assert (I : In n (h_nodes h)) by (apply order_in; eapply nth_error_In; exact E).
        now rewrite (proj2 (memN_iff _ _) I).
      - apply nth_error_None in E. apply nth_error_None. lia. }
    rewrite Es, Em, (all_some_map_Some _ node_of) by auto.
    rewrite (all_some_map_Some (edge h) edge_of).
    - now destruct (rekey_live _ (wf_entry h W)) as [-> _].
    - intros l I. apply (Permutation_in _ listed_perm) in I. destruct (wf_links h W l I) as [[A _] [B _]].
      unfold edge, find_offset, edge_of. destruct (rekey_live _ A) as [-> _]. destruct (rekey_live _ B) as [-> _]. reflexivity.
  Qed.

  (** ** The loop that adds the nodes *)
  Record filled (k : nat) (g : hugr) : Prop := {
    fi_wf : wf g;
    fi_dense : dense g;
    fi_len : length (h_nodes g) = k;
    fi_ops : forall i n, i < k -> nth_error order i = Some n -> h_ops g (N.of_nat i) = ser_op (h_ops h n);
    fi_in : forall i n, i < k -> nth_error order i = Some n -> h_in g (N.of_nat i) = h_in h n;
    fi_out : forall i n, i < k -> nth_error order i = Some n -> h_out g (N.of_nat i) = h_out h n;
    fi_parent : forall i n, i < k -> nth_error order i = Some n -> h_parent g (N.of_nat i) = option_map place (h_parent h n);
    fi_kids : forall i n, i < k -> nth_error order i = Some n ->
      h_kids g (N.of_nat i) = map place (filter (fun c => opt_is (h_parent h c) n) (firstn k order));
    fi_links : h_links g = [];
    fi_root : h_root g = 0%N;
    fi_meta : forall n, h_meta g n = None }.

  Lemma parent_first : forall k n p, nth_error order k = Some n -> h_parent h n = Some p -> exists i, i < k /\ nth_error order i = Some p.
  Proof.
    intros k n p E P. destruct (wf_parent_live h W n p P) as (In_ & Ip & _).
    pose proof (descendants_before h W (h_root h) p n (wf_root h W) (wf_reach h W p Ip) P) as (l1 & l2 & l3 & El). fold order in El.
    exists (length l1). assert (Ek : k = length l1 + S (length l2)).
    { apply (proj1 (NoDup_nth_error order) order_nodup); [apply nth_error_Some; congruence|]. rewrite E, El.
      rewrite nth_error_app2 by lia. replace (length l1 + S (length l2) - length l1) with (S (length l2)) by lia. cbn [nth_error].
      rewrite nth_error_app2 by lia. now rewrite Nat.sub_diag. }
    split; [lia|]. rewrite El, nth_error_app2 by lia. now rewrite Nat.sub_diag.
  Qed.

  Lemma order_head : nth_error order 0 = Some (h_root h).
  Proof. unfold order. destruct (canonical_head h W) as [l ->]. reflexivity. Qed.

  Lemma firstn_snoc : forall {A} (l : list A) k x, nth_error l k = Some x -> firstn (S k) l = firstn k l ++ [x].
  Proof.
    intros A. induction l as [|y l IH]; intros [|k] x E; try discriminate.
    - injection E as ->. reflexivity.
    - cbn in E. change (firstn (S (S k)) (y :: l)) with (y :: firstn (S k) l). rewrite (IH k x E). reflexivity.
  Qed.
  Lemma In_firstn : forall {A} (l : list A) k x, In x (firstn k l) -> exists i, i < k /\ nth_error l i = Some x.
  Proof.
    intros A l k. revert l. induction k as [|k IH]; intros [|y l] x I; cbn [firstn In] in I; try contradiction. destruct I as [<-|I].
    - exists 0. split; [lia|reflexivity].
    - destruct (IH l x I) as (i & L & E). exists (S i). split; [lia|exact E].
  Qed.

  (** A child is never listed before its parent. *)
  Lemma no_early_child : forall k n, nth_error order k = Some n -> filter (fun c => opt_is (h_parent h c) n) (firstn (S k) order) = [].
  Proof.
    intros k n E. destruct (filter _ _) as [|c l] eqn:F; [reflexivity|]. exfalso.
    assert (I : In c (filter (fun c => opt_is (h_parent h c) n) (firstn (S k) order))) by (rewrite F; now left).
    apply filter_In in I. destruct I as [I P]. apply opt_is_iff in P. apply In_firstn in I. destruct I as (i & L & Ei).
    destruct (parent_first i c n Ei P) as (j & Lj & Ej).
    assert (j = k); [|lia]. apply (proj1 (NoDup_nth_error order) order_nodup); [apply nth_error_Some; congruence|congruence].
  Qed.

  Lemma filled_start : h_ops h (h_root h) = OModule -> filled 1 (new_hugr OModule 0).
  Proof.
    intros R. assert (P1 : forall i n, i < 1 -> nth_error order i = Some n -> i = 0 /\ n = h_root h).
    { intros i n L E. assert (i = 0) by lia. subst. rewrite order_head in E. injection E as <-. auto. }
    pose proof (PM _ (wf_root h W)) as [Pi Po]. rewrite R in Pi, Po. constructor; try reflexivity.
    - apply (new_wf OModule).
    - apply new_dense.
    - intros i n L E. destruct (P1 i n L E) as [-> ->]. now rewrite R.
    - intros i n L E. destruct (P1 i n L E) as [-> ->]. now rewrite Pi.
    - intros i n L E. destruct (P1 i n L E) as [-> ->]. now rewrite Po.
    - intros i n L E. destruct (P1 i n L E) as [-> ->]. now rewrite (wf_top h W).
    - intros i n L E. destruct (P1 i n L E) as [-> ->]. now rewrite (no_early_child 0 _ order_head).
  Qed.

  Lemma filled_step : forall k g x, filled k g -> 1 <= k -> nth_error order k = Some x ->
    exists g', add_next g (ns_parent (node_of x) + 0)%N (ns_op (node_of x)) = Some g' /\ filled (S k) g'.
  Proof.
    intros k g x F Lk Ex. assert (Ix : In x (h_nodes h)) by (apply order_in; eapply nth_error_In; exact Ex).
    assert (Nr : x <> h_root h).
    { intros ->. assert (k = 0); [|lia]. apply (proj1 (NoDup_nth_error order) order_nodup); [apply nth_error_Some; congruence|].
      now rewrite Ex, order_head. }
    destruct (wf_parent h W x Ix Nr) as (p & P & Ip). destruct (parent_first k x p Ex P) as (j & Lj & Ej).
    assert (Ens : ns_parent (node_of x) = N.of_nat j).
    { cbn [node_of ns_parent]. unfold parent_or_self. rewrite get_parent_live by exact Ix. rewrite P. now apply place_at. }
    rewrite Ens, N.add_0_r. cbn [ns_op node_of].
    assert (Nx : next_index g = N.of_nat k) by (unfold next_index; now rewrite (fi_len k g F)).
    destruct (add_next_spec g (N.of_nat j) (ser_op (h_ops h x))) as (g' & Eg & A); [apply F|apply F| |].
    { apply (fi_dense k g F). rewrite Nx. lia. }
    exists g'. split; [exact Eg|].
    assert (Cases : forall i n, i < S k -> nth_error order i = Some n -> (i = k /\ n = x) \/ (i < k /\ N.of_nat i <> N.of_nat k)).
    { intros i n Li E. destruct (Nat.eq_dec i k) as [->|]; [left; split; congruence|right; lia]. }
    constructor; try apply A.
    - rewrite (ad_nodes _ _ _ _ A). cbn [length]. f_equal. apply F.
    - intros i n Li E. rewrite (ad_ops _ _ _ _ A), Nx. destruct (Cases i n Li E) as [[-> ->]|[Lt Ne]]; [apply upd_same|].
      rewrite upd_other by exact Ne. now apply (fi_ops k g F).
    - intros i n Li E. rewrite (ad_in _ _ _ _ A), Nx. destruct (Cases i n Li E) as [[-> ->]|[Lt Ne]].
      + rewrite upd_same. rewrite (proj1 (PM x Ix)). apply ser_op_ports.
      + rewrite upd_other by exact Ne. now apply (fi_in k g F).
    - intros i n Li E. rewrite (ad_out _ _ _ _ A), Nx. destruct (Cases i n Li E) as [[-> ->]|[Lt Ne]].
      + rewrite upd_same. rewrite (proj2 (PM x Ix)). apply ser_op_ports.
      + rewrite upd_other by exact Ne. now apply (fi_out k g F).
    - intros i n Li E. rewrite (ad_parent _ _ _ _ A), Nx. destruct (Cases i n Li E) as [[-> ->]|[Lt Ne]].
      + rewrite upd_same, P. cbn [option_map]. now rewrite (place_at j p Ej).
      + rewrite upd_other by exact Ne. now apply (fi_parent k g F).
    - intros i n Li E. rewrite (ad_kids _ _ _ _ A), Nx. destruct (Cases i n Li E) as [[-> ->]|[Lt Ne]].
      + rewrite upd_other by lia. rewrite (no_early_child k x Ex). cbn [map]. apply (wf_unused g (fi_wf k g F)).
        intros I. apply (fi_dense k g F) in I. rewrite Nx in I. lia.
      + rewrite (firstn_snoc order k x Ex), filter_app, map_app. cbn [filter].
        destruct (Nat.eq_dec i j) as [->|Nj].
        * rewrite upd_same. assert (n = p) by congruence. subst n. rewrite (proj2 (opt_is_iff _ _) P). cbn [map].
          rewrite (fi_kids k g F j p Lj Ej), (place_at k x Ex). reflexivity.
        * rewrite upd_other by lia. destruct (opt_is (h_parent h x) n) eqn:O.
          -- exfalso. apply Nj. apply opt_is_iff in O. assert (n = p) by congruence. subst.
             apply (proj1 (NoDup_nth_error order) order_nodup); [apply nth_error_Some; congruence|congruence].
          -- cbn [map]. rewrite app_nil_r. now apply (fi_kids k g F).
    - rewrite (ad_links _ _ _ _ A). apply F.
    - rewrite (ad_root _ _ _ _ A). apply F.
    - intros n. rewrite (ad_meta _ _ _ _ A). apply F.
  Qed.

  Lemma add_rest_spec : forall todo done g, order = done ++ todo -> 1 <= length done -> filled (length done) g ->
    exists g', add_rest 0 g (map node_of todo) = Some g' /\ filled (length order) g'.
  Proof.
    induction todo as [|x todo IH]; intros done g E L F.
    - rewrite app_nil_r in E. exists g. split; [reflexivity|]. now rewrite E.
    - cbn [map add_rest]. destruct (filled_step (length done) g x F L) as (g1 & E1 & F1).
      { rewrite E, nth_error_app2 by lia. now rewrite Nat.sub_diag. }
      rewrite E1. apply (IH (done ++ [x])); [rewrite E, <- app_assoc; reflexivity|rewrite app_length; lia|].
      rewrite app_length, Nat.add_1_r. exact F1.
  Qed.

  (** ** Metadata *)
  Lemma add_meta_spec : forall ms (g : hugr) b, exists mm, add_meta g b ms = set_meta g mm /\
    forall n, mm n = match nth_error ms (N.to_nat (n - b)) with
                     | Some (Some m) => if N.leb b n then Some m else h_meta g n
                     | _ => h_meta g n end.
  Proof.
    induction ms as [|m ms IH]; intros g b.
    - exists (h_meta g). split; [now destruct g|]. intros n. now destruct (N.to_nat (n - b)).
    - cbn [add_meta]. destruct (IH (match m with Some _ => set_meta g (upd (h_meta g) b m) | None => g end) (b + 1)%N) as (mm & E & H).
      exists mm. split; [rewrite E; now destruct m|]. intros n. rewrite H. clear E H IH.
      destruct (N.eq_dec n b) as [->|Ne].
      + rewrite N.sub_diag. cbn [N.to_nat nth_error]. replace (N.leb (b + 1) b) with false by (symmetry; apply N.leb_gt; lia).
        rewrite N.leb_refl. destruct m as [m|]; [|now destruct (nth_error ms _) as [[]|]].
        cbn [h_meta set_meta]. rewrite upd_same. now destruct (nth_error ms _) as [[]|].
      + assert (Hm : h_meta (match m with Some _ => set_meta g (upd (h_meta g) b m) | None => g end) n = h_meta g n).
        { destruct m as [m|]; [|reflexivity]. cbn [h_meta set_meta]. now apply upd_other. }
        rewrite Hm. destruct (N.leb_spec b n) as [L|L].
        * replace (N.to_nat (n - b)) with (S (N.to_nat (n - (b + 1)))) by lia. cbn [nth_error].
          replace (N.leb (b + 1) n) with true by (symmetry; apply N.leb_le; lia). reflexivity.
        * replace (N.leb (b + 1) n) with false by (symmetry; apply N.leb_gt; lia).
          now destruct (nth_error ms _) as [[]|], (nth_error (m :: ms) _) as [[]|].
  Qed.

  (** ** Edges *)
  Lemma add_edges_spec : forall ls (g : hugr), (forall l, In l ls -> In l (h_links h)) ->
    (forall n, In n (h_nodes h) -> In (place n) (h_nodes g) /\ h_ops g (place n) = ser_op (h_ops h n) /\
               h_in g (place n) = h_in h n /\ h_out g (place n) = h_out h n) ->
    add_edges 0 g (map edge_of ls) = DOk (set_links g (h_links g ++ map (move_link place) ls)).
  Proof.
    induction ls as [|l ls IH]; intros g Sub G.
    - cbn [map add_edges]. rewrite app_nil_r. now destruct g.
    - destruct l as [[s i] [t j]]. pose proof (Sub _ (or_introl eq_refl)) as I. destruct (wf_links h W _ I) as [[Is Li] [It Lj]].
      cbn [fst snd] in *. destruct (G s Is) as (Gs & Os & _ & Us). destruct (G t It) as (Gt & Ot & Ut & _).
      assert (Un : forall n d k, In n (h_nodes h) -> k < port_count (h_ops h n) d ->
                unwrap_offset g (place n) (if keeps_offset (h_ops h n) d k then Some k else None) d = DOk k).
      { intros n d k Jn Lk. destruct (G n Jn) as (Gn & On & _). unfold unwrap_offset, contains. rewrite (proj2 (memN_iff _ _) Gn).
        destruct (keeps_offset (h_ops h n) d k) eqn:K; [reflexivity|]. now rewrite On, (dropped_offset _ _ _ Lk K). }
      cbn [map add_edges edge_of fst snd]. rewrite !N.add_0_r.
      rewrite Un by (auto; rewrite <- (proj2 (PM s Is)) in Li || idtac; pose proof (proj2 (PM s Is)) as X; unfold out_count in X; lia).
      rewrite Un by (auto; pose proof (proj1 (PM t It)) as X; unfold in_count in X; lia).
      unfold connect, valid_port, contains. cbn [num_ports].
      rewrite (proj2 (memN_iff _ _) Gs), (proj2 (memN_iff _ _) Gt), Us, Ut, (proj2 (Nat.ltb_lt _ _) Li), (proj2 (Nat.ltb_lt _ _) Lj). cbn [andb].
      rewrite IH; [|intros l J; apply Sub; now right|exact G]. cbn [set_links h_links h_nodes h_ops h_meta h_in h_out h_parent h_kids h_root h_entry].
      now rewrite <- app_assoc.
  Qed.

  Theorem roundtrip : forall main, h_ops h (h_root h) = OModule ->
    exists s h', encode h = Some s /\ decode main s = DOk h' /\ same_graph place ser_op h h' /\ wf h' /\
      h_links h' = map (move_link place) (listed h) /\
      (forall k n, nth_error (descendants h (h_root h)) k = Some n -> place n = N.of_nat k) /\
      (forall n, ~ In n (h_nodes h') -> h_meta h' n = None).
  Proof.
    intros main R. eexists. rewrite encode_spec.
    assert (Eo : exists rest, order = h_root h :: rest) by apply (canonical_head h W). destruct Eo as [rest Eo].
    destruct (add_rest_spec rest [h_root h] (new_hugr OModule 0)) as (g & Eg & F); [exact Eo|cbn; lia|now apply filled_start|].
    assert (Live : forall n, In n (h_nodes h) -> exists k, nth_error order k = Some n /\ k < length order /\ place n = N.of_nat k).
    { intros n I. destruct (rekey_live n I) as (_ & k & E & P). exists k. split; [exact E|]. split; [apply nth_error_Some; congruence|exact P]. }
    assert (Nx : next_index g = N.of_nat (length order)) by (unfold next_index; now rewrite (fi_len _ _ F)).
    assert (Gn : forall n, In n (h_nodes h) -> In (place n) (h_nodes g)).
    { intros n I. destruct (Live n I) as (k & _ & L & ->). apply (fi_dense _ _ F). rewrite Nx. lia. }
    destruct (add_meta_spec (map (h_meta h) order) (set_entry g (place (h_entry h))) 0%N) as (mm & Em & Hm).
    assert (Ed : decode main {| s_nodes := map node_of order; s_edges := map edge_of (listed h);
                   s_meta := Some (map (h_meta h) order); s_entry := Some (place (h_entry h)) |} =
                 DOk (set_links (set_meta (set_entry g (place (h_entry h))) mm) (map (move_link place) (listed h)))).
    { unfold decode. cbn [s_nodes s_edges s_meta s_entry].
      replace (map node_of order) with (node_of (h_root h) :: map node_of rest) by (rewrite Eo; reflexivity).
      assert (Pr : place (h_root h) = 0%N) by (rewrite (place_at 0 _ order_head); reflexivity).
      assert (E0 : ns_parent (node_of (h_root h)) = 0%N).
      { cbn [node_of ns_parent]. unfold parent_or_self. rewrite get_parent_live by apply (wf_root h W). now rewrite (wf_top h W). }
      rewrite E0, N.eqb_refl. cbn [negb]. replace (ns_op (node_of (h_root h))) with OModule by (cbn [node_of ns_op]; now rewrite R).
      change (make_module_hugr main OModule) with (Some (Some (new_hugr (M := M) OModule 0))). cbn iota. cbn [h_entry new_hugr].
      change (new_hugr OModule 0) with (new_hugr (M := M) OModule 0). rewrite Eg. rewrite N.add_0_r. unfold set_entrypoint, contains.
      rewrite (proj2 (memN_iff _ _) (Gn _ (wf_entry h W))). rewrite Em.
      rewrite add_edges_spec.
      - cbn [h_links set_meta set_entry]. now rewrite (fi_links _ _ F).
      - intros l I. now apply (Permutation_in _ listed_perm).
      - intros n I. destruct (Live n I) as (k & E & L & P). cbn [h_nodes h_ops h_in h_out set_meta set_entry].
        split; [now apply Gn|]. rewrite P. split; [now apply (fi_ops _ _ F)|]. split; [now apply (fi_in _ _ F)|now apply (fi_out _ _ F)]. }
    exists (set_links (set_meta (set_entry g (place (h_entry h))) mm) (map (move_link place) (listed h))).
    split; [reflexivity|]. split; [exact Ed|].
    assert (Pl : forall l, In l (listed h) -> out_port g (place (fst (fst l)), snd (fst l)) /\ in_port g (place (fst (snd l)), snd (snd l))).
    { intros l I. apply (Permutation_in _ listed_perm) in I. destruct (wf_links h W l I) as [[A B] [C D]].
      destruct (Live _ A) as (k & E & L & P). destruct (Live _ C) as (k2 & E2 & L2 & P2). unfold out_port, in_port. cbn [fst snd].
      split; split; try now apply Gn.
      - rewrite P, (fi_out _ _ F k _ L E). exact B.
      - rewrite P2, (fi_in _ _ F k2 _ L2 E2). exact D. }
    split; [constructor|split; [|split; [|split]]]; cbn [h_nodes h_ops h_meta h_in h_out h_parent h_kids h_root h_entry h_links set_links set_meta set_entry].
    - exact place_inj.
    - intros m. split.
      + intros I. apply (fi_dense _ _ F) in I. rewrite Nx in I. destruct (nth_error order (N.to_nat m)) as [n|] eqn:E.
        * exists n. split; [apply order_in; eapply nth_error_In; exact E|]. rewrite (place_at _ _ E). lia.
        * apply nth_error_None in E. lia.
      + intros (n & I & ->). now apply Gn.
    - rewrite (fi_len _ _ F). apply order_len.
    - intros n I. destruct (Live n I) as (k & E & L & ->). now apply (fi_ops _ _ F).
    - intros n I. destruct (Live n I) as (k & E & L & ->). rewrite Hm, N.sub_0_r, Nat2N.id, nth_error_map, E. cbn [option_map].
      destruct (h_meta h n); [now rewrite (proj2 (N.leb_le _ _) (N.le_0_l _))|]. cbn [h_meta set_entry]. apply (fi_meta _ _ F).
    - intros n I. destruct (Live n I) as (k & E & L & ->). now apply (fi_in _ _ F).
    - intros n I. destruct (Live n I) as (k & E & L & ->). now apply (fi_out _ _ F).
    - intros n I. destruct (Live n I) as (k & E & L & ->). now apply (fi_parent _ _ F).
    - intros n I. destruct (Live n I) as (k & E & L & ->). rewrite (fi_kids _ _ F k n L E), firstn_all. f_equal.
      apply (descendants_kids h W); [apply (wf_root h W)|now apply (wf_reach h W)].
    - rewrite (fi_root _ _ F), (place_at 0 _ order_head). reflexivity.
    - reflexivity.
    - apply Permutation_map. apply listed_perm.
    - apply links_only_wf.
      + pose proof (set_entry_wf g (place (h_entry h)) (fi_wf _ _ F) (Gn _ (wf_entry h W))) as Wg. destruct Wg. constructor; auto.
      + intros l I. apply in_map_iff in I. destruct I as ([[a b] [c d]] & <- & I). apply Pl in I. exact I.
    - reflexivity.
    - intros k n E. now apply place_at.
    - intros n Nn. rewrite Hm, N.sub_0_r. replace (nth_error (map (h_meta h) order) (N.to_nat n)) with (@None (option M)).
      + apply (fi_meta _ _ F).
      + symmetry. apply nth_error_None. rewrite map_length. destruct (Nat.le_gt_cases (length order) (N.to_nat n)); [assumption|].
        exfalso. apply Nn. apply (fi_dense _ _ F). rewrite Nx. lia.
  Qed.

  (** The order of the links of an outgoing port survives. *)
  Lemma listed_port : forall n i, In n (h_nodes h) ->
    filter (fun l => ep_eqb (fst l) (n, i)) (listed h) = filter (fun l => ep_eqb (fst l) (n, i)) (h_links h).
  Proof.
    assert (Fs : forall (n m : N) (i j : nat) (ts : list endpoint),
              filter (fun l : link => ep_eqb (fst l) (n, i)) (map (fun t => ((m, j), t)) ts) =
              if N.eqb m n && Nat.eqb j i then map (fun t => ((m, j), t)) ts else []).
    { intros n m i j ts. induction ts as [|t ts IH]; [now destruct (_ && _)|]. cbn [map filter fst].
      change (ep_eqb (m, j) (n, i)) with (N.eqb m n && Nat.eqb j i). rewrite IH. now destruct (N.eqb m n && Nat.eqb j i). }
    assert (Ft : forall (A B : Type) (p : B -> bool) (f : A -> list B) l, filter p (flat_map f l) = flat_map (fun a => filter p (f a)) l).
    { intros A B p f l. induction l as [|a l IH]; [reflexivity|]. cbn [flat_map]. now rewrite filter_app, IH. }
    intros n i I. unfold listed. rewrite Ft.
    assert (E : forall m, filter (fun l : link => ep_eqb (fst l) (n, i))
                  (flat_map (fun j => map (fun t => ((m, j), t)) (linked_inputs h m j)) (seq 0 (h_out h m))) =
                if N.eqb m n then filter (fun l => ep_eqb (fst l) (n, i)) (h_links h) else []).
    { intros m. rewrite Ft. rewrite (flat_map_ext _ _ (fun j => Fs n m i j (linked_inputs h m j))).
      destruct (N.eqb_spec m n) as [->|].
      - cbn [andb]. assert (G : forall k, flat_map (fun j => if Nat.eqb j i then map (fun t => ((n, j), t)) (linked_inputs h n j) else []) (seq 0 k) =
                       if Nat.ltb i k then map (fun t => ((n, i), t)) (linked_inputs h n i) else []).
        { induction k as [|k IH]; [reflexivity|]. rewrite seq_S, flat_map_app, IH. cbn [plus flat_map]. rewrite app_nil_r.
          destruct (Nat.ltb_spec i k), (Nat.eqb_spec k i), (Nat.ltb_spec i (S k)); subst; try lia; rewrite ?app_nil_r; reflexivity. }
        rewrite G. unfold linked_inputs. rewrite map_map.
        assert (X : map (fun x : link => ((n, i), snd x)) (filter (fun l : link => ep_eqb (fst l) (n, i)) (h_links h)) =
                    filter (fun l : link => ep_eqb (fst l) (n, i)) (h_links h)).
        { induction (h_links h) as [|[a b] ls IH]; [reflexivity|]. cbn [filter fst]. destruct (ep_eqb a (n, i)) eqn:Ep; [|exact IH].
          cbn [map snd]. rewrite IH. apply ep_eqb_iff in Ep. now rewrite Ep. }
        destruct (Nat.ltb_spec i (h_out h n)) as [|L]; [exact X|].
        destruct (filter _ _) as [|l ls] eqn:Fl; [reflexivity|]. exfalso.
        assert (J : In l (filter (fun l : link => ep_eqb (fst l) (n, i)) (h_links h))) by (rewrite Fl; now left).
        apply filter_In in J. destruct J as [J K]. apply ep_eqb_iff in K. destruct (wf_links h W l J) as [[_ B] _]. rewrite K in B. cbn in B. lia.
      - cbn [andb]. clear. induction (seq 0 (h_out h m)); auto. }
    rewrite (flat_map_ext _ _ E). clear E.
    assert (G : forall ns, NoDup ns -> flat_map (fun m => if N.eqb m n then filter (fun l : link => ep_eqb (fst l) (n, i)) (h_links h) else []) ns =
              if memN n ns then filter (fun l : link => ep_eqb (fst l) (n, i)) (h_links h) else []).
    { induction ns as [|m ns IH]; intros D; [reflexivity|]. inversion D; subst. cbn [flat_map]. rewrite memN_cons, IH by assumption.
      rewrite (N.eqb_sym n m). destruct (N.eqb_spec m n) as [->|]; [|reflexivity]. cbn [orb].
      rewrite (proj2 (memN_false _ _)) by assumption. apply app_nil_r. }
    rewrite G by apply (wf_nodup h W). now rewrite (proj2 (memN_iff _ _) I).
  Qed.
End Roundtrip.

(** ** Decoding anything *)
Section Decode.
  Context {M : Type}.
  Notation hugr := (hugr op M).

  Lemma make_module_dense : forall main o h, make_module_hugr (M := M) main o = Some (Some h) ->
    wf h /\ ports_match h /\ dense h /\ next_index h = (h_entry h + 1)%N /\ h_ops h (h_entry h) = o.
  Proof.
    intros main o h E. destruct (new_graph_total (M := M) main o) as (r & E' & R). rewrite E in E'. injection E' as <-.
    destruct R as (Su & Wf & P & _ & Eo & _). split; [exact Wf|]. split; [exact P|].
    assert (G : dense h /\ next_index h = (h_entry h + 1)%N); [|tauto].
    destruct (dataflow_signature o) as [s|] eqn:S.
    - destruct (new_graph_wiring (M := M) main o s Su S) as (h' & E' & Wr). rewrite E in E'. injection E' as <-.
      unfold dense, next_index. rewrite (wr_nodes _ _ _ _ Wr), (proj1 (wr_entry _ _ _ _ Wr)). split; [|reflexivity].
      intros n. cbn. lia.
    - destruct o; try (now destruct Su); try discriminate.
      + injection E as <-. split; [apply new_dense|reflexivity].
      + unfold make_module_hugr in E. cbn [op_tag] in E. change (negb (existsb _ _)) with false in E.
        change (within TagModel.TModuleOp TagModel.TFuncDefn) with true in E. cbn iota in E.
        destruct (add_next_spec (M := M) (new_hugr OModule 0) 0 (OFuncDefn name f public)) as (g & Eg & A);
          [apply (new_wf OModule)|apply new_dense|now left|]. rewrite Eg in E. cbn [opt_bind] in E. unfold set_entrypoint in E.
        destruct (contains g 1); [|discriminate]. injection E as <-. split; [exact (ad_dense _ _ _ _ A)|].
        unfold next_index. cbn [h_nodes h_entry set_entry]. now rewrite (ad_nodes _ _ _ _ A).
  Qed.

  (** Parents come first. *)
  Fixpoint earlier (k : N) (ns : list nodeser) : Prop :=
    match ns with [] => True | n :: ns => (ns_parent n < k)%N /\ earlier (k + 1)%N ns end.

  Lemma add_rest_wf : forall ns (g : hugr) pad k, wf g -> ports_match g -> dense g -> next_index g = (k + pad)%N -> earlier k ns ->
    exists g', add_rest pad g ns = Some g' /\ wf g' /\ ports_match g' /\ dense g' /\
      next_index g' = (k + N.of_nat (length ns) + pad)%N /\ h_links g' = h_links g /\
      (forall n, (n < next_index g)%N -> h_ops g' n = h_ops g n) /\
      (forall i x, nth_error ns i = Some x -> h_ops g' (k + N.of_nat i + pad)%N = ns_op x).
  Proof.
    induction ns as [|n ns IH]; intros g pad k W P D X E.
    - exists g. cbn [add_rest length]. split; [reflexivity|]. split; [exact W|]. split; [exact P|]. split; [exact D|]. split; [lia|].
      split; [reflexivity|]. split; [reflexivity|]. intros [|i] x Ex; discriminate.
    - cbn [add_rest earlier] in *. destruct E as [E1 E2].
      destruct (add_next_spec g (ns_parent n + pad)%N (ns_op n) W D) as (g1 & Eg & A); [apply D; lia|]. rewrite Eg.
      assert (X1 : next_index g1 = (k + 1 + pad)%N).
      { unfold next_index in *. rewrite (ad_nodes _ _ _ _ A). cbn [length]. lia. }
      destruct (IH g1 pad (k + 1)%N (ad_wf _ _ _ _ A) (added_ports _ _ _ _ A P) (ad_dense _ _ _ _ A) X1 E2)
        as (g' & Eg' & W' & P' & D' & X' & L' & O1 & O2).
      exists g'. split; [exact Eg'|]. split; [exact W'|]. split; [exact P'|]. split; [exact D'|].
      split; [cbn [length]; rewrite Nat2N.inj_succ; lia|].
      split; [now rewrite L', (ad_links _ _ _ _ A)|]. split.
      + intros m Lm. rewrite O1 by lia. rewrite (ad_ops _ _ _ _ A). apply upd_other. lia.
      + intros [|i] x Ex.
        * injection Ex as <-. rewrite N.add_0_r, O1 by lia. rewrite (ad_ops _ _ _ _ A), X. apply upd_same.
        * cbn in Ex. replace (k + N.of_nat (S i) + pad)%N with (k + 1 + N.of_nat i + pad)%N by lia. now apply O2.
  Qed.

  Lemma add_meta_only : forall ms (g : hugr) b, exists mm, add_meta g b ms = set_meta g mm.
  Proof. intros ms g b. destruct (add_meta_spec ms g b) as (mm & E & _). eauto. Qed.

  Lemma other_port_valid : forall o d i, other_port o d = Some i -> i < port_count o d.
  Proof.
    intros o d i. unfold other_port. destruct (is_some (other_port_kind o d)) eqn:E1; [|discriminate].
    destruct (Nat.leb 1 (non_df_port_count o d)) eqn:E2; [|discriminate]. apply Nat.leb_le in E2. cbn [andb]. intros X. injection X as <-.
    unfold port_count. assert (S : Nat.b2n (match d with Inc => within TagModel.TStaticInput (op_tag o) | Out => false end) <= Nat.b2n (is_some (static_port_kind o d))).
    { destruct d; [|cbn; lia]. destruct o; cbn; lia. }
    lia.
  Qed.

  Lemma add_edges_wf : forall es pad (g : hugr), wf g -> ports_match g ->
    match add_edges pad g es with
    | DOk g' => wf g' /\ ports_match g'
    | DErr _ => True
    | DPanic => exists s i t j, In ((s, i), (t, j)) es /\
        ((exists k, i = Some k /\ In (s + pad)%N (h_nodes g) /\ port_count (h_ops g (s + pad)%N) Out <= k) \/
         (exists k, j = Some k /\ In (t + pad)%N (h_nodes g) /\ port_count (h_ops g (t + pad)%N) Inc <= k))
    end.
  Proof.
    induction es as [|[[s i] [t j]] es IH]; intros pad g W P; [split; assumption|]. cbn [add_edges].
    assert (U : forall n x d, match unwrap_offset g n x d with
              | DOk k => In n (h_nodes g) /\ (x = Some k \/ (x = None /\ k < port_count (h_ops g n) d))
              | DErr _ => True | DPanic => False end).
    { intros n x d. unfold unwrap_offset. destruct (contains g n) eqn:C; [|exact I]. apply memN_iff in C.
      destruct x as [k|]; [auto|]. destruct (other_port (h_ops g n) d) as [k|] eqn:O; [|exact I]. split; [exact C|]. right.
      split; [reflexivity|now apply other_port_valid]. }
    pose proof (U (s + pad)%N i Out) as U1. destruct (unwrap_offset g (s + pad) i Out) as [a| |]; [|exact I|contradiction].
    pose proof (U (t + pad)%N j Inc) as U2. destruct (unwrap_offset g (t + pad) j Inc) as [b| |]; [|exact I|contradiction].
    destruct U1 as [Is Ca], U2 as [It Cb]. destruct (connect g (s + pad) a (t + pad) b) as [g1|] eqn:E.
    - assert (W1 : wf g1) by (eapply connect_wf; eassumption).
      unfold connect in E. destruct (_ && _); [|discriminate]. injection E as <-.
      specialize (IH pad _ W1 P). destruct (add_edges _ _ _); auto. destruct IH as (s' & i' & t' & j' & I' & R). exists s', i', t', j'.
      split; [now right|exact R].
    - exists s, i, t, j. split; [now left|]. unfold connect, valid_port, contains in E. cbn [num_ports] in E.
      rewrite (proj2 (memN_iff _ _) Is), (proj2 (memN_iff _ _) It) in E. cbn [andb] in E.
      destruct (P _ Is) as [_ Po], (P _ It) as [Pi _]. unfold in_count, out_count in *.
      destruct (Nat.ltb_spec a (h_out g (s + pad)%N)) as [La|La].
      + destruct (Nat.ltb_spec b (h_in g (t + pad)%N)) as [Lb|Lb]; [discriminate|]. right. destruct Cb as [->|[_ Cb]]; [|lia].
        exists b. repeat split; auto. lia.
      + left. destruct Ca as [->|[_ Ca]]; [|lia]. exists a. repeat split; auto. lia.
  Qed.
End Decode.
