(** Theorems about graph mutations (C21) and removal (C22). *)
From Coq Require Import List Bool NArith Arith Lia Permutation.
From Verif Require Import GraphModel GraphSpec GraphProofs GraphRemove.
Import ListNotations.

(** ** C21 *)
(** Every history of public mutations that respects the documented preconditions, from a new HUGR,
    ends in a well formed graph. *)
Theorem history_keeps_invariants : forall O M (d : O) i o r acts (h : hugr O M),
  legal_run d i o (new_hugr d r) acts -> run d i o (new_hugr d r) acts = Some h -> wf h.
Proof. intros O M d i o r acts h L E. eapply run_wf; [apply new_wf|exact L|exact E]. Qed.
Print Assumptions history_keeps_invariants.

Theorem mutation_keeps_invariants : forall O M (d : O) i o (h h' : hugr O M) a,
  wf h -> legal h a -> step d i o h a = Some h' -> wf h'.
Proof. intros. eapply step_wf; eauto. Qed.
Print Assumptions mutation_keeps_invariants.

(** When the mutators accept (that is, do not panic) on well formed graphs. *)
Theorem add_child_accepts : forall O M i o (h : hugr O M) n p op, wf h -> In p (h_nodes h) ->
  ((exists h', add_node_with_parent i o h n p op = Some h') <-> ~ In n (h_nodes h)).
Proof.
  intros O M i o h n p op W Ip. unfold add_node_with_parent. split.
  - intros (h' & E). destruct (add_node i o h n op) eqn:A; [|discriminate]. apply add_node_inv in A. tauto.
  - intros Nn. unfold add_node. assert (C : contains h n = false) by (now apply memN_false). rewrite C.
    unfold push_child. cbn [h_parent h_nodes set_ops set_ports set_nodes].
    rewrite (proj1 (wf_unused h W n Nn)). destruct (climbs _ _ p n) eqn:X; [|eauto].
    exfalso. apply climbs_iff in X. destruct X as (k & _ & X). apply Nn. eapply up_live; [exact W| |exact Ip].
    apply up_hops. eauto.
Qed.
Print Assumptions add_child_accepts.

Theorem add_beside_accepts : forall O M after i o (h : hugr O M) n s op, wf h ->
  ((exists h', add_node_beside i o after h n s op = Some h') <->
   ~ In n (h_nodes h) /\ In s (h_nodes h) /\ s <> h_root h).
Proof.
  intros O M after i o h n s op W. unfold add_node_beside. split.
  - intros (h' & E). destruct (add_node i o h n op) as [h1|] eqn:A; [|discriminate]. apply add_node_inv in A.
    destruct A as (Nn & ->). split; [exact Nn|]. unfold insert_sibling in E.
    cbn [h_parent h_nodes set_ops set_ports set_nodes] in E.
    destruct (h_parent h n); [discriminate|]. destruct (h_parent h s) as [p|] eqn:Es; [|discriminate].
    destruct (wf_parent_live h W s p Es) as (A & _ & B). auto.
  - intros (Nn & Is & Ns). unfold add_node. assert (C : contains h n = false) by (now apply memN_false). rewrite C.
    unfold insert_sibling. cbn [h_parent h_nodes set_ops set_ports set_nodes].
    rewrite (proj1 (wf_unused h W n Nn)). destruct (wf_parent h W s Is Ns) as (p & Ep & Ip). rewrite Ep.
    destruct (climbs _ _ p n) eqn:X; [|eauto].
    exfalso. apply climbs_iff in X. destruct X as (k & _ & X). apply Nn. eapply up_live; [exact W| |exact Ip].
    apply up_hops. eauto.
Qed.
Print Assumptions add_beside_accepts.

Theorem set_parent_accepts : forall O M (h : hugr O M) n p, wf h ->
  ((exists h', set_parent h n p = Some h') <->
   In n (h_nodes h) /\ In p (h_nodes h) /\ ~ below h p n).
Proof. intros. now apply set_parent_iff. Qed.
Print Assumptions set_parent_accepts.

Theorem remove_subtree_accepts : forall O M (d : O) (h : hugr O M) n, wf h ->
  ((exists h', remove_subtree d h n = Some h') <-> In n (h_nodes h) /\ ~ below h (h_entry h) n).
Proof.
  intros O M d h n W. split.
  - intros (h' & E). split; [|eapply remove_subtree_entry; eauto].
    destruct (remove_subtree_spec d h W n) as [A _]. apply (A h' E).
  - intros [I NE]. destruct (remove_subtree_spec d h W n) as [_ B]. now apply B.
Qed.
Print Assumptions remove_subtree_accepts.

Theorem connect_accepts : forall O M (h : hugr O M) s i d j,
  ((exists h', connect h s i d j = Some h') <-> out_port h (s, i) /\ in_port h (d, j)).
Proof.
  intros O M h s i d j. unfold connect. rewrite <- valid_port_out, <- valid_port_in.
  destruct (valid_port h s Out i), (valid_port h d Inc j); cbn [andb]; split; eauto;
    try (intros [? ?]; discriminate); intros [? ?]; discriminate.
Qed.
Print Assumptions connect_accepts.

(** What moving a node does: it becomes the last child of its new parent; nothing else changes. *)
Theorem set_parent_effect : forall O M (h h' : hugr O M) n p, wf h -> set_parent h n p = Some h' ->
  h_parent h' n = Some p /\ (forall m, m <> n -> h_parent h' m = h_parent h m) /\
  h_kids h' p = delN n (h_kids h p) ++ [n] /\ (forall q, q <> p -> h_kids h' q = delN n (h_kids h q)) /\
  h_nodes h' = h_nodes h /\ h_ops h' = h_ops h /\ h_meta h' = h_meta h /\ h_links h' = h_links h /\
  h_in h' = h_in h /\ h_out h' = h_out h /\ h_root h' = h_root h /\ h_entry h' = h_entry h.
Proof.
  intros O M h h' n p W E. apply set_parent_inv in E; [|exact W]. destruct E as (In_ & Ip & A & ->).
  destruct (detach_rest h n) as (R1 & R2 & R3 & R4 & R5 & R6 & R7 & R8). cbn.
  rewrite R1, R2, R3, R4, R5, R6, R7, R8, upd_same. split; [reflexivity|].
  split; [intros m Nm; rewrite upd_other by exact Nm; rewrite detach_parent; now apply upd_other|].
  split; [now rewrite upd_same, (detach_kids h W)|].
  split; [intros q Nq; rewrite upd_other by exact Nq; apply (detach_kids h W)|]. auto 9.
Qed.
Print Assumptions set_parent_effect.

Lemma insert_at_split : forall after n s l, NoDup l -> In s l -> exists a b, l = a ++ s :: b /\
  insert_at after n s l = if after then a ++ s :: n :: b else a ++ n :: s :: b.
Proof.
  intros after n s l. induction l as [|x l IH]; intros D I; [destruct I|]. cbn [insert_at]. inversion D as [|? ? Nx D']; subst.
  destruct (N.eqb_spec x s) as [->|Ne].
  - exists [], l. split; [reflexivity|]. now destruct after.
  - destruct I as [E|I]; [contradiction|]. destruct (IH D' I) as (a & b & E & X). exists (x :: a), b. split; [now rewrite E|]. rewrite X. now destruct after.
Qed.

(** A new node gets the ports of its operation; it becomes the last child, or goes directly before or after its sibling.
    Nothing else changes. *)
Theorem add_child_effect : forall O M i o (h h' : hugr O M) n p op, wf h -> In p (h_nodes h) -> add_node_with_parent i o h n p op = Some h' ->
  h_ops h' n = op /\ h_in h' n = i op /\ h_out h' n = o op /\ h_parent h' n = Some p /\ h_kids h' n = [] /\
  h_kids h' p = h_kids h p ++ [n] /\ (forall q, In q (h_nodes h) -> same_node h h' q /\ (q <> p -> h_kids h' q = h_kids h q)) /\
  h_nodes h' = n :: h_nodes h /\ h_links h' = h_links h /\ h_meta h' = h_meta h /\ h_root h' = h_root h /\ h_entry h' = h_entry h.
Proof.
  intros O M i o h h' n p op W Ip E. unfold add_node_with_parent in E. destruct (add_node i o h n op) as [h1|] eqn:A; [|discriminate].
  apply add_node_inv in A. destruct A as (Nn & ->). unfold push_child in E. cbn [h_parent h_nodes h_kids set_ops set_ports set_nodes] in E.
  destruct (h_parent h n); [discriminate|]. destruct (climbs _ _ p n); [discriminate|]. injection E as <-.
  assert (Np : n <> p) by (intros ->; contradiction).
  cbn [h_ops h_meta h_in h_out h_links h_parent h_kids h_root h_entry h_nodes set_tree set_ops set_ports set_nodes]. rewrite !upd_same.
  repeat (split; [reflexivity|]). split; [rewrite upd_other by exact Np; apply (wf_unused h W n Nn)|]. repeat (split; [reflexivity|]). split; [|auto 9].
  intros q Iq. assert (Nq : q <> n) by (intros ->; contradiction).
  unfold same_node. cbn [h_ops h_meta h_in h_out h_parent h_kids set_tree set_ops set_ports set_nodes]. rewrite !upd_other by exact Nq.
  split; [auto 9|]. intros N_. now apply upd_other.
Qed.
Print Assumptions add_child_effect.

Theorem add_beside_effect : forall O M i o after (h h' : hugr O M) n s op, wf h -> add_node_beside i o after h n s op = Some h' ->
  exists p a b, h_parent h s = Some p /\ h_kids h p = a ++ s :: b /\
    h_kids h' p = (if after then a ++ s :: n :: b else a ++ n :: s :: b) /\
    h_ops h' n = op /\ h_in h' n = i op /\ h_out h' n = o op /\ h_parent h' n = Some p /\ h_kids h' n = [] /\
    (forall q, In q (h_nodes h) -> same_node h h' q /\ (q <> p -> h_kids h' q = h_kids h q)) /\
    h_nodes h' = n :: h_nodes h /\ h_links h' = h_links h /\ h_meta h' = h_meta h /\ h_root h' = h_root h /\ h_entry h' = h_entry h.
Proof.
  intros O M i o after h h' n s op W E. unfold add_node_beside in E. destruct (add_node i o h n op) as [h1|] eqn:A; [|discriminate].
  apply add_node_inv in A. destruct A as (Nn & ->). unfold insert_sibling in E. cbn [h_parent h_nodes h_kids set_ops set_ports set_nodes] in E.
  destruct (h_parent h n); [discriminate|]. destruct (h_parent h s) as [p|] eqn:Es; [|discriminate]. destruct (climbs _ _ p n); [discriminate|]. injection E as <-.
  destruct (wf_parent_live h W s p Es) as (_ & Ip & _). assert (Np : n <> p) by (intros ->; contradiction).
  destruct (insert_at_split after n s (h_kids h p) (wf_kids_once h W p)) as (a & b & K & X); [now apply (wf_kids h W)|]. exists p, a, b.
  cbn [h_ops h_meta h_in h_out h_links h_parent h_kids h_root h_entry h_nodes set_tree set_ops set_ports set_nodes]. rewrite !upd_same.
  split; [reflexivity|]. split; [exact K|]. split; [exact X|]. repeat (split; [reflexivity|]). split; [rewrite upd_other by exact Np; apply (wf_unused h W n Nn)|].
  split; [|auto 9]. intros q Iq. assert (Nq : q <> n) by (intros ->; contradiction).
  unfold same_node. cbn [h_ops h_meta h_in h_out h_parent h_kids set_tree set_ops set_ports set_nodes]. rewrite !upd_other by exact Nq.
  split; [auto 9|]. intros N_. now apply upd_other.
Qed.
Print Assumptions add_beside_effect.

(** Moving a node next to another one: it leaves its old place and only the children of the two parents change. *)
Theorem move_beside_effect : forall O M after (h h' : hugr O M) n s, wf h -> move_sibling after h n s = Some h' ->
  exists p a b, h_parent h s = Some p /\ delN n (h_kids h p) = a ++ s :: b /\
    h_kids h' p = (if after then a ++ s :: n :: b else a ++ n :: s :: b) /\
    h_parent h' n = Some p /\ (forall m, m <> n -> h_parent h' m = h_parent h m) /\ (forall q, q <> p -> h_kids h' q = delN n (h_kids h q)) /\
    h_nodes h' = h_nodes h /\ h_ops h' = h_ops h /\ h_meta h' = h_meta h /\ h_links h' = h_links h /\
    h_in h' = h_in h /\ h_out h' = h_out h /\ h_root h' = h_root h /\ h_entry h' = h_entry h.
Proof.
  intros O M after h h' n s W E. apply move_sibling_inv in E; [|exact W]. destruct E as (p & In_ & _ & Is & _ & Ne & Es & Ip & _ & ->).
  assert (K : h_kids (detach h n) p = delN n (h_kids h p)) by apply (detach_kids h W).
  destruct (insert_at_split after n s (delN n (h_kids h p))) as (a & b & X & Y).
  { apply delN_nodup, (wf_kids_once h W). }
  { apply delN_iff. split; [now apply (wf_kids h W)|congruence]. }
  exists p, a, b. destruct (detach_rest h n) as (R1 & R2 & R3 & R4 & R5 & R6 & R7 & R8).
  cbn [h_ops h_meta h_in h_out h_links h_parent h_kids h_root h_entry h_nodes set_tree]. rewrite R1, R2, R3, R4, R5, R6, R7, R8, !upd_same, K.
  split; [exact Es|]. split; [exact X|]. split; [exact Y|]. split; [reflexivity|].
  split; [intros m Nm; rewrite upd_other by exact Nm; rewrite detach_parent; now apply upd_other|].
  split; [intros q Nq; rewrite upd_other by exact Nq; apply (detach_kids h W)|]. auto 9.
Qed.
Print Assumptions move_beside_effect.

(** Inserting ports shifts the links of the later ports and keeps all the others. *)
Theorem insert_ports_effect : forall O M (h h' : hugr O M) n d index amount,
  wf h -> insert_ports h n d index amount = Some h' ->
  Permutation (h_links h')
    (map (fun l => match d with
                   | Inc => if N.eqb (fst (snd l)) n && Nat.leb index (snd (snd l))
                            then (fst l, (n, snd (snd l) + amount)) else l
                   | Out => if N.eqb (fst (fst l)) n && Nat.leb index (snd (fst l))
                            then ((n, snd (fst l) + amount), snd l) else l
                   end) (h_links h)) /\
  num_ports h' n d = num_ports h n d + amount.
Proof.
  intros O M h h' n d index amount W E. apply insert_ports_spec in E; [|exact W].
  destruct E as (C & P & _ & _ & _ & _ & _ & _ & _ & HI & HO). split; [exact P|].
  destruct d; cbn [num_ports]; [rewrite HI|rewrite HO]; now rewrite N.eqb_refl.
Qed.
Print Assumptions insert_ports_effect.

(** *** Disagreements with the documentation *)
(** "Panics if the parent is not in the graph": it does not, and the new node hangs below nothing. *)
Theorem add_under_missing_parent_refuted : exists (h h' : hugr nat nat) n p,
  wf h /\ ~ In p (h_nodes h) /\ add_node_with_parent (fun _ => 0) (fun _ => 0) h n p 1 = Some h' /\
  h_parent h' n = Some p /\ ~ In p (h_nodes h') /\ ~ wf h'.
Proof.
  eexists (new_hugr 0 0), _, 1%N, 2%N. split; [apply new_wf|]. split; [cbn; intuition discriminate|].
  split; [reflexivity|]. split; [reflexivity|]. split; [cbn; intuition discriminate|].
  intros W. destruct (wf_parent _ W 1%N) as (p & E & I); [cbn; auto|discriminate|].
  vm_compute in E. injection E as <-. cbn in I. intuition discriminate.
Qed.
Print Assumptions add_under_missing_parent_refuted.

(** "Panics if the node is the root node": only the entrypoint is protected. *)
Theorem remove_root_refuted : exists (h h' : hugr nat nat),
  wf h /\ remove_node 0 h (h_root h) = Some h' /\ ~ In (h_root h') (h_nodes h').
Proof.
  set (acts := [AddChild 1%N 0%N 1; SetEntry 1%N] : list (act (O := nat) (M := nat))).
  destruct (run 0 (fun _ => 0) (fun _ => 0) (new_hugr 0 0) acts) as [h|] eqn:E; [|vm_compute in E; discriminate].
  exists h. assert (W : wf h).
  { refine (history_keeps_invariants nat nat 0 (fun _ => 0) (fun _ => 0) 0%N acts h _ E). cbn. auto. }
  vm_compute in E. injection E as <-. eexists. split; [exact W|]. split; [reflexivity|]. cbn. intuition discriminate.
Qed.
Print Assumptions remove_root_refuted.

(** "Panics if either node is not in the graph, or if it is a root": the entrypoint is refused as
    well, wherever it is. *)
Theorem move_beside_entrypoint_refuted : exists (h : hugr nat nat) n s,
  wf h /\ In n (h_nodes h) /\ In s (h_nodes h) /\ n <> s /\ n <> h_root h /\ s <> h_root h /\
  move_sibling true h n s = None.
Proof.
  set (acts := [AddChild 1%N 0%N 1; AddChild 2%N 0%N 1; SetEntry 1%N] : list (act (O := nat) (M := nat))).
  destruct (run 0 (fun _ => 0) (fun _ => 0) (new_hugr 0 0) acts) as [h|] eqn:E; [|vm_compute in E; discriminate].
  exists h, 2%N, 1%N. assert (W : wf h).
  { refine (history_keeps_invariants nat nat 0 (fun _ => 0) (fun _ => 0) 0%N acts h _ E). cbn. auto. }
  vm_compute in E. injection E as <-. split; [exact W|]. split; [cbn; auto|]. split; [cbn; auto|].
  split; [discriminate|]. split; [discriminate|]. split; [discriminate|]. reflexivity.
Qed.
Print Assumptions move_beside_entrypoint_refuted.

Example history_nonvacuous :
  (** Build a small tree with links, move a node, insert ports, remove a subtree, reuse an index. *)
  let acts := [AddChild 1 0 1; AddChild 2 1 2; AddBeside false 3 2 2; AddBeside true 4 3 2;
               Connect 3 0 4 1; Connect 4 1 2 0; InsertPorts 4 Out 1 2; SetEntry 1;
               MoveBeside true 4 2; AddChild 5 4 2; Connect 5 0 2 1; SetParent 2 0;
               RemoveSubtree 4; AddChild 4 2 1; RemoveNode 3] : list (act (O := nat) (M := nat)) in
  exists h, run 0 (fun k => k) (fun k => k) (new_hugr 0 0) acts = Some h /\
    legal_run 0 (fun k => k) (fun k => k) (new_hugr 0 0) acts /\
    h_nodes h = [4; 2; 1; 0]%N /\ h_kids h 0 = [1; 2]%N /\ h_kids h 2 = [4]%N /\ h_links h = [].
Proof.
  eexists. split; [vm_compute; reflexivity|].
  split; [vm_compute; repeat split; auto; try discriminate|]. vm_compute. repeat split.
Qed.

(** ** C22 *)
(** Removing a subtree removes exactly the nodes below it and the links that touch them; everything
    else keeps its operation, metadata, ports, parent, order of children and links. *)
Theorem remove_subtree_exact : forall O M (d : O) (h h' : hugr O M) n,
  wf h -> remove_subtree d h n = Some h' ->
  (forall m, In m (h_nodes h') <-> In m (h_nodes h) /\ ~ below h m n) /\
  (forall m, In m (h_nodes h') -> same_node h h' m /\ h_kids h' m = delN n (h_kids h m)) /\
  (exists keep, h_links h' = filter keep (h_links h) /\
     forall l, keep l = true <-> ~ below h (fst (fst l)) n /\ ~ below h (fst (snd l)) n) /\
  h_root h' = h_root h /\ h_entry h' = h_entry h.
Proof.
  intros O M d h h' n W E. destruct (remove_subtree_spec d h W n) as [A _].
  destruct (A h' E) as (In_ & R & Rm & HR).
  assert (Live : forall m, In m (h_nodes h') <-> In m (h_nodes h) /\ ~ In m R).
  { intros m. rewrite (rm_nodes _ _ _ _ _ _ Rm), filter_In, negb_true_iff, memN_false. reflexivity. }
  split; [|split; [|split; [|split]]].
  - intros m. rewrite Live, HR. reflexivity.
  - intros m I. apply Live in I. destruct I as [I NI]. apply memN_false in NI. unfold same_node.
    rewrite (rm_ops _ _ _ _ _ _ Rm), (rm_meta _ _ _ _ _ _ Rm), (rm_in _ _ _ _ _ _ Rm), (rm_out _ _ _ _ _ _ Rm),
      (rm_parent _ _ _ _ _ _ Rm), (rm_kids _ _ _ _ _ _ Rm), app_nil_r, NI. repeat split.
  - eexists. split; [apply (rm_links _ _ _ _ _ _ Rm)|]. intros l. cbn beta.
    rewrite negb_orb, andb_true_iff, !negb_true_iff, !memN_false, !HR. reflexivity.
  - apply (rm_root _ _ _ _ _ _ Rm).
  - apply (rm_entry _ _ _ _ _ _ Rm).
Qed.
Print Assumptions remove_subtree_exact.

(** Only the parent loses a child. *)
Theorem remove_subtree_siblings : forall O M (h : hugr O M) n m, wf h -> h_parent h n <> Some m ->
  delN n (h_kids h m) = h_kids h m.
Proof. intros O M h n m W E. apply delN_id. now rewrite (wf_kids h W). Qed.
Print Assumptions remove_subtree_siblings.

(** Removing a single node without children. *)
Theorem remove_leaf_exact : forall O M (d : O) (h h' : hugr O M) n,
  wf h -> h_kids h n = [] -> remove_node d h n = Some h' ->
  (forall m, In m (h_nodes h') <-> In m (h_nodes h) /\ m <> n) /\
  (forall m, In m (h_nodes h') -> same_node h h' m /\ h_kids h' m = delN n (h_kids h m)) /\
  (exists keep, h_links h' = filter keep (h_links h) /\
     forall l, keep l = true <-> fst (fst l) <> n /\ fst (snd l) <> n).
Proof.
  intros O M d h h' n W K E. pose proof (remove_first d h h' n W E) as Rm. rewrite K in Rm.
  assert (Live : forall m, In m (h_nodes h') <-> In m (h_nodes h) /\ m <> n).
  { intros m. rewrite (rm_nodes _ _ _ _ _ _ Rm), filter_In, negb_true_iff, memN_false. cbn. intuition. }
  split; [exact Live|split].
  - intros m I. apply Live in I. destruct I as [I NI]. apply N.eqb_neq in NI. unfold same_node.
    rewrite (rm_ops _ _ _ _ _ _ Rm), (rm_meta _ _ _ _ _ _ Rm), (rm_in _ _ _ _ _ _ Rm), (rm_out _ _ _ _ _ _ Rm),
      (rm_parent _ _ _ _ _ _ Rm), (rm_kids _ _ _ _ _ _ Rm), app_nil_r. cbn [memN existsb]. rewrite NI. repeat split.
  - eexists. split; [apply (rm_links _ _ _ _ _ _ Rm)|]. intros l. cbn [memN existsb].
    rewrite !orb_false_r, negb_orb, andb_true_iff, !negb_true_iff, !N.eqb_neq. reflexivity.
Qed.
Print Assumptions remove_leaf_exact.

(** A new node has no links and no children, whatever the index was used for before. *)
Theorem new_node_unlinked : forall O M i o (h h' : hugr O M) n p op, wf h ->
  add_node_with_parent i o h n p op = Some h' ->
  (forall l, In l (h_links h') -> fst (fst l) <> n /\ fst (snd l) <> n) /\
  (n <> p -> h_kids h' n = []) /\ h_ops h' n = op /\ h_in h' n = i op /\ h_out h' n = o op /\
  (forall m, In m (h_nodes h) -> h_ops h' m = h_ops h m /\ h_meta h' m = h_meta h m).
Proof.
  intros O M i o h h' n p op W. unfold add_node_with_parent. destruct (add_node i o h n op) as [h1|] eqn:A; [|discriminate].
  apply add_node_inv in A. destruct A as (Nn & ->). unfold push_child.
  cbn [h_parent h_nodes h_kids set_ops set_ports set_nodes]. rewrite (proj1 (wf_unused h W n Nn)).
  destruct (climbs _ _ p n); [discriminate|]. intros E. injection E as <-. cbn. rewrite !upd_same.
  split; [|split; [|repeat split]].
  - intros l I. destruct (wf_links h W l I) as [[A _] [B _]]. split; intros X; apply Nn; [now rewrite <- X|now rewrite <- X].
  - intros Np. rewrite upd_other by exact Np. apply (wf_unused h W n Nn).
  - apply upd_other. intros ->. contradiction.
Qed.
Print Assumptions new_node_unlinked.

(** But it may have metadata: removing a node leaves its metadata behind, and a later node with the
    same index gets it. *)
Theorem new_node_no_metadata_refuted : exists (h h1 h2 : hugr nat nat) n,
  wf h /\ remove_node 0 h n = Some h1 /\ ~ In n (h_nodes h1) /\
  add_node_with_parent (fun _ => 0) (fun _ => 0) h1 n (h_root h1) 1 = Some h2 /\
  h_meta h2 n = h_meta h n /\ h_meta h2 n <> None.
Proof.
  set (acts := [AddChild 1%N 0%N 1; WriteMeta 1%N 7] : list (act (O := nat) (M := nat))).
  destruct (run 0 (fun _ => 0) (fun _ => 0) (new_hugr 0 0) acts) as [h|] eqn:E; [|vm_compute in E; discriminate].
  exists h. assert (W : wf h).
  { refine (history_keeps_invariants nat nat 0 (fun _ => 0) (fun _ => 0) 0%N acts h _ E). cbn. auto. }
  vm_compute in E. injection E as <-. eexists _, _, 1%N. split; [exact W|]. split; [reflexivity|].
  split; [cbn; intuition discriminate|]. split; [reflexivity|]. cbn. split; [reflexivity|discriminate].
Qed.
Print Assumptions new_node_no_metadata_refuted.

Example remove_nonvacuous :
  let acts := [AddChild 1 0 2; AddChild 2 1 2; AddChild 3 1 2; AddChild 4 2 2; AddChild 5 1 2;
               Connect 3 0 5 0; Connect 4 0 5 1; Connect 2 0 2 1] : list (act (O := nat) (M := nat)) in
  exists h h', run 0 (fun k => k) (fun k => k) (new_hugr 0 0) acts = Some h /\
    remove_subtree 0 h 2 = Some h' /\ h_nodes h' = [5; 3; 1; 0]%N /\ h_kids h' 1 = [3; 5]%N /\
    h_links h' = [((3%N, 0), (5%N, 0))].
Proof. eexists _, _. split; [vm_compute; reflexivity|]. split; [vm_compute; reflexivity|]. vm_compute. repeat split. Qed.
