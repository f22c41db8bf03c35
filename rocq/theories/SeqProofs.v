(** Building a graph node by node, with indices handed out in order. *)
From Coq Require Import List Bool NArith Arith Lia.
From Verif Require Import GraphModel GraphSpec GraphProofs GraphRemove OpModel.
Import ListNotations.

Section Seq.
  Context {M : Type}.
  Notation hugr := (hugr op M).

  Definition dense (h : hugr) : Prop := forall n, In n (h_nodes h) <-> (n < next_index h)%N.

  (** What adding one node does. *)
  Record added (h h' : hugr) (p : N) (o : op) : Prop := {
    ad_wf : wf h';
    ad_dense : dense h';
    ad_nodes : h_nodes h' = next_index h :: h_nodes h;
    ad_ops : h_ops h' = upd (h_ops h) (next_index h) o;
    ad_meta : h_meta h' = h_meta h;
    ad_in : h_in h' = upd (h_in h) (next_index h) (in_count o);
    ad_out : h_out h' = upd (h_out h) (next_index h) (out_count o);
    ad_links : h_links h' = h_links h;
    ad_parent : h_parent h' = upd (h_parent h) (next_index h) (Some p);
    ad_kids : h_kids h' = upd (h_kids h) p (h_kids h p ++ [next_index h]);
    ad_root : h_root h' = h_root h;
    ad_entry : h_entry h' = h_entry h }.

  Lemma add_next_spec : forall (h : hugr) p o, wf h -> dense h -> In p (h_nodes h) ->
    exists h', add_next h p o = Some h' /\ added h h' p o.
  Proof.
    intros h p o W D I.
    assert (F : ~ In (next_index h) (h_nodes h)) by (intros X; apply D in X; lia).
    assert (E : exists h', add_next h p o = Some h').
    { unfold add_next, add_node_with_parent, add_node. destruct (contains h (next_index h)) eqn:C; [now apply memN_iff in C|].
      unfold push_child. cbn [h_parent set_ops set_ports set_nodes h_nodes h_kids].
      rewrite (proj1 (wf_unused h W _ F)). destruct (climbs _ _ _ _) eqn:Cl; [|eauto]. exfalso. revert Cl.
      assert (Nu : ~ up (h_parent h) p (next_index h)) by now apply fresh_not_up.
      generalize (length (next_index h :: h_nodes h)). intros fuel. clear - Nu. revert p Nu.
      induction fuel as [|k IH]; intros p Nu; cbn [climbs]; intros H; apply orb_prop in H; destruct H as [H|H].
      - apply N.eqb_eq in H. subst. apply Nu. constructor.
      - discriminate.
      - apply N.eqb_eq in H. subst. apply Nu. constructor.
      - destruct (h_parent h p) as [q|] eqn:Eq; [|discriminate]. revert H. apply IH. intros U. apply Nu. econstructor; eauto. }
    destruct E as [h' E]. exists h'. split; [exact E|].
    pose proof (add_child_wf OModule in_count out_count h h' _ _ _ W I E) as W'.
    unfold add_next, add_node_with_parent in E. destruct (add_node _ _ _ _ _) as [h1|] eqn:E1; [|discriminate].
    apply add_node_inv in E1. destruct E1 as [_ ->]. unfold push_child in E. cbn [h_parent set_ops set_ports set_nodes h_nodes h_kids] in E.
    destruct (h_parent h (next_index h)); [discriminate|]. destruct (climbs _ _ _ _); [discriminate|]. injection E as <-.
    constructor; try reflexivity; [exact W'|]. intros n. specialize (D n). unfold next_index in *.
    cbn [length h_nodes set_tree set_ops set_ports set_nodes In] in *. rewrite Nat2N.inj_succ. rewrite D. lia.
  Qed.

  Lemma new_dense : forall o, dense (new_hugr (M := M) o 0).
  Proof. intros o n. unfold next_index. cbn. lia. Qed.

  Lemma connect_ports_spec : forall k (h : hugr) s d, In s (h_nodes h) -> In d (h_nodes h) -> k <= h_out h s -> k <= h_in h d ->
    connect_ports k h s d = Some (set_links h (h_links h ++ map (fun i => ((s, i), (d, i))) (seq 0 k))).
  Proof.
    induction k as [|k IH]; intros h s d Is Id Lo Li; cbn [connect_ports].
    - cbn [seq map]. rewrite app_nil_r. now destruct h.
    - rewrite IH by (auto; lia). unfold connect, valid_port, contains. cbn [num_ports h_nodes h_in h_out set_links].
      rewrite (proj2 (memN_iff _ _) Is), (proj2 (memN_iff _ _) Id), (proj2 (Nat.ltb_lt _ _) Lo), (proj2 (Nat.ltb_lt _ _) Li).
      cbn [andb]. rewrite seq_S, map_app. cbn. now rewrite app_assoc.
  Qed.

  Lemma set_entry_wf : forall (h : hugr) n, wf h -> In n (h_nodes h) -> wf (set_entry h n).
  Proof. intros h n [] I. constructor; cbn; auto. Qed.
End Seq.
