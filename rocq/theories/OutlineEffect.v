(** What the graph looks like after blocks were moved into a nested control-flow graph. *)
From Coq Require Import List Bool NArith Arith Lia Permutation.
From Verif Require Import TypesModel GraphModel GraphSpec GraphProofs GraphRemove OpModel OpSpec DeadModel InlineModel ReplaceModel ValidSpec OutlineModel OutlineSpec OutlineProofs.
Import ListNotations.
Local Notation wf := GraphSpec.wf.

Section Effect.
  Context {M : Type}.
  Notation hugr := (hugr op M).
  Notation add := (add_node_with_parent OpModel.in_count OpModel.out_count).

  (** ** The new block *)
  Definition sprout (h : hugr) x p o : hugr :=
    set_tree (set_ops (set_ports (set_nodes h (x :: h_nodes h)) (upd (h_in h) x (OpModel.in_count o)) (upd (h_out h) x (OpModel.out_count o))) (upd (h_ops h) x o))
      (upd (h_parent h) x (Some p)) (upd (h_kids h) p (h_kids h p ++ [x])).
  Lemma sprout_links h L x p o : sprout (set_links h L) x p o = set_links (sprout h x p o) L.
  Proof. reflexivity. Qed.
  Lemma set_set (h : hugr) L K : set_links (set_links h L) K = set_links h K.
  Proof. reflexivity. Qed.
  Lemma links_set (h : hugr) L : h_links (set_links h L) = L.
  Proof. reflexivity. Qed.
  Lemma links_sprout h x p o : h_links (sprout h x p o) = h_links h.
  Proof. reflexivity. Qed.
  Lemma add_inv (h h' : hugr) x p o : add h x p o = Some h' -> ~ In x (h_nodes h) /\ h' = sprout h x p o.
  Proof.
    unfold add_node_with_parent, add_node. destruct (contains h x) eqn:C; [discriminate|]. unfold push_child.
    change (h_parent (set_ops (set_ports (set_nodes h (x :: h_nodes h)) (upd (h_in h) x (OpModel.in_count o)) (upd (h_out h) x (OpModel.out_count o))) (upd (h_ops h) x o))) with (h_parent h).
    destruct (h_parent h x); [discriminate|]. destruct (climbs (h_parent h) _ p x); [discriminate|]. intros E. injection E as <-. split; [|reflexivity]. apply memN_false. exact C.
  Qed.
  Lemma connect_inv (h h' : hugr) s i d j : connect h s i d j = Some h' -> h' = set_links h (h_links h ++ [((s, i), (d, j))]).
  Proof. unfold connect. destruct (_ && _); [|discriminate]. intros E. now injection E as <-. Qed.
  Lemma disconnect_inv (h h' : hugr) n i : disconnect h n Out i = Some h' -> h' = set_links h (filter (fun l => negb (ep_eqb (fst l) (n, i))) (h_links h)).
  Proof. unfold disconnect. destruct (valid_port _ _ _ _); [|discriminate]. intros E. now injection E as <-. Qed.
  Lemma each_connect_inv (s d : N) (g1 g2 : nat -> nat) : forall l (h h' : hugr), each (fun h k => connect h s (g1 k) d (g2 k)) l h = Some h' ->
    h' = set_links h (h_links h ++ map (fun k => ((s, g1 k), (d, g2 k))) l).
  Proof.
    induction l as [|k l IH]; intros h h' E; cbn in E.
    - injection E as <-. cbn. rewrite app_nil_r. destruct h; reflexivity.
    - destruct (connect h s (g1 k) d (g2 k)) as [h1|] eqn:C; [|discriminate]. apply connect_inv in C. apply IH in E. subst h1. cbn in E. rewrite <- app_assoc in E. exact E.
  Qed.
  Lemma each_wf {A} (g : hugr -> A -> option hugr) : (forall h h' x, wf h -> g h x = Some h' -> wf h') -> forall l h h', wf h -> each g l h = Some h' -> wf h'.
  Proof.
    intros G. induction l as [|x l IH]; intros h h' W E; cbn in E; [now injection E as <-|]. destruct (g h x) as [h1|] eqn:C; [|discriminate]. exact (IH h1 h' (G h h1 x W C) E).
  Qed.

  Variable f : fresh.
  Definition blocked (h : hugr) p ins outs : hugr :=
    set_links (sprout (sprout (sprout (sprout (sprout (sprout (sprout h (f_block f) p (OBlock ins outs [[]])) (f_in f) (f_block f) (OInput ins)) (f_out f) (f_block f) (OOutput (unit_sum :: outs)))
      (f_cfg f) (f_block f) (OCfg (ins, outs))) (f_exit f) (f_cfg f) (OExit outs)) (f_const f) (f_block f) (OConst 0 unit_sum true)) (f_load f) (f_block f) (OLoadConstant unit_sum))
      (h_links h ++ inner_links f ins outs).
  Lemma add_block_inv (h h' : hugr) p ins outs : wf h -> In p (h_nodes h) -> add_block f h p ins outs = Some h' ->
    wf h' /\ NoDup (fresh_nodes f) /\ (forall y, In y (fresh_nodes f) -> ~ In y (h_nodes h)) /\ h' = blocked h p ins outs.
  Proof.
    intros W Hp. unfold add_block.
    destruct (add h (f_block f) p (OBlock ins outs [[]])) as [h1|] eqn:E1; [|discriminate]. pose proof (add_child_wf OModule _ _ _ _ _ _ _ W Hp E1) as W1. apply add_inv in E1 as (N1 & E1).
    destruct (add h1 (f_in f) (f_block f) (OInput ins)) as [h2|] eqn:E2; [|discriminate]. assert (P1 : In (f_block f) (h_nodes h1)) by (rewrite E1; now left). pose proof (add_child_wf OModule _ _ _ _ _ _ _ W1 P1 E2) as W2. apply add_inv in E2 as (N2 & E2).
    destruct (add h2 (f_out f) (f_block f) (OOutput (unit_sum :: outs))) as [h3|] eqn:E3; [|discriminate]. assert (P2 : In (f_block f) (h_nodes h2)) by (rewrite E2; right; exact P1). pose proof (add_child_wf OModule _ _ _ _ _ _ _ W2 P2 E3) as W3. apply add_inv in E3 as (N3 & E3).
    destruct (add h3 (f_cfg f) (f_block f) (OCfg (ins, outs))) as [h4|] eqn:E4; [|discriminate]. assert (P3 : In (f_block f) (h_nodes h3)) by (rewrite E3; right; exact P2). pose proof (add_child_wf OModule _ _ _ _ _ _ _ W3 P3 E4) as W4. apply add_inv in E4 as (N4 & E4).
    destruct (add h4 (f_exit f) (f_cfg f) (OExit outs)) as [h5|] eqn:E5; [|discriminate]. assert (P4 : In (f_cfg f) (h_nodes h4)) by (rewrite E4; now left). pose proof (add_child_wf OModule _ _ _ _ _ _ _ W4 P4 E5) as W5. apply add_inv in E5 as (N5 & E5).
    destruct (each _ (seq 0 (length ins)) h5) as [h6|] eqn:E6; [|discriminate]. pose proof (each_wf _ (fun a b k Wa E => connect_wf a b _ _ _ _ Wa E) _ _ _ W5 E6) as W6. apply (each_connect_inv (f_in f) (f_cfg f) (fun k => k) (fun k => k)) in E6.
    destruct (add h6 (f_const f) (f_block f) (OConst 0 unit_sum true)) as [h7|] eqn:E7; [|discriminate]. assert (P6 : In (f_block f) (h_nodes h6)) by (rewrite E6, E5, E4; cbn; right; right; exact P3). pose proof (add_child_wf OModule _ _ _ _ _ _ _ W6 P6 E7) as W7. apply add_inv in E7 as (N7 & E7).
    destruct (add h7 (f_load f) (f_block f) (OLoadConstant unit_sum)) as [h8|] eqn:E8; [|discriminate]. assert (P7 : In (f_block f) (h_nodes h7)) by (rewrite E7; right; exact P6). pose proof (add_child_wf OModule _ _ _ _ _ _ _ W7 P7 E8) as W8. apply add_inv in E8 as (N8 & E8).
    destruct (connect h8 _ _ _ _) as [h9|] eqn:E9; [|discriminate]. pose proof (connect_wf _ _ _ _ _ _ W8 E9) as W9. apply connect_inv in E9.
    destruct (connect h9 _ _ _ _) as [h10|] eqn:E10; [|discriminate]. pose proof (connect_wf _ _ _ _ _ _ W9 E10) as W10. apply connect_inv in E10.
    intros E11. pose proof (each_wf _ (fun a b k Wa E => connect_wf a b _ _ _ _ Wa E) _ _ _ W10 E11) as W11. apply (each_connect_inv (f_cfg f) (f_out f) (fun k => k) S) in E11.
    split; [exact W11|]. subst h1 h2 h3 h4 h5 h6 h7 h8 h9 h10.
    assert (B2 : ~ In (f_in f) ([f_block f] ++ h_nodes h)) by exact N2. assert (B3 : ~ In (f_out f) ([f_in f; f_block f] ++ h_nodes h)) by exact N3. assert (B4 : ~ In (f_cfg f) ([f_out f; f_in f; f_block f] ++ h_nodes h)) by exact N4.
    assert (B5 : ~ In (f_exit f) ([f_cfg f; f_out f; f_in f; f_block f] ++ h_nodes h)) by exact N5. assert (B7 : ~ In (f_const f) ([f_exit f; f_cfg f; f_out f; f_in f; f_block f] ++ h_nodes h)) by exact N7.
    assert (B8 : ~ In (f_load f) ([f_const f; f_exit f; f_cfg f; f_out f; f_in f; f_block f] ++ h_nodes h)) by exact N8. clear N2 N3 N4 N5 N7 N8. rewrite in_app_iff in B2, B3, B4, B5, B7, B8. split; [|split].
    - assert (Nd : NoDup [f_load f; f_const f; f_exit f; f_cfg f; f_out f; f_in f; f_block f]) by (constructor; [tauto|]; constructor; [tauto|]; constructor; [tauto|]; constructor; [tauto|]; constructor; [tauto|]; constructor; [tauto|]; constructor; [intros []|constructor]).
      refine (Permutation_NoDup _ Nd). apply NoDup_Permutation_bis; [exact Nd|reflexivity|]. intros y. cbn. tauto.
    - intros y Hy Hn. unfold fresh_nodes in Hy. destruct Hy as [Hy|[Hy|[Hy|[Hy|[Hy|[Hy|[Hy|[]]]]]]]]; rewrite <- Hy in Hn; tauto.
    - rewrite E11. unfold blocked, inner_links. rewrite !sprout_links, !set_set, !links_set, !links_sprout, <- !app_assoc. reflexivity.
  Qed.

  (** ** Moving the other blocks *)
  Definition rest_same (a b : hugr) : Prop := h_nodes b = h_nodes a /\ h_ops b = h_ops a /\ h_in b = h_in a /\ h_out b = h_out a /\ h_links b = h_links a /\ h_root b = h_root a /\ h_entry b = h_entry a.
  Lemma set_parent_does (h h' : hugr) n p c : wf h -> h_parent h n = Some p -> c <> p -> set_parent h n c = Some h' ->
    wf h' /\ rest_same h h' /\ (forall y, h_parent h' y = upd (h_parent h) n (Some c) y) /\ h_kids h' c = h_kids h c ++ [n] /\ h_kids h' p = delN n (h_kids h p) /\ (forall y, y <> c -> y <> p -> h_kids h' y = h_kids h y).
  Proof.
    intros W P Hc E. pose proof (set_parent_wf OModule OpModel.in_count OpModel.out_count h h' n c W E) as W'. apply set_parent_inv in E as (A & B & C & E); [|exact W]. split; [exact W'|]. rewrite E. split; [pose proof (detach_rest h n) as Dr; unfold rest_same; cbn; tauto|]. split; [intros y; apply upd_detached|]. cbn.
    assert (Nc : ~ In n (h_kids h c)) by (rewrite (wf_kids h W); congruence). split; [rewrite upd_same, (detach_kids h W), (delN_id _ _ Nc); reflexivity|].
    split; [rewrite upd_other by congruence; apply (detach_kids h W)|]. intros y Y1 Y2. rewrite upd_other by exact Y1. rewrite (detach_kids h W). apply delN_id. rewrite (wf_kids h W). congruence.
  Qed.
  Lemma rest_trans a b c : rest_same a b -> rest_same b c -> rest_same a c.
  Proof. unfold rest_same. intuition congruence. Qed.
  Definition moves (e : N) (bl : list N) (y : N) : bool := memN y bl && negb (N.eqb y e).
  Lemma move_rest e p c : c <> p -> forall bl (h h' : hugr), wf h -> NoDup bl -> (forall n, In n bl -> n <> e -> h_parent h n = Some p) ->
    each (fun h n => if N.eqb n e then Some h else set_parent h n c) bl h = Some h' ->
    wf h' /\ rest_same h h' /\ (forall y, h_parent h' y = if moves e bl y then Some c else h_parent h y) /\ h_kids h' c = h_kids h c ++ delN e bl /\
    h_kids h' p = filter (fun y => negb (moves e bl y)) (h_kids h p) /\ (forall y, y <> c -> y <> p -> h_kids h' y = h_kids h y).
  Proof.
    intros Hc. induction bl as [|n bl IH]; intros h h' W Nd Par E; cbn [each] in E.
    - injection E as <-. split; [exact W|]. split; [unfold rest_same; auto 9|]. split; [reflexivity|]. split; [cbn; now rewrite app_nil_r|]. split; [|auto]. symmetry. clear. induction (h_kids h p) as [|y l IHl]; [reflexivity|]. cbn. f_equal. exact IHl.
    - inversion Nd as [|? ? Nn Nd2]; subst. assert (Mv : forall y, moves e (n :: bl) y = (N.eqb y n && negb (N.eqb y e)) || moves e bl y).
      { intros y. unfold moves, memN. cbn. destruct (N.eqb y n), (N.eqb y e); cbn; auto using orb_true_r. now rewrite !andb_false_r. }
      destruct (N.eqb_spec n e) as [->|Ne].
      + destruct (IH h h' W Nd2) as (A & B & C & D & F & G); [intros m Hm; apply Par; now right|exact E|]. assert (Mv2 : forall y, moves e (e :: bl) y = moves e bl y) by (intros y; rewrite Mv; destruct (N.eqb y e); reflexivity).
        split; [exact A|]. split; [exact B|]. split; [intros y; rewrite Mv2; apply C|]. split; [rewrite D; unfold delN; cbn; rewrite N.eqb_refl; reflexivity|]. split; [rewrite F; apply filter_ext; intros y; now rewrite Mv2|exact G].
      + destruct (set_parent h n c) as [h1|] eqn:S1; [|discriminate]. assert (Pn : h_parent h n = Some p) by (apply Par; [now left|exact Ne]). destruct (set_parent_does h h1 n p c W Pn Hc S1) as (W1 & R1 & P1 & K1 & K2 & K3).
        destruct (IH h1 h' W1 Nd2) as (A & B & C & D & F & G); [intros m Hm Hme; rewrite P1, upd_other; [apply Par; [now right|exact Hme]|intros ->; contradiction]|exact E|].
        split; [exact A|]. split; [exact (rest_trans _ _ _ R1 B)|]. split; [|split; [|split]].
        * intros y. rewrite C, Mv, P1. destruct (moves e bl y) eqn:Em; [now rewrite orb_true_r|]. rewrite orb_false_r. unfold upd. destruct (N.eqb_spec y n) as [->|]; [|reflexivity]. destruct (N.eqb_spec n e); [contradiction|reflexivity].
        * rewrite D, K1. unfold delN. cbn. destruct (N.eqb_spec n e); [contradiction|]. cbn. rewrite <- app_assoc. reflexivity.
        * rewrite F, K2. unfold delN. clear - Mv Ne. induction (h_kids h p) as [|y l IHl]; [reflexivity|]. cbn. rewrite Mv. destruct (N.eqb_spec y n) as [->|D]; cbn.
          -- destruct (N.eqb_spec n e); [contradiction|]. exact IHl.
          -- destruct (moves e bl y); cbn; [exact IHl|f_equal; exact IHl].
        * intros y Y1 Y2. rewrite (G y Y1 Y2). apply K3; assumption.
  Qed.

  (** ** Edges into the entry *)
  Lemma cut_link (s d : endpoint) outs (ls : list link) : existsb (ep_eqb s) outs = false ->
    filter (fun l : link => negb (existsb (ep_eqb (fst l)) outs)) (filter (fun l : link => negb (ep_eqb (fst l) s)) ls ++ [(s, d)]) = filter (fun l : link => negb (existsb (ep_eqb (fst l)) (s :: outs))) ls ++ [(s, d)].
  Proof.
    intros Ns. induction ls as [|l ls IH]; cbn [app filter fst existsb]; [rewrite Ns; reflexivity|]. cbn [existsb] in IH. destruct (ep_eqb (fst l) s); cbn [negb orb app filter]; [exact IH|]. destruct (existsb (ep_eqb (fst l)) outs); cbn [negb app]; [exact IH|]. f_equal. exact IH.
  Qed.
  Lemma redirect_loop blocks (new : N) : forall pes (h h' : hugr), NoDup pes ->
    each (fun h (pe : endpoint) => if memN (fst pe) blocks then Some h else match disconnect h (fst pe) Out (snd pe) with Some h => connect h (fst pe) (snd pe) new 0 | None => None end) pes h = Some h' ->
    let outs := filter (fun pe => negb (memN (fst pe) blocks)) pes in
    h' = set_links h (filter (fun l : link => negb (existsb (ep_eqb (fst l)) outs)) (h_links h) ++ map (fun pe => (pe, (new, 0))) outs).
  Proof.
    induction pes as [|[s i] pes IH]; intros h h' Nd E; cbn [each] in E.
    - injection E as <-. cbn. rewrite app_nil_r. replace (filter (fun _ : link => true) (h_links h)) with (h_links h); [destruct h; reflexivity|]. induction (h_links h) as [|l ls IHl]; [reflexivity|]. cbn. f_equal. exact IHl.
    - inversion Nd as [|? ? Nn Nd2]; subst. cbn [fst snd] in E. cbn [filter fst]. destruct (memN s blocks); cbn [negb]; [exact (IH h h' Nd2 E)|].
      destruct (disconnect h s Out i) as [h1|] eqn:D; [|discriminate]. apply disconnect_inv in D. destruct (connect h1 s i new 0) as [h2|] eqn:C; [|discriminate]. apply connect_inv in C. apply (IH h2 h' Nd2) in E. cbn zeta in E. rewrite E, C, D, !set_set, !links_set.
      set (outs := filter (fun pe : endpoint => negb (memN (fst pe) blocks)) pes) in *. assert (Ns : existsb (ep_eqb (s, i)) outs = false).
      { apply not_true_is_false. intros X. apply existsb_exists in X as (y & Y1 & Y2). apply ep_eqb_iff in Y2. rewrite <- Y2 in Y1. apply filter_In in Y1 as [Y1 _]. contradiction. }
      f_equal. etransitivity; [apply (f_equal (fun x => x ++ _)), (cut_link (s, i) (new, 0) outs (h_links h) Ns)|]. rewrite <- app_assoc. reflexivity.
  Qed.
End Effect.
