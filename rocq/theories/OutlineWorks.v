(** Blocks can be moved into a nested control-flow graph: no step fails. *)
From Coq Require Import List Bool NArith Arith Lia Permutation.
From Verif Require Import TypesModel GraphModel GraphSpec GraphProofs GraphRemove OpModel OpSpec DeadModel InlineModel ReplaceModel ValidModel ValidSpec OutlineModel OutlineSpec OutlineProofs InlineProofs OutlineEffect OutlineMain.
Import ListNotations.
Local Notation wf := GraphSpec.wf.

Section Works.
  Context {M : Type}.
  Notation hugr := (hugr op M).
  Notation add := (add_node_with_parent OpModel.in_count OpModel.out_count).

  (** ** Single steps *)
  Lemma add_some (h : hugr) x p o : wf h -> In p (h_nodes h) -> ~ In x (h_nodes h) -> add h x p o = Some (sprout h x p o).
  Proof.
    intros W Hp Hx. unfold add_node_with_parent, add_node. assert (C : contains h x = false) by (apply memN_false; exact Hx). rewrite C. unfold push_child.
    change (h_parent (set_ops (set_ports (set_nodes h (x :: h_nodes h)) (upd (h_in h) x (OpModel.in_count o)) (upd (h_out h) x (OpModel.out_count o))) (upd (h_ops h) x o))) with (h_parent h).
    rewrite (proj1 (wf_unused h W x Hx)). destruct (climbs (h_parent h) _ p x) eqn:Cl; [|reflexivity]. exfalso.
    apply (climbs_wf h W (h_parent h) (fun _ _ E => E) p x) in Cl; [|exact Hp|cbn; lia]. apply Hx. exact (up_live h W p x Cl Hp).
  Qed.
  Lemma connect_some (h : hugr) s i d j : In s (h_nodes h) -> i < h_out h s -> In d (h_nodes h) -> j < h_in h d -> connect h s i d j = Some (set_links h (h_links h ++ [((s, i), (d, j))])).
  Proof.
    intros A B C D. unfold connect, valid_port. rewrite (proj2 (contains_iff h s) A), (proj2 (contains_iff h d) C). cbn [andb num_ports]. rewrite (proj2 (Nat.ltb_lt _ _) B), (proj2 (Nat.ltb_lt _ _) D). reflexivity.
  Qed.
  Lemma disconnect_some (h : hugr) n i : In n (h_nodes h) -> i < h_out h n -> exists h', disconnect h n Out i = Some h'.
  Proof. intros A B. unfold disconnect, valid_port. rewrite (proj2 (contains_iff h n) A). cbn [andb num_ports]. rewrite (proj2 (Nat.ltb_lt _ _) B). eauto. Qed.
  Lemma each_connect_some (s d : N) (g1 g2 : nat -> nat) : forall l (h : hugr), In s (h_nodes h) -> In d (h_nodes h) -> (forall k, In k l -> g1 k < h_out h s /\ g2 k < h_in h d) ->
    exists h', each (fun h k => connect h s (g1 k) d (g2 k)) l h = Some h'.
  Proof.
    induction l as [|k l IH]; intros h A B C; cbn [each]; [eauto|]. destruct (C k (or_introl eq_refl)) as [C1 C2]. rewrite (connect_some h s _ d _ A C1 B C2). apply IH; cbn [h_nodes h_in h_out set_links]; auto. intros m Hm. apply C. now right.
  Qed.
  Lemma sibling_some after (h : hugr) n s p : wf h -> In n (h_nodes h) -> In s (h_nodes h) -> n <> h_entry h -> s <> h_entry h -> n <> s -> h_parent h s = Some p -> ~ up (h_parent h) p n -> exists h', move_sibling after h n s = Some h'.
  Proof.
    intros W A B C D Ne P U. unfold move_sibling, valid_non_entry. rewrite (proj2 (contains_iff h n) A), (proj2 (contains_iff h s) B), (proj2 (N.eqb_neq _ _) C), (proj2 (N.eqb_neq _ _) D). cbn [andb negb]. unfold insert_sibling. rewrite detach_parent, upd_same.
    rewrite detach_parent, upd_other by congruence. rewrite P. destruct (climbs _ _ p n) eqn:Cl; [|eauto]. exfalso. apply (climbs_detached h W n p) in Cl; [contradiction|]. apply (wf_parent_live h W s p P).
  Qed.
  Lemma redirect_some blocks (new : N) : forall pes (h : hugr), (forall pe, In pe pes -> In (fst pe) (h_nodes h) /\ snd pe < h_out h (fst pe)) -> In new (h_nodes h) -> 0 < h_in h new ->
    exists h', each (fun h (pe : endpoint) => if memN (fst pe) blocks then Some h else match disconnect h (fst pe) Out (snd pe) with Some h => connect h (fst pe) (snd pe) new 0 | None => None end) pes h = Some h'.
  Proof.
    induction pes as [|[s i] pes IH]; intros h A B C; cbn [each]; [eauto|]. destruct (A _ (or_introl eq_refl)) as [A1 A2]. cbn [fst snd] in *. destruct (memN s blocks); [apply IH; auto; intros pe H; apply A; now right|].
    destruct (disconnect_some h s i A1 A2) as (h1 & E). rewrite E. apply disconnect_inv in E. assert (F : h_nodes h1 = h_nodes h /\ h_in h1 = h_in h /\ h_out h1 = h_out h) by (rewrite E; auto). clear E. destruct F as (F1 & F2 & F3).
    rewrite connect_some by (rewrite ?F1, ?F2, ?F3; assumption). apply IH; cbn; rewrite ?F1, ?F2, ?F3; auto. intros pe H; apply A; now right.
  Qed.

  (** ** The new block *)
  Variable f : fresh.
  Lemma ports_set (h h' : hugr) L : h' = set_links h L -> h_nodes h' = h_nodes h /\ h_in h' = h_in h /\ h_out h' = h_out h /\ h_ops h' = h_ops h.
  Proof. intros ->. auto. Qed.
  Lemma add_block_some (h : hugr) p ins outs : wf h -> In p (h_nodes h) -> NoDup (fresh_nodes f) -> (forall y, In y (fresh_nodes f) -> ~ In y (h_nodes h)) ->
    exists h', add_block f h p ins outs = Some h' /\ h_in h' (f_block f) = 1 /\ h_out h' (f_block f) = 1 /\ h_in h' (f_exit f) = 1.
  Proof.
    intros W Hp Nd Fr. unfold fresh_nodes in *. assert (F1 : ~ In (f_block f) (h_nodes h)) by (apply Fr; cbn; tauto). assert (F2 : ~ In (f_in f) (h_nodes h)) by (apply Fr; cbn; tauto). assert (F3 : ~ In (f_out f) (h_nodes h)) by (apply Fr; cbn; tauto).
    assert (F4 : ~ In (f_cfg f) (h_nodes h)) by (apply Fr; cbn; tauto). assert (F5 : ~ In (f_exit f) (h_nodes h)) by (apply Fr; cbn; tauto). assert (F6 : ~ In (f_const f) (h_nodes h)) by (apply Fr; cbn; tauto). assert (F7 : ~ In (f_load f) (h_nodes h)) by (apply Fr; cbn; tauto). clear Fr.
    apply NoDup_cons_iff in Nd as [D1 Nd]. apply NoDup_cons_iff in Nd as [D2 Nd]. apply NoDup_cons_iff in Nd as [D3 Nd]. apply NoDup_cons_iff in Nd as [D4 Nd]. apply NoDup_cons_iff in Nd as [D5 Nd]. apply NoDup_cons_iff in Nd as [D6 _]. cbn [In] in D1, D2, D3, D4, D5, D6.
    repeat match goal with H : ~ (_ \/ _) |- _ => apply Decidable.not_or in H; destruct H end. unfold add_block.
    Ltac chase := repeat match goal with
      | |- context [upd _ ?a _ ?a] => rewrite upd_same
      | |- context [upd _ ?a _ ?c] => rewrite (upd_other _ _ a _ c) by first [assumption | apply not_eq_sym; assumption]
      | H : forall y, h_in ?g y = _ |- context [h_in ?g _] => rewrite H | H : forall y, h_out ?g y = _ |- context [h_out ?g _] => rewrite H end.
    Ltac step E h1 W1 := match goal with |- context [add_node_with_parent _ _ ?h ?x ?p ?o] => match goal with W : wf h |- _ =>
      assert (E : add h x p o = Some (sprout h x p o)) by (apply add_some; [exact W|now (repeat (match goal with N : h_nodes _ = _ |- _ => rewrite N end); cbn; tauto)|(repeat (match goal with N : h_nodes _ = _ |- _ => rewrite N end); cbn [In]; intros X; repeat destruct X as [X|X]; congruence || contradiction)]); rewrite E;
      assert (W1 : wf (sprout h x p o)) by (refine (add_child_wf OModule _ _ _ _ _ _ _ W _ E); repeat (match goal with N : h_nodes _ = _ |- _ => rewrite N end); cbn; tauto); clear E; remember (sprout h x p o) as h1 eqn:E; apply grew in E end end.
    step E1 h1 W1. destruct E1 as (N1 & _ & _ & _ & I1 & U1 & _ & _).
    step E2 h2 W2. destruct E2 as (N2 & _ & _ & _ & I2 & U2 & _ & _).
    step E3 h3 W3. destruct E3 as (N3 & _ & _ & _ & I3 & U3 & _ & _).
    step E4 h4 W4. destruct E4 as (N4 & _ & _ & _ & I4 & U4 & _ & _).
    step E5 h5 W5. destruct E5 as (N5 & _ & _ & _ & I5 & U5 & _ & _).
    destruct (each_connect_some (f_in f) (f_cfg f) (fun k => k) (fun k => k) (seq 0 (length ins)) h5) as (h6 & E6).
    { rewrite N5, N4, N3, N2. cbn; tauto. } { rewrite N5, N4. cbn; tauto. }
    { intros k Hk. apply in_seq in Hk. chase. cbn. rewrite ?app_length; cbn; clear - Hk; lia. }
    rewrite E6. pose proof (each_wf _ (fun a b k Wa E => connect_wf a b _ _ _ _ Wa E) _ _ _ W5 E6) as W6. apply (each_connect_inv (f_in f) (f_cfg f) (fun k => k) (fun k => k)) in E6. apply ports_set in E6 as (N6 & I6 & U6 & _).
    step E7 h7 W7. destruct E7 as (N7 & _ & _ & _ & I7 & U7 & _ & _).
    step E8 h8 W8. destruct E8 as (N8 & _ & _ & _ & I8 & U8 & _ & _).
    destruct (connect h8 (f_const f) 0 (f_load f) 0) as [h9|] eqn:E9.
    2: { rewrite connect_some in E9; [discriminate|rewrite N8, N7; cbn; tauto|chase; cbn; clear; lia|rewrite N8; cbn; tauto|chase; cbn; clear; lia]. }
    apply connect_inv in E9. apply ports_set in E9 as (N9 & I9 & U9 & _).
    destruct (connect h9 (f_load f) 0 (f_out f) 0) as [h10|] eqn:E10.
    2: { rewrite connect_some in E10; [discriminate| | | |].
      - rewrite N9, N8. now left.
      - rewrite U9. chase. cbn. clear; lia.
      - rewrite N9, N8, N7, N6, N5, N4, N3. cbn [In]. tauto.
      - rewrite I9. chase. rewrite I6. chase. cbn. clear; lia. }
    apply connect_inv in E10. apply ports_set in E10 as (N10 & I10 & U10 & _).
    destruct (each_connect_some (f_cfg f) (f_out f) (fun k => k) S (seq 0 (length outs)) h10) as (h11 & E11).
    { rewrite N10, N9, N8, N7, N6, N5, N4. cbn; tauto. } { rewrite N10, N9, N8, N7, N6, N5, N4, N3. cbn; tauto. }
    { intros k Hk. apply in_seq in Hk. rewrite I10, U10, I9, U9. chase. rewrite I6, U6. chase. cbn. rewrite ?app_length; cbn; clear - Hk; lia. }
    exists h11. split; [exact E11|]. apply (each_connect_inv (f_cfg f) (f_out f) (fun k => k) S) in E11. apply ports_set in E11 as (_ & I11 & U11 & _). rewrite I11, U11, I10, U10, I9, U9. chase. rewrite I6, U6. chase. auto.
  Qed.

  (** ** The other blocks *)
  Lemma up_before (g : N -> option N) n v a m : up (upd g n v) a m -> ~ up g a n -> up g a m.
  Proof.
    intros U. induction U as [a|a q m E U IH]; intros A; [constructor|]. assert (Ne : a <> n) by (intros ->; apply A; constructor). rewrite upd_other in E by exact Ne. eapply up_next; [exact E|]. apply IH. intros X. apply A. eapply up_next; eassumption.
  Qed.
  Lemma move_rest_some e p c : c <> p -> forall bl (h : hugr), wf h -> NoDup bl -> In c (h_nodes h) -> (forall n, In n bl -> In n (h_nodes h) /\ ~ up (h_parent h) c n) -> (forall n, In n bl -> n <> e -> h_parent h n = Some p) ->
    exists h', each (fun h n => if N.eqb n e then Some h else set_parent h n c) bl h = Some h'.
  Proof.
    intros Hc. induction bl as [|n bl IH]; intros h W Nd Lc A Par; cbn [each]; [eauto|]. inversion Nd as [|? ? Nn Nd2]; subst. destruct (N.eqb_spec n e) as [->|Ne]; [apply IH; auto; [intros m Hm; apply A; now right|intros m Hm; apply Par; now right]|].
    destruct (A n (or_introl eq_refl)) as [A1 A2]. destruct (proj2 (set_parent_iff h n c W) (conj A1 (conj Lc A2))) as (h1 & E). rewrite E. assert (Pn : h_parent h n = Some p) by (apply Par; [now left|exact Ne]).
    destruct (set_parent_does h h1 n p c W Pn Hc E) as (W1 & (R1 & _) & P1 & _ & _ & _). apply IH; [exact W1|exact Nd2|rewrite R1; exact Lc| |].
    - intros m Hm. destruct (A m (or_intror Hm)) as [B1 B2]. rewrite R1. split; [exact B1|]. intros U. apply B2. apply (up_before (h_parent h) n (Some c)); [|exact A2]. apply (proj1 (up_ext _ _ P1 c m) U).
    - intros m Hm Hme. rewrite P1, upd_other; [apply Par; [now right|exact Hme]|intros ->; contradiction].
  Qed.
  Lemma filter_unique {A} (g : A -> bool) l a : NoDup l -> In a l -> g a = true -> (forall y, In y l -> g y = true -> y = a) -> filter g l = [a].
  Proof.
    induction l as [|y l IH]; intros Nd Ha Ga U; [destruct Ha|]. inversion Nd as [|? ? Ny Nd2]; subst. cbn. destruct (g y) eqn:Gy.
    - assert (y = a) by (apply U; [now left|exact Gy]). subst y. f_equal. apply filter_none. intros z Hz. apply not_true_is_false. intros Gz. assert (z = a) by (apply U; [now right|exact Gz]). subst z. contradiction.
    - destruct Ha as [->|Ha]; [congruence|]. apply IH; auto. intros z Hz. apply U. now right.
  Qed.

  Variable env : N -> N -> option typedef.
  Variable defs : N -> N -> opsig.

  Lemma value_order (l : list ty) : ~ In EControl (values l ++ [EOrder]).
  Proof. unfold values. rewrite in_app_iff, in_map_iff. intros [(? & H & _)|[H|[]]]; discriminate. Qed.
  Lemma control_port o ks : ports o Inc ks -> In EControl ks -> ks = [EControl] /\ exists outs, block_input o = Some outs.
  Proof.
    intros P H. inversion P; subst; cbn [block_input]; eauto; exfalso; unfold values in H; cbn [In] in H; rewrite ?in_app_iff, ?in_map_iff in H; cbn [In] in H;
      repeat match type of H with _ \/ _ => destruct H as [H|H] | exists _, _ => destruct H as (? & H & _) | False => destruct H end; discriminate.
  Qed.

  (** Control flows between children of the same graph, into their only port. *)
  Lemma control_edge (h : hugr) s i d j x y z : wf h -> valid env defs h -> h_ops h s = OBlock x y z -> In ((s, i), (d, j)) (h_links h) ->
    j = 0 /\ h_parent h d = h_parent h s /\ (exists outs, block_input (h_ops h d) = Some outs) /\ In d (h_nodes h) /\ 0 < h_in h d.
  Proof.
    intros W V O Hl. destruct (v_links _ _ _ V s i d j Hl) as (k & (ks & A1 & A2) & (kd & B1 & B2) & Le). rewrite O in A1. inversion A1; subst ks. assert (k = EControl) by (apply nth_error_In in A2; apply in_map_iff in A2 as (? & <- & _); reflexivity). subst k.
    assert (Pd : h_parent h d = h_parent h s) by (destruct Le as [q Q1 Q2|q Q1 Q2 Q3 Q4|t q a Q1 Q2 Q3 Q4 Q5 Q6 Q7|t b c g w Q1 Q2 Q3 Q4 Q5 Q6 Q7 Q8 Q9 Q10]; [congruence|destruct Q1 as [[? ?]|[? ?]]; discriminate|discriminate|discriminate]).
    destruct (control_port _ _ B1 (nth_error_In _ _ B2)) as [-> Bi]. destruct (wf_links h W _ Hl) as [_ [Ld Lj]]. cbn [fst snd] in Ld, Lj. split; [destruct j as [|[|j]]; [reflexivity|discriminate|discriminate]|]. split; [exact Pd|]. split; [exact Bi|]. split; [exact Ld|lia].
  Qed.
  Lemma block_ports (h : hugr) n x y z : valid env defs h -> In n (h_nodes h) -> h_ops h n = OBlock x y z -> h_in h n = 1 /\ forall i, i < h_out h n -> length (out_links h (n, i)) = 1.
  Proof.
    intros V Hn O. destruct (v_ports _ _ _ V n Hn) as (ki & ko & A & B & Li & Lo). rewrite O in A, B. inversion A; subst ki. inversion B; subst ko. split; [exact Li|]. intros k Hk. apply (v_outputs _ _ _ V n k EControl Hn); [|exact Logic.I].
    exists (map (fun _ => EControl) z). split; [rewrite O; exact B|]. rewrite map_length in Lo. destruct (nth_error z k) as [r|] eqn:Er; [exact (map_nth_error (fun _ => EControl) k z Er)|]. apply nth_error_None in Er. lia.
  Qed.

  (** ** The whole *)
  Lemma one_branch (h : hugr) x i t o xa xb xc : valid env defs h -> In x (h_nodes h) -> h_ops h x = OBlock xa xb xc -> i < h_out h x -> In ((x, i), (t, 0)) (h_links h) -> In ((x, i), (o, 0)) (h_links h) -> t = o.
  Proof.
    intros V Lx Ox Li A B. destruct (block_ports h x xa xb xc V Lx Ox) as [_ One]. specialize (One i Li). assert (A2 : In ((x, i), (t, 0)) (out_links h (x, i))) by (apply filter_In; split; [exact A|now apply ep_eqb_iff]). assert (B2 : In ((x, i), (o, 0)) (out_links h (x, i))) by (apply filter_In; split; [exact B|now apply ep_eqb_iff]).
    destruct (out_links h (x, i)) as [|a [|? ?]]; try discriminate. destruct A2 as [A2|[]], B2 as [B2|[]]. pose proof (eq_trans (eq_sym A2) B2) as X. congruence.
  Qed.
  Lemma move_blocks_works (h : hugr) blocks p e x o ins oo rows outs : wf h -> valid env defs h -> NoDup blocks -> (forall n, In n blocks -> In n (h_nodes h)) -> movable h blocks p e x o ->
    (forall n, In n blocks -> exists a b c, h_ops h n = OBlock a b c) -> e <> h_entry h -> NoDup (fresh_nodes f) -> (forall y, In y (fresh_nodes f) -> ~ In y (h_nodes h)) ->
    h_ops h e = OBlock ins oo rows -> exists h', move_blocks f h blocks e x o p ins outs = Some h'.
  Proof.
    intros W V Nd L Mv Bl Nent Fn Fr Oe. pose proof Mv as [[_ Par] _ Me (i0 & j0 & bef & aft & Lk0 & Lv0 & Nb1 & Nb2)]. assert (He : In e blocks) by (apply (proj2 (Me e)); reflexivity). assert (Hx : In x blocks) by exact (proj1 Lv0). assert (Pe : h_parent h e = Some p) by (apply Par, He).
    assert (Hp : In p (h_nodes h)) by (apply (wf_parent_live h W) in Pe; tauto). unfold move_blocks. destruct (h_kids h p) as [|first kids] eqn:Ek; [apply (wf_kids h W) in Pe; rewrite Ek in Pe; destruct Pe|].
    assert (Hl0 : In ((x, i0), (o, j0)) (h_links h)) by (rewrite Lk0; apply in_or_app; right; now left). assert (Uniq : forall l, In l (h_links h) -> leaves blocks l -> l = ((x, i0), (o, j0))).
    { intros l A D. rewrite Lk0 in A. apply in_app_or in A as [A|[A|A]]; [destruct (Nb1 _ A D)|auto|destruct (Nb2 _ A D)]. }
    destruct (Bl x Hx) as (xa & xb & xc & Ox). destruct (control_edge h x i0 o j0 xa xb xc W V Ox Hl0) as (-> & Po & _ & Lo_ & Io). destruct (block_ports h x xa xb xc V (L x Hx) Ox) as [_ Outx]. destruct (block_ports h e ins oo rows V (L e He) Oe) as [Ine _].
    destruct (add_block_some h p ins outs W Hp Fn Fr) as (h1 & E1 & Ib & Ub & Ie). rewrite E1. apply (add_block_inv f h h1 p ins outs W Hp) in E1 as (W1 & _ & _ & E1). pose proof (blocked_block f h p ins outs W Hp Fn Fr) as B. rewrite <- E1 in B. clear E1.
    assert (Old : forall y, In y (h_nodes h) -> ~ In y (fresh_nodes f)) by (intros y A C; exact (Fr y C A)). assert (Fb : In (f_block f) (fresh_nodes f)) by now left. assert (Fc : In (f_cfg f) (fresh_nodes f)) by (cbn; tauto). assert (Fe : In (f_exit f) (fresh_nodes f)) by (cbn; tauto).
    destruct (wb_placed _ _ _ _ _ _ B) as (Pb & Pq & Pi).
    assert (Live1 : forall y, In y (h_nodes h) -> In y (h_nodes h1)) by (intros y Hy; apply (wb_nodes _ _ _ _ _ _ B); now right). assert (Live2 : forall y, In y (fresh_nodes f) -> In y (h_nodes h1)) by (intros y Hy; apply (wb_nodes _ _ _ _ _ _ B); now left).
    assert (In1 : h_in h1 e = 1) by (destruct (wb_old _ _ _ _ _ _ B e (Old e (L e He))) as (_ & A & _); congruence).
    assert (Lo : linked_outputs h1 e 0 = linked_outputs h e 0).
    { unfold linked_outputs. rewrite (wb_links _ _ _ _ _ _ B). etransitivity; [apply (f_equal (map fst)), (@filter_app link)|]. rewrite (filter_none _ (inner_links f ins outs)); [rewrite app_nil_r; reflexivity|]. intros l Hl. apply inner_fresh in Hl as [_ Hl].
      apply not_true_is_false. intros A. apply ep_eqb_iff in A. rewrite A in Hl. exact (Fr _ Hl (L e He)). }
    assert (Nl : NoDup (linked_outputs h e 0)).
    { unfold linked_outputs. apply sources_nodup. intros l Hl. apply filter_In in Hl as [Hl El]. apply ep_eqb_iff in El. destruct (one_target env defs h l l e ins oo rows W V Oe Hl El) as [One _]. etransitivity; [apply filter_shorter|]. apply Nat.eq_le_incl. exact One. }
    destruct (move_entry_edges blocks (f_block f) e h1) as [h2|] eqn:E2; unfold move_entry_edges in E2; rewrite In1, Lo in E2; cbn [Nat.eqb] in E2.
    2: { exfalso. destruct (redirect_some blocks (f_block f) (linked_outputs h e 0) h1) as (hx & Ex); [|apply Live2, Fb|rewrite Ib; apply Nat.lt_0_1|discriminate (eq_trans (eq_sym E2) Ex)].
      intros [s i] Hs. unfold linked_outputs in Hs. apply in_map_iff in Hs as (l & El & Hs). apply filter_In in Hs as [Hs _]. destruct (wf_links h W _ Hs) as [[Ls Li] _]. rewrite El in Ls, Li. cbn [fst snd] in *. split; [apply Live1, Ls|]. destruct (wb_old _ _ _ _ _ _ B s (Old s Ls)) as (_ & _ & A & _). rewrite A. exact Li. }
    assert (W2 : wf h2).
    { refine (each_wf _ _ _ _ _ W1 E2). intros a b [s i] Wa. cbn [fst snd]. destruct (memN s blocks); [intros E; now injection E as <-|]. destruct (disconnect a s Out i) as [a1|] eqn:Da; [|discriminate]. intros Ca. exact (connect_wf _ _ _ _ _ _ (disconnect_wf _ _ _ _ _ Wa Da) Ca). }
    apply (redirect_loop blocks (f_block f) _ h1 h2 Nl) in E2. cbn zeta in E2. rewrite entries_of in E2.
    assert (Lk2 : h_links h2 = (filter (fun l => negb (goes_in blocks e l)) (h_links h) ++ inner_links f ins outs) ++ map (fun pe => (pe, (f_block f, 0))) (map fst (filter (goes_in blocks e) (h_links h)))).
    { rewrite E2. cbn [h_links set_links]. f_equal. rewrite (wb_links _ _ _ _ _ _ B). etransitivity; [apply (@filter_app link)|]. f_equal.
      - apply filter_ext_in. intros l Hl. f_equal. destruct (goes_in blocks e l) eqn:G.
        + apply existsb_exists. exists (fst l). split; [apply in_map, filter_In; auto|now apply ep_eqb_iff].
        + apply not_true_is_false. intros A. apply existsb_exists in A as (y & A1 & A2). apply ep_eqb_iff in A2. apply in_map_iff in A1 as (m & A3 & A4). apply filter_In in A4 as [A4 A5]. pose proof A5 as A6. unfold goes_in in A6. apply andb_true_iff in A6 as [A6 _]. apply ep_eqb_iff in A6.
          destruct (one_target env defs h m l e ins oo rows W V Oe A4 A6) as [_ Eq]. rewrite (Eq Hl) in G by congruence. congruence.
      - apply filter_all. intros l Hl. apply inner_fresh in Hl as [Hl _]. apply negb_true_iff, not_true_is_false. intros A. apply existsb_exists in A as (y & A1 & A2). apply ep_eqb_iff in A2. apply in_map_iff in A1 as (m & A3 & A4). apply filter_In in A4 as [A4 _].
        destruct (wf_links h W _ A4) as [[Ls _] _]. apply (Fr _ Hl). rewrite A2, <- A3. exact Ls. }
    assert (R2 : h_nodes h2 = h_nodes h1 /\ h_ops h2 = h_ops h1 /\ h_in h2 = h_in h1 /\ h_out h2 = h_out h1 /\ h_parent h2 = h_parent h1 /\ h_kids h2 = h_kids h1 /\ h_root h2 = h_root h1 /\ h_entry h2 = h_entry h1) by (rewrite E2; cbn; auto 9). clear E2.
    destruct R2 as (R2n & R2o & R2i & R2u & R2p & R2k & R2r & R2e).
    assert (Nb : ~ In (f_block f) (h_kids h p)) by (rewrite (wf_kids h W); intros A; apply (wf_parent_live h W) in A; exact (Fr _ Fb (proj1 A))).
    assert (Dp : f_block f <> p) by (intros A; apply (Fr _ Fb); rewrite A; exact Hp). assert (Dc : f_cfg f <> p) by (intros A; apply (Fr _ Fc); rewrite A; exact Hp).

    assert (Up1 : forall a m, up (h_parent h1) a m -> In a (h_nodes h) -> up (h_parent h) a m).
    { intros a m U. induction U as [a|a q m E U IH]; intros Ha; [constructor|]. destruct (wb_old _ _ _ _ _ _ B a (Old a Ha)) as (_ & _ & _ & A & _). rewrite A in E. eapply up_next; [exact E|]. apply IH. apply (wf_parent_live h W) in E. tauto. }
    destruct (if N.eqb e first then move_sibling false h2 (f_block f) first else Some h2) as [h3|] eqn:E3.
    2: { exfalso. destruct (N.eqb_spec e first) as [Ef|_]; [|discriminate]. rewrite <- Ef in E3. destruct (sibling_some false h2 (f_block f) e p W2) as (hx & Ex).
      - rewrite R2n. apply Live2, Fb.
      - rewrite R2n. apply Live1, L, He.
      - rewrite R2e, (wb_entry _ _ _ _ _ _ B). intros A. apply (Fr _ Fb). rewrite A. apply (wf_entry h W).
      - rewrite R2e, (wb_entry _ _ _ _ _ _ B). exact Nent.
      - intros A. apply (Fr _ Fb). rewrite A. apply L, He.
      - rewrite R2p. destruct (wb_old _ _ _ _ _ _ B e (Old e (L e He))) as (_ & _ & _ & A & _). congruence.
      - rewrite R2p. intros U. apply Up1 in U; [|exact Hp]. apply (Fr _ Fb). exact (up_live h W _ _ U Hp).
      - congruence. }
    assert (F3 : wf h3 /\ rest_same h2 h3 /\ (forall y, h_parent h3 y = h_parent h1 y) /\ h_kids h3 p = (if N.eqb e first then f_block f :: first :: kids else (first :: kids) ++ [f_block f]) /\ forall y, y <> p -> h_kids h3 y = h_kids h1 y).
    { destruct (N.eqb_spec e first) as [Ef|_].
      - assert (Pf : h_parent h2 first = Some p) by (rewrite <- Ef, R2p; destruct (wb_old _ _ _ _ _ _ B e (Old e (L e He))) as (_ & _ & _ & A & _); congruence). assert (Pb2 : h_parent h2 (f_block f) = Some p) by (rewrite R2p; exact Pb).
        destruct (sibling_does false h2 h3 (f_block f) first p p W2 Pb2 Pf E3) as (_ & A1 & A2 & A3 & A4). split; [exact A1|]. split; [exact A2|]. split; [intros y; rewrite A3, R2p; unfold upd; destruct (N.eqb_spec y (f_block f)) as [->|]; [now rewrite Pb|reflexivity]|]. split.
        + rewrite A4, upd_same, R2k, (wb_kids_p _ _ _ _ _ _ B). unfold delN. rewrite filter_app. cbn [filter]. rewrite N.eqb_refl. cbn [negb]. rewrite app_nil_r. fold (delN (f_block f) (h_kids h p)). rewrite (delN_id _ _ Nb), Ek. cbn [insert_at]. rewrite N.eqb_refl. reflexivity.
        + intros y Hy. rewrite A4, upd_other by exact Hy. rewrite R2k. apply delN_id. rewrite (wf_kids h1 W1). congruence.
      - injection E3 as <-. split; [exact W2|]. split; [unfold rest_same; auto 9|]. split; [intros y; now rewrite R2p|]. split; [rewrite R2k, (wb_kids_p _ _ _ _ _ _ B), Ek; reflexivity|]. intros y _. now rewrite R2k. }
    clear E3. destruct F3 as (W3 & (R3n & R3o & R3i & R3u & R3l & R3r & R3e) & P3 & K3p & K3).

    assert (Outs : forall k, k < h_out h x -> exists t, linked_inputs h3 x k = [(t, 0)] /\ In ((x, k), (t, 0)) (h_links h)).
    { intros k Hk. unfold linked_inputs. rewrite R3l, Lk2.
      assert (Eq : filter (fun l : link => ep_eqb (fst l) (x, k)) ((filter (fun l => negb (goes_in blocks e l)) (h_links h) ++ inner_links f ins outs) ++ map (fun pe => (pe, (f_block f, 0))) (map fst (filter (goes_in blocks e) (h_links h)))) = filter (fun l : link => ep_eqb (fst l) (x, k)) (h_links h)).
      { etransitivity; [apply (@filter_app link)|]. rewrite (filter_none _ (map _ _)), app_nil_r.
        - etransitivity; [apply (@filter_app link)|]. rewrite (filter_none _ (inner_links f ins outs)), app_nil_r.
          + apply filter_apart. intros l Ee. apply ep_eqb_iff in Ee. unfold goes_in. rewrite Ee. cbn [fst]. rewrite (proj2 (memN_iff x blocks) Hx). apply andb_false_r.
          + intros l Hl. apply inner_fresh in Hl as [Hl _]. apply not_true_is_false. intros A. apply ep_eqb_iff in A. rewrite A in Hl. exact (Fr _ Hl (L x Hx)).
        - intros l Hl. apply in_map_iff in Hl as (pe & <- & Hl). apply in_map_iff in Hl as (m & <- & Hl). apply filter_In in Hl as [_ G]. apply not_true_is_false. cbn [fst]. intros A. apply ep_eqb_iff in A. unfold goes_in in G. rewrite A in G. cbn [fst] in G. rewrite (proj2 (memN_iff x blocks) Hx), andb_false_r in G. discriminate. }
      pose proof (Outx k Hk) as One. destruct (out_links h (x, k)) as [|[s [t j]] [|? ?]] eqn:Eo; try discriminate. assert (Hs : In (s, (t, j)) (out_links h (x, k))) by (rewrite Eo; now left). apply filter_In in Hs as [Hs Es]. apply ep_eqb_iff in Es. cbn [fst] in Es. rewrite Es in Hs.
      destruct (control_edge h x k t j xa xb xc W V Ox Hs) as (-> & _). exists t. split; [exact (f_equal (map snd) (eq_trans Eq Eo))|exact Hs]. }
    assert (Ux : h_out h3 x = h_out h x) by (rewrite R3u, R2u; destruct (wb_old _ _ _ _ _ _ B x (Old x (L x Hx))) as (_ & _ & A & _); exact A). assert (Hi0 : i0 < h_out h x) by (destruct (wf_links h W _ Hl0) as [[_ A] _]; exact A).
    assert (E4 : exit_port h3 x o = Some i0).
    { unfold exit_port. rewrite Ux. replace (forallb _ (seq 0 (h_out h x))) with true.
      2: { symmetry. apply forallb_forall. intros k Hk. apply in_seq in Hk. destruct (Outs k) as (t & -> & _); [apply Hk|reflexivity]. }
      rewrite (filter_unique _ _ i0); [reflexivity|apply seq_NoDup|apply in_seq; split; [apply Nat.le_0_l|exact Hi0]| |].
      - destruct (Outs i0 Hi0) as (t & Et & Ht). rewrite Et. apply N.eqb_eq. exact (one_branch h x i0 t o xa xb xc V (L x Hx) Ox Hi0 Ht Hl0).
      - intros k Hk. apply in_seq in Hk. destruct (Outs k) as (t & Et & Ht); [apply Hk|]. rewrite Et. intros T. apply N.eqb_eq in T. rewrite T in Ht. assert (A : ((x, k), (o, 0)) = ((x, i0), (o, 0))) by (apply (Uniq _ Ht); exact Lv0). congruence. }
    rewrite E4. assert (Nx : In x (h_nodes h3)) by (rewrite R3n, R2n; apply Live1, L, Hx). destruct (disconnect_some h3 x i0 Nx) as (h4 & E5); [rewrite Ux; exact Hi0|]. rewrite E5. pose proof (disconnect_wf _ _ _ _ _ W3 E5) as W4. apply disconnect_inv in E5.
    assert (R4 : h_nodes h4 = h_nodes h1 /\ h_ops h4 = h_ops h1 /\ h_in h4 = h_in h1 /\ h_out h4 = h_out h1 /\ h_parent h4 = h_parent h3 /\ h_kids h4 = h_kids h3 /\ h_entry h4 = h_entry h1) by (rewrite E5; cbn; repeat split; congruence). clear E5. destruct R4 as (R4n & R4o & R4i & R4u & R4p & R4k & R4e).
    destruct (connect h4 (f_block f) 0 o 0) as [h5|] eqn:E6.
    2: { exfalso. rewrite connect_some in E6; [discriminate| | | |].
      - rewrite R4n. apply Live2, Fb.
      - rewrite R4u, Ub. apply Nat.lt_0_1.
      - rewrite R4n. apply Live1, Lo_.
      - rewrite R4i. destruct (wb_old _ _ _ _ _ _ B o (Old o Lo_)) as (_ & A & _). rewrite A. exact Io. }
    pose proof (connect_wf _ _ _ _ _ _ W4 E6) as W5. apply connect_inv in E6.
    assert (R5 : h_nodes h5 = h_nodes h1 /\ h_in h5 = h_in h1 /\ h_out h5 = h_out h1 /\ h_parent h5 = h_parent h3 /\ h_kids h5 = h_kids h3 /\ h_entry h5 = h_entry h1) by (rewrite E6; cbn; repeat split; congruence). clear E6. destruct R5 as (R5n & R5i & R5u & R5p & R5k & R5e).
    rewrite R5k, (K3 _ Dc), (wb_kids_cfg _ _ _ _ _ _ B).
    assert (Far : forall n, In n blocks -> ~ up (h_parent h5) (f_cfg f) n).
    { intros n Hn U. rewrite R5p in U. apply (proj1 (up_ext _ _ P3 (f_cfg f) n)) in U. assert (Pc : h_parent h1 (f_cfg f) = Some (f_block f)) by (apply Pi; cbn; tauto).
      inversion U as [|? ? ? U1 U2]; subst; [exact (Fr _ Fc (L _ Hn))|]. rewrite Pc in U1. injection U1 as <-. inversion U2 as [|? ? ? U3 U4]; subst; [exact (Fr _ Fb (L _ Hn))|]. rewrite Pb in U3. injection U3 as <-. apply Up1 in U4; [|exact Hp]. exact (no_cycle h W n p (Par n Hn) U4). }
    assert (P5e : h_parent h5 e = Some p) by (rewrite R5p, P3; destruct (wb_old _ _ _ _ _ _ B e (Old e (L e He))) as (_ & _ & _ & A & _); congruence). assert (P5q : h_parent h5 (f_exit f) = Some (f_cfg f)) by (rewrite R5p, P3; exact Pq).
    destruct (sibling_some false h5 e (f_exit f) (f_cfg f) W5) as (h6 & E7).
    { rewrite R5n. apply Live1, L, He. } { rewrite R5n. apply Live2, Fe. } { rewrite R5e, (wb_entry _ _ _ _ _ _ B). exact Nent. }
    { rewrite R5e, (wb_entry _ _ _ _ _ _ B). intros A. apply (Fr _ Fe). rewrite A. apply (wf_entry h W). } { intros A. apply (Fr _ Fe). rewrite <- A. apply L, He. } { exact P5q. } { apply Far, He. }
    rewrite E7. destruct (sibling_does false h5 h6 e (f_exit f) p (f_cfg f) W5 P5e P5q E7) as (_ & W6 & (R6n & _ & R6i & R6u & _ & _ & _) & P6 & _). clear E7.
    assert (Par6 : forall n, In n blocks -> n <> e -> h_parent h6 n = Some p).
    { intros n Hn Hne. rewrite P6, upd_other by exact Hne. rewrite R5p, P3. destruct (wb_old _ _ _ _ _ _ B n (Old n (L n Hn))) as (_ & _ & _ & A & _). rewrite A. apply Par, Hn. }
    destruct (move_rest_some e p (f_cfg f) Dc blocks h6 W6 Nd) as (h7 & E8); [rewrite R6n, R5n; apply Live2, Fc| |exact Par6|].
    { intros n Hn. split; [rewrite R6n, R5n; apply Live1, L, Hn|]. intros U. apply (Far n Hn). apply (up_before (h_parent h5) e (Some (f_cfg f))); [|apply Far, He]. apply (proj1 (up_ext _ _ P6 (f_cfg f) n) U). }
    rewrite E8. destruct (move_rest e p (f_cfg f) Dc blocks h6 h7 W6 Nd Par6 E8) as (_ & (R7n & _ & R7i & R7u & _ & _ & _) & _). clear E8.
    rewrite connect_some; [eauto| | | |].
    - rewrite R7n, R6n, R5n. apply Live1, L, Hx.
    - rewrite R7u, R6u, R5u. destruct (wb_old _ _ _ _ _ _ B x (Old x (L x Hx))) as (_ & _ & A & _). rewrite A. exact Hi0.
    - rewrite R7n, R6n, R5n. apply Live2, Fe.
    - rewrite R7i, R6i, R5i, Ie. apply Nat.lt_0_1.
  Qed.
End Works.
