(** Theorems about inserting identities and removing unused constants. *)
From Coq Require Import List Bool NArith Arith Lia Permutation Relations.
From Verif Require Import TypesModel GraphModel GraphSpec GraphProofs GraphRemove Graphs OpModel OpSpec OpProofs DeadModel DeadProofs DeadProps InlineModel InlineFacts ReplaceModel ValidModel ValidSpec ValidProofs ValidEdges ValidProps PatchModel PatchSpec PatchWire PatchDrop.
Import ListNotations.
Local Notation wf := GraphSpec.wf.

Section Theorems.
  Context {M : Type}.
  Notation hugr := (hugr op M).
  Variable env : N -> N -> option typedef.
  Variable defs : N -> N -> opsig.

  (** ** Kinds *)
  Lemma value_kind (h : hugr) n k t : wf h -> valid env defs h -> In n (h_nodes h) -> kind_at h n Inc k (EValue t) <-> port_kind (h_ops h n) Inc k = Some (EValue t).
  Proof.
    intros W V Hn. assert (C : counted h) by (apply counted_iff, (v_ports _ _ _ V)). rewrite (kind_at_iff h C n Inc k _ Hn). split; [tauto|]. intros P. split; [|exact P].
    destruct (C n Hn) as (_ & A & _). cbn [num_ports]. rewrite A. unfold port_kind in P. destruct (Nat.ltb_spec k (value_port_count (h_ops h n) Inc)) as [L|L]; [unfold in_count, port_count; lia|].
    exfalso. destruct (Nat.eqb k (value_port_count (h_ops h n) Inc)); destruct (h_ops h n); cbn in P; try discriminate; try (destruct (static_port_kind _ _); discriminate).
  Qed.
  Lemma value_in_region (h : hugr) n p k t : valid env defs h -> h_parent h n = Some p -> kind_at h n Inc k (EValue t) -> exists ri ro, region (h_ops h p) ri ro.
  Proof.
    intros V P (ks & A & B). pose proof (v_tree _ _ _ V n p P) as T. remember (h_ops h p) as op_p. remember (h_ops h n) as op_n. destruct T; eauto; inversion A; subst; destruct k as [|[|k]]; discriminate.
  Qed.
  Lemma region_flow o ri ro : region o ri ro -> flow_parent o = true.
  Proof. intros H. destruct H; reflexivity. Qed.

  (** ** Scopes *)
  Lemma no_module_inside (h : hugr) n p : valid env defs h -> h_parent h n = Some p -> h_ops h n <> OModule.
  Proof. intros V P E. pose proof (v_tree _ _ _ V n p P) as T. rewrite E in T. inversion T; subst. match goal with H : in_dataflow _ |- _ => inversion H end. Qed.
  Lemma function_in_module (h : hugr) n p nm f pub : valid env defs h -> h_parent h n = Some p -> h_ops h n = OFuncDefn nm f pub -> h_ops h p = OModule.
  Proof. intros V P E. pose proof (v_tree _ _ _ V n p P) as T. rewrite E in T. inversion T; subst; auto. match goal with H : in_dataflow _ |- _ => inversion H end. Qed.
  Lemma scope_inv (h : hugr) n p ds : wf h -> h_parent h n = Some p -> scope h n ds ->
    (exists nm f pub, h_ops h p = OFuncDefn nm f pub /\ ds = p_params f) \/ ((forall nm f pub, h_ops h p <> OFuncDefn nm f pub) /\ scope h p ds).
  Proof.
    intros W P S0. destruct S0 as [|n q nm f pub P2 O|n q ds P2 O S0]; [rewrite (wf_top h W) in P; discriminate| |]; rewrite P in P2; injection P2 as <-; [left; eauto|right; auto].
  Qed.
  Lemma scope_sibling (h : hugr) n m p ds : wf h -> h_parent h n = Some p -> h_parent h m = Some p -> scope h n ds -> scope h m ds.
  Proof.
    intros W P Q S0. destruct (scope_inv h n p ds W P S0) as [(nm & f & pub & O & ->)|[O S1]]; [eapply scope_function; eassumption|eapply scope_other; eassumption].
  Qed.
  Lemma scope_climb (h : hugr) n b p ds : wf h -> valid env defs h -> (forall nm f pub, h_ops h b <> OFuncDefn nm f pub) -> h_parent h b = Some p ->
    up (h_parent h) n b -> n <> b -> scope h n ds -> scope h b ds.
  Proof.
    intros W V Nf Pb U. induction U as [b|n q b E U IH]; intros Hn S0; [contradiction|]. destruct (scope_inv h n q ds W E S0) as [(nm & f & pub & O & ->)|[O S1]].
    - exfalso. inversion U as [|u w v E1 E2]; subst; [exact (Nf _ _ _ O)|]. pose proof (function_in_module h q w nm f pub V E1 O) as Mw. inversion E2; subst; [exact (no_module_inside h b p V Pb Mw)|].
      match goal with H : h_parent h w = Some _ |- _ => exact (no_module_inside h w _ V H Mw) end.
    - destruct (N.eq_dec q b) as [->|Hq]; [exact S1|]. apply IH; assumption.
  Qed.
  Lemma value_out_no_module (h : hugr) n p i t : valid env defs h -> h_parent h n = Some p -> kind_at h n Out i (EValue t) -> h_ops h p <> OModule.
  Proof.
    intros V P (ks & A & B) E. pose proof (v_tree _ _ _ V n p P) as T. rewrite E in T. remember OModule as om. destruct T; try discriminate; inversion A; subst;
      try (match goal with H : region OModule _ _ |- _ => inversion H end); destruct i as [|[|i]]; discriminate.
  Qed.
  Lemma scope_source (h : hugr) s i n t ds : wf h -> valid env defs h -> kind_at h s Out i (EValue t) -> local_edge h (EValue t) s n -> scope h n ds -> scope h s ds.
  Proof.
    intros W V K L S0. destruct L as [q A B|q A B C D|t0 q b A B C D E F _|t0 b cf g z A B C D E F G H0 H1 _].
    - eapply scope_sibling; eassumption.
    - destruct A as [[? ?]|[? ?]]; discriminate.
    - apply (scope_sibling h b s q ds W D C). apply (scope_climb h n b q ds W V); try assumption. intros nm f pub O. apply (value_out_no_module h s q i t V C K). apply (function_in_module h b q nm f pub V D O).
    - assert (Nf : forall y, h_parent h y = Some cf -> forall nm f pub, h_ops h y <> OFuncDefn nm f pub) by (intros y Py nm f pub O; pose proof (function_in_module h y cf nm f pub V Py O); congruence).
      pose proof (scope_climb h n z cf ds W V (Nf z F) F G H0 S0) as Sz. destruct (scope_inv h z cf ds W F Sz) as [(nm & f & pub & O & _)|[O S1]]; [congruence|].
      eapply scope_other; [exact C|apply (Nf b D)|]. eapply scope_other; [exact D|exact O|exact S1].
  Qed.

  (** ** Identities *)
  Definition grown (h : hugr) x p o : hugr :=
    set_tree (set_ops (set_ports (set_nodes h (x :: h_nodes h)) (upd (h_in h) x (OpModel.in_count o)) (upd (h_out h) x (OpModel.out_count o))) (upd (h_ops h) x o))
      (upd (h_parent h) x (Some p)) (upd (h_kids h) p (h_kids h p ++ [x])).
  Lemma added (h : hugr) x p o : wf h -> In p (h_nodes h) -> ~ In x (h_nodes h) -> add_node_with_parent OpModel.in_count OpModel.out_count h x p o = Some (grown h x p o).
  Proof.
    intros W Lp Hx. assert (Hpx : h_parent h x = None) by (destruct (h_parent h x) eqn:E; [apply (wf_parent_live h W) in E; tauto|reflexivity]).
    unfold add_node_with_parent, add_node. replace (contains h x) with false by (symmetry; apply memN_false; exact Hx). unfold push_child.
    change (h_parent (set_ops (set_ports (set_nodes h (x :: h_nodes h)) (upd (h_in h) x (OpModel.in_count o)) (upd (h_out h) x (OpModel.out_count o))) (upd (h_ops h) x o))) with (h_parent h). rewrite Hpx.
    destruct (climbs (h_parent h) _ p x) eqn:Ec; [|reflexivity]. apply (climbs_wf h W (h_parent h) (fun _ _ E => E)) in Ec; [|exact Lp|cbn; lia]. destruct (fresh_not_up h W x p Lp Hx Ec).
  Qed.
  Section Identity.
    Variables e m : N.
    Variable args : ty -> list term.
    Definition pass_on (t : ty) : op := OExt e m (args t) ([t], [t]).

    (** An identity is put on the wire that ends at a value port; other ports are refused and nothing changes. *)
    Theorem insert_identity_inserts (h : hugr) x n k : wf h -> valid env defs h -> In n (h_nodes h) -> ~ In x (h_nodes h) ->
      (forall t, kind_at h n Inc k (EValue t) -> exists s p h', insert_identity pass_on x h n k = IdInserted h' x /\ wf h' /\
         in_links h (n, k) = [(s, (n, k))] /\ h_parent h n = Some p /\ on_wire h s (n, k) p x (pass_on t) h') /\
      ((forall t, ~ kind_at h n Inc k (EValue t)) -> exists kd, insert_identity pass_on x h n k = IdBadKind kd h).
    Proof.
      intros W V Hn Hx. split.
      - intros t K. pose proof (proj1 (value_kind h n k t W V Hn) K) as Pk. pose proof (v_inputs _ _ _ V n k _ Hn K) as L1. cbn in L1.
        destruct (in_links h (n, k)) as [|[s d] [|? ?]] eqn:Li; try discriminate. assert (Hl : In (s, d) (in_links h (n, k))) by (rewrite Li; now left). apply filter_In in Hl as [Hl Hd]. apply ep_eqb_iff in Hd. cbn in Hd. subst d.
        assert (Nr : n <> h_root h). { intros E. assert (Pn : h_parent h n = None) by (rewrite E; apply (wf_top h W)). destruct s as [s i]. destruct (v_links _ _ _ V s i n k Hl) as (kd & _ & _ & Le).
          assert (Up : forall y, up (h_parent h) n y -> n = y) by (intros y U; inversion U; subst; congruence). destruct Le; try congruence; match goal with Y : below h n ?y, Z : n <> ?y |- _ => exact (Z (Up _ Y)) end. }
        destruct (wf_parent h W n Hn Nr) as (p & Pn & Lp). destruct (value_in_region h n p k t V Pn K) as (ri & ro & Rp). destruct (wf_links h W _ Hl) as [[Ls Ps] [_ Pk2]]. cbn [fst snd] in Ls, Ps, Pk2.
        unfold insert_identity. rewrite (proj2 (contains_iff h n) Hn), Pk. assert (So : single_linked_output h n k = Some s).
        { unfold single_linked_output. replace (linked_outputs h n k) with (map fst (in_links h (n, k))) by reflexivity. rewrite Li. reflexivity. }
        rewrite So. destruct s as [s i]. cbn [fst snd] in Ls, Ps. unfold disconnect. assert (Vp : valid_port h n Inc k = true) by (unfold valid_port; rewrite (proj2 (contains_iff h n) Hn); cbn; apply Nat.ltb_lt; exact Pk2). rewrite Vp.
        set (h1 := set_links h (filter (fun l => negb (at_port n Inc k l)) (h_links h))). assert (Gp : get_parent h1 n = Some p).
        { unfold get_parent. change (contains h1 n) with (contains h n). rewrite (proj2 (contains_iff h n) Hn). cbn. rewrite (proj2 (N.eqb_neq n (h_root h)) Nr). exact Pn. }
        rewrite Gp. change (h_ops h1 p) with (h_ops h p). rewrite (region_flow _ _ _ Rp).
        assert (W1 : wf h1) by (apply (disconnect_wf h h1 n Inc k W); unfold disconnect; rewrite Vp; reflexivity).
        pose proof (added h1 x p (pass_on t) W1 Lp Hx) as Ea. set (h2 := grown h1 x p (pass_on t)) in Ea. rewrite Ea. assert (E2 : grown h1 x p (pass_on t) = h2) by reflexivity. unfold grown in E2.
        pose proof (add_child_wf OModule OpModel.in_count OpModel.out_count h1 h2 x p (pass_on t) W1 Lp Ea) as W2.
        assert (Dsx : s <> x) by (intros ->; contradiction). assert (Dnx : n <> x) by (intros ->; contradiction).
        assert (C1 : exists h3, connect h2 s i x 0 = Some h3 /\ h3 = set_links h2 (h_links h2 ++ [((s, i), (x, 0))])).
        { unfold connect. assert (P1 : valid_port h2 s Out i = true) by (rewrite <- E2; unfold valid_port, contains; cbn; rewrite (proj2 (N.eqb_neq s x) Dsx); fold (memN s (h_nodes h)); rewrite (proj2 (memN_iff s (h_nodes h)) Ls); cbn; rewrite (upd_other _ _ _ _ _ Dsx); now apply Nat.ltb_lt).
          assert (P2 : valid_port h2 x Inc 0 = true) by (rewrite <- E2; unfold valid_port, contains; cbn; rewrite N.eqb_refl; cbn; rewrite upd_same; reflexivity). rewrite P1, P2. cbn. eauto. }
        destruct C1 as (h3 & C1 & E3). rewrite C1. pose proof (connect_wf h2 h3 s i x 0 W2 C1) as W3.
        assert (C2 : exists h4, connect h3 x 0 n k = Some h4 /\ h4 = set_links h3 (h_links h3 ++ [((x, 0), (n, k))])).
        { unfold connect. assert (P1 : valid_port h3 x Out 0 = true) by (rewrite E3, <- E2; unfold valid_port, contains; cbn; rewrite N.eqb_refl; cbn; rewrite upd_same; reflexivity).
          assert (P2 : valid_port h3 n Inc k = true) by (rewrite E3, <- E2; unfold valid_port, contains; cbn; rewrite (proj2 (N.eqb_neq n x) Dnx); fold (memN n (h_nodes h)); rewrite (proj2 (memN_iff n (h_nodes h)) Hn); cbn; rewrite (upd_other _ _ _ _ _ Dnx); now apply Nat.ltb_lt).
          rewrite P1, P2. cbn. eauto. }
        destruct C2 as (h4 & C2 & E4). rewrite C2. exists (s, i), p, h4. split; [reflexivity|]. split; [eapply connect_wf; [exact W3|exact C2]|]. split; [reflexivity|]. split; [exact Pn|].
        assert (Dpx : p <> x) by (intros ->; contradiction). rewrite E4, E3, <- E2. constructor; cbn.
        + exact Hx.
        + intros y. intuition congruence.
        + reflexivity.
        + reflexivity.
        + apply upd_same.
        + apply upd_same.
        + apply upd_same.
        + intros y H1 _. apply upd_other, H1.
        + rewrite upd_other by congruence. destruct (h_kids h x) as [|c l] eqn:Ek; [reflexivity|]. assert (Hc : In c (h_kids h x)) by (rewrite Ek; now left). apply (wf_kids h W) in Hc. apply (wf_parent_live h W) in Hc. tauto.
        + rewrite !upd_same. auto.
        + intros y Hy. rewrite !upd_other by exact Hy. auto.
        + rewrite <- app_assoc. reflexivity.
      - intros Nk. unfold insert_identity. rewrite (proj2 (contains_iff h n) Hn). destruct (port_kind (h_ops h n) Inc k) as [[]|] eqn:Pk; eauto. exfalso. eapply Nk. apply value_kind; eauto.
    Qed.

    (** If the identity can be used at every well-formed type, the result is valid. *)
    Theorem insert_identity_valid (h h' : hugr) x n k : wf h -> valid env defs h -> In n (h_nodes h) -> ~ In x (h_nodes h) ->
      (forall ds t, valid_ty env ds t = true -> args_ok env ds (defs e m) (args t)) ->
      insert_identity pass_on x h n k = IdInserted h' x -> valid env defs h'.
    Proof.
      intros W V Hn Hx Hok E. destruct (insert_identity_inserts h x n k W V Hn Hx) as [Yes No].
      assert (K : exists t, kind_at h n Inc k (EValue t)).
      { destruct (port_kind (h_ops h n) Inc k) as [[]|] eqn:Pk; [|eexists; apply value_kind; eauto; fail| | | |]; exfalso; unfold insert_identity in E; rewrite Pk in E; destruct (contains h n); discriminate. }
      destruct K as (t & K). destruct (Yes t K) as (s & p & h2 & E2 & _ & Li & Pn & Ow). rewrite E in E2. injection E2 as <-. destruct (value_in_region h n p k t V Pn K) as (ri & ro & Rp).
      refine (wire_valid env defs h h' s (n, k) p x e m (args t) t ri ro W V Ow Li K Pn Rp _). intros ds S0. cbn in S0.
      assert (Hl : In (s, (n, k)) (h_links h)) by (assert (A : In (s, (n, k)) (in_links h (n, k))) by (rewrite Li; now left); apply filter_In in A; apply A).
      destruct s as [s i]. destruct (v_links _ _ _ V s i n k Hl) as (kd & A & B & L). rewrite (kind_one h n Inc k _ _ B K) in *. destruct (wf_links h W _ Hl) as [[Ls _] _].
      pose proof (scope_source h s i n t ds W V A L S0) as Ss. destruct (v_types _ _ _ V s ds Ls Ss) as [_ T]. specialize (T i _ A). cbn in T. split; [apply Hok, T|exact T].
    Qed.
  End Identity.

  (** ** Constants *)
  Lemma removed_without (h h' : hugr) n : wf h -> h_kids h n = [] -> remove_node OModule h n = Some h' -> without h n h'.
  Proof.
    intros W K E. pose proof (remove_first OModule h h' n W E) as Rm. rewrite K in Rm.
    assert (Mem : forall y, memN y [n] = N.eqb y n) by (intros y; unfold memN; cbn; apply orb_false_r).
    constructor.
    - intros y. rewrite (rm_nodes _ _ _ _ _ _ Rm), filter_In, Mem, negb_true_iff, N.eqb_neq. tauto.
    - apply (rm_root _ _ _ _ _ _ Rm).
    - apply (rm_entry _ _ _ _ _ _ Rm).
    - rewrite (rm_parent _ _ _ _ _ _ Rm). cbn [app]. rewrite Mem, N.eqb_refl. reflexivity.
    - intros y Hy. apply N.eqb_neq in Hy. rewrite (rm_ops _ _ _ _ _ _ Rm), (rm_parent _ _ _ _ _ _ Rm), (rm_in _ _ _ _ _ _ Rm), (rm_out _ _ _ _ _ _ Rm). cbn [app]. rewrite Mem, Hy. auto.
    - intros y Hy. apply N.eqb_neq in Hy. rewrite (rm_kids _ _ _ _ _ _ Rm), Mem, Hy. reflexivity.
    - rewrite (rm_links _ _ _ _ _ _ Rm). apply filter_ext. intros l. rewrite !Mem. reflexivity.
  Qed.
  Definition small (o : op) : Prop := match o with OConst _ _ _ | OLoadConstant _ => True | _ => False end.
  Lemma small_facts (h : hugr) n : wf h -> valid env defs h -> In n (h_nodes h) -> small (h_ops h n) -> h_kids h n = [] /\ n <> h_root h /\ n <> h_entry h.
  Proof.
    intros W V Hn O. assert (No : forall c, ~ allowed (h_ops h n) c) by (intros c A; destruct (h_ops h n); try exact O; inversion A; subst; match goal with R : region _ _ _ |- _ => inversion R end).
    assert (K : h_kids h n = []). { destruct (h_kids h n) as [|c l] eqn:E; [reflexivity|]. exfalso. assert (Hc : In c (h_kids h n)) by (rewrite E; now left). apply (wf_kids h W) in Hc. exact (No _ (v_tree _ _ _ V c n Hc)). }
    assert (Ne : n <> h_entry h) by (intros E; destruct (v_entry _ _ _ V) as (c & A); rewrite <- E in A; exact (No _ A)). split; [exact K|]. split; [|exact Ne].
    intros E. pose proof (wf_reach h W _ (wf_entry h W)) as U. rewrite <- E in U. assert (G : forall y z, up (h_parent h) y z -> z = n -> y = n).
    { intros y z U0. induction U0 as [y|y q z E0 U0 IH]; intros Hz; [exact Hz|]. exfalso. rewrite (IH Hz) in E0. apply (wf_kids h W) in E0. rewrite K in E0. destruct E0. }
    exact (Ne (eq_sym (G _ _ U eq_refl))).
  Qed.
  Lemma small_removed (h : hugr) n : wf h -> valid env defs h -> In n (h_nodes h) -> small (h_ops h n) -> (forall i d, In ((n, i), d) (h_links h) -> kind_at h n Out i EOrder) ->
    exists h', remove_node OModule h n = Some h' /\ without h n h' /\ wf h' /\ valid env defs h'.
  Proof.
    intros W V Hn O Un. destruct (small_facts h n W V Hn O) as (K & Nr & Ne). destruct (proj2 (remove_node_iff OModule h n) (conj Hn Ne)) as (h' & E). exists h'. pose proof (removed_without h h' n W K E) as X.
    split; [exact E|]. split; [exact X|]. split; [eapply remove_leaf_wf; eassumption|]. exact (drop_valid env defs h h' n W V X O K Nr Ne Un).
  Qed.
  Lemma no_neighbours (h : hugr) n : output_neighbours h n = [] <-> forall i d, ~ In ((n, i), d) (h_links h).
  Proof.
    assert (G : forall y, In y (output_neighbours h n) <-> exists i d, In ((n, i), d) (h_links h) /\ fst d = y).
    { intros y. unfold output_neighbours. rewrite in_map_iff. split.
      - intros ([[b i] d] & E & A). apply filter_In in A as [A B]. cbn in E, B. apply N.eqb_eq in B. rewrite B in A. eauto.
      - intros (i & d & A & E). exists ((n, i), d). split; [exact E|]. apply filter_In. split; [exact A|]. cbn. apply N.eqb_refl. }
    split.
    - intros E i d H. assert (A : In (fst d) (output_neighbours h n)) by (apply G; eauto). rewrite E in A. destruct A.
    - intros H. destruct (output_neighbours h n) as [|y l]; [reflexivity|]. destruct (proj1 (G y) (or_introl eq_refl)) as (i & d & A & _). destruct (H i d A).
  Qed.

  (** A constant that nothing loads is removed, and its parent is reported; the graph stays valid.  Other nodes are refused. *)
  Theorem remove_const_removes (h : hugr) n : wf h -> valid env defs h ->
    match (if memN n (h_nodes h) then h_ops h n else OModule) with
    | OConst _ _ _ =>
      ((forall i d, ~ In ((n, i), d) (h_links h)) -> exists h' p, remove_const h n = Removed h' p /\ h_parent h n = Some p /\ without h n h' /\ wf h' /\ valid env defs h') /\
      ((exists i d, In ((n, i), d) (h_links h)) -> remove_const h n = ValueUsed n)
    | _ => remove_const h n = InvalidNode n
    end.
  Proof.
    intros W V. unfold remove_const, contains. destruct (memN n (h_nodes h)) eqn:Hm; [|reflexivity]. destruct (h_ops h n) eqn:O; try reflexivity. cbn [is_const andb].
    assert (Hn : In n (h_nodes h)) by now apply memN_iff. split.
    - intros Un. rewrite (proj2 (no_neighbours h n) Un). assert (S0 : small (h_ops h n)) by (rewrite O; exact Logic.I). destruct (small_facts h n W V Hn S0) as (_ & Nr & _). destruct (wf_parent h W n Hn Nr) as (p & Pn & _).
      unfold get_parent, contains. rewrite Hm, (proj2 (N.eqb_neq n (h_root h)) Nr), Pn. destruct (small_removed h n W V Hn S0) as (h' & E & X); [intros i d H; destruct (Un i d H)|]. rewrite E. exists h', p. auto.
    - intros (i & d & H). destruct (output_neighbours h n) as [|y l] eqn:E; [|reflexivity]. destruct (proj1 (no_neighbours h n) E i d H).
  Qed.

  (** A load whose value nothing uses is removed, and the node it loads from is reported; the graph stays valid.  It is refused if
      the value is used, and it panics if there is an order edge to it. *)
  Theorem remove_load_constant_removes (h : hugr) n : wf h -> valid env defs h ->
    match (if memN n (h_nodes h) then h_ops h n else OModule) with
    | OLoadConstant _ =>
      ((exists d, In ((n, 0), d) (h_links h)) -> remove_load_constant h n = ValueUsed n) /\
      ((forall d, ~ In ((n, 0), d) (h_links h)) -> (forall s, ~ In (s, (n, 1)) (h_links h)) ->
        exists h' c, remove_load_constant h n = Removed h' c /\ In ((c, 0), (n, 0)) (h_links h) /\ without h n h' /\ wf h' /\ valid env defs h') /\
      ((forall d, ~ In ((n, 0), d) (h_links h)) -> (exists s, In (s, (n, 1)) (h_links h)) -> remove_load_constant h n = RemovePanic)
    | _ => remove_load_constant h n = InvalidNode n
    end.
  Proof.
    intros W V. unfold remove_load_constant, contains. destruct (memN n (h_nodes h)) eqn:Hm; [|reflexivity]. destruct (h_ops h n) eqn:O; try reflexivity. cbn [is_load_constant andb].
    assert (Hn : In n (h_nodes h)) by now apply memN_iff. assert (Out0 : linked_inputs h n 0 = [] <-> forall d, ~ In ((n, 0), d) (h_links h)).
    { assert (G : forall y, In y (linked_inputs h n 0) <-> In ((n, 0), y) (h_links h)).
      { intros y. unfold linked_inputs. rewrite in_map_iff. split.
        - intros ([s d] & E & A). apply filter_In in A as [A B]. apply ep_eqb_iff in B. cbn in E, B. subst. exact A.
        - intros A. exists ((n, 0), y). split; [reflexivity|]. apply filter_In. split; [exact A|now apply ep_eqb_iff]. }
      split; [intros E d H; apply G in H; rewrite E in H; destruct H|]. intros H. destruct (linked_inputs h n 0) as [|y l]; [reflexivity|]. destruct (H y). apply G. now left. }
    assert (K0 : kind_at h n Inc 0 (EConst t)) by (eexists; split; [rewrite O; constructor|reflexivity]). pose proof (v_inputs _ _ _ V n 0 _ Hn K0) as L0. cbn in L0.
    destruct (in_links h (n, 0)) as [|[c d] [|? ?]] eqn:Li; try discriminate. assert (Hc : In (c, d) (in_links h (n, 0))) by (rewrite Li; now left). apply filter_In in Hc as [Hc Hd]. apply ep_eqb_iff in Hd. cbn in Hd. subst d.
    destruct c as [c ci]. destruct (v_links _ _ _ V c ci n 0 Hc) as (kc & Kc & Kc2 & _). rewrite (kind_one h n Inc 0 _ _ Kc2 K0) in Kc. assert (Ci : ci = 0).
    { destruct Kc as (ks & P & Q). inversion P; subst; try (destruct ci as [|[|ci]]; cbn in Q; try discriminate; reflexivity); exfalso;
        repeat match goal with H : nth_error (?l ++ _) ci = Some _ |- _ => apply nth_error_In, in_app_or in H as [H|H] | H : nth_error (_ :: _) ci = Some _ |- _ => apply nth_error_In in H | H : nth_error (map _ _) ci = Some _ |- _ => apply nth_error_In in H
          | H : In _ (_ ++ _) |- _ => apply in_app_or in H as [H|H] | H : In _ (_ :: _) |- _ => destruct H as [H|H] | H : In _ (values _) |- _ => unfold values in H | H : In _ (map _ _) |- _ => apply in_map_iff in H as (? & H & _) | H : In _ [] |- _ => destruct H end; try discriminate. }
    subst ci.
    split; [|split].
    - intros (d & H). destruct (linked_inputs h n 0) as [|y l] eqn:E; [|reflexivity]. destruct (proj1 Out0 eq_refl d H).
    - intros Un No. rewrite (proj2 Out0 Un). assert (In_ : input_neighbours h n = [c]).
      { assert (Fl : filter (fun l : link => N.eqb (fst (snd l)) n) (h_links h) = in_links h (n, 0)); [|unfold input_neighbours; etransitivity; [exact (f_equal (map (fun l : link => fst (fst l))) Fl)|rewrite Li; reflexivity]]. unfold in_links. apply filter_ext_in. intros [s [dn j]] Hl. cbn [fst snd].
        destruct (N.eqb_spec dn n) as [->|D]; [|symmetry; apply ep_neq; congruence]. destruct j as [|[|j]]; [symmetry; now apply ep_eqb_iff|destruct (No s Hl)|]. exfalso. destruct s as [s si]. destruct (v_links _ _ _ V s si n _ Hl) as (k & _ & (ks & P & Q) & _).
        rewrite O in P. inversion P; subst ks. destruct j; discriminate. }
      rewrite In_. assert (S0 : small (h_ops h n)) by (rewrite O; exact Logic.I). destruct (small_removed h n W V Hn S0) as (h' & E & X & Y).
      { intros i d H. destruct d as [d j]. destruct (v_links _ _ _ V n i d j H) as (k & (ks & P & Q) & _). exists ks. split; [exact P|]. rewrite O in P. inversion P; subst ks. destruct i as [|[|i]]; [destruct (Un _ H)|reflexivity|destruct i; discriminate]. }
      rewrite E. exists h', c. auto.
    - intros Un (s & Hs). rewrite (proj2 Out0 Un). assert (Two : 2 <= length (input_neighbours h n)).
      { unfold input_neighbours. rewrite map_length. assert (In1 : In ((c, 0), (n, 0)) (filter (fun l : link => N.eqb (fst (snd l)) n) (h_links h))) by (apply filter_In; split; [exact Hc|apply N.eqb_refl]).
        assert (In2 : In (s, (n, 1)) (filter (fun l : link => N.eqb (fst (snd l)) n) (h_links h))) by (apply filter_In; split; [exact Hs|apply N.eqb_refl]).
        destruct (filter _ _) as [|y [|z l]]; [destruct In1| |cbn; lia]. destruct In1 as [->|[]]. destruct In2 as [E|[]]. injection E as _ E. discriminate. }
      destruct (input_neighbours h n) as [|y [|z l]]; [reflexivity|cbn in Two; lia|reflexivity].
  Qed.
End Theorems.
Print Assumptions insert_identity_inserts.
Print Assumptions insert_identity_valid.
Print Assumptions remove_const_removes.
Print Assumptions remove_load_constant_removes.

(** ** Examples *)
(** Operations of extension 9 have one type argument; the others have none. *)
Definition patch_ops (e n : N) : opsig := if N.eqb e 9 then SPoly [KType Linear] else SPoly [].
Definition type_arg (t : ty) : list term := [MType t].
Lemma patch_pass ds t : valid_ty no_types ds t = true -> args_ok no_types ds (patch_ops 9 1) (type_arg t).
Proof. intros H. constructor; [repeat constructor; exact H|]. cbn. destruct (lub t); repeat constructor. Qed.

Definition rich : hugr op N := graph_of (make rich_acts).
Lemma rich_wf2 : wf rich.
Proof. exact rich_wf. Qed.
Lemma rich_valid2 : valid no_types patch_ops rich.
Proof. apply validate_accepts; [exact rich_wf2|]. vm_compute. reflexivity. Qed.
Definition inserted (r : identity (M := N)) : option (hugr op N) := match r with IdInserted h _ => Some h | _ => None end.
Definition left_over (r : removal (M := N)) : option (hugr op N * N) := match r with Removed h c => Some (h, c) | _ => None end.
Definition try_identity h n k : option (hugr op N) := inserted (insert_identity (pass_on 9 1 type_arg) 40%N h n k).

(** An identity on a wire into a nested graph, and on the value that a block gets from a block before it. *)
Example identity_on_nested : option_map (fun h => (validate no_types patch_ops h, h_parent h 40%N, h_kids h 7%N, linked_outputs h 40%N 0, linked_outputs h 10%N 0)) (try_identity rich 10%N 0)
  = Some (VOk, Some 7%N, [8; 9; 10; 12; 13; 40]%N, [(5%N, 0)], [(40%N, 0)]).
Proof. vm_compute. reflexivity. Qed.
Example identity_on_dominated : option_map (fun h => (validate no_types patch_ops h, h_parent h 40%N, linked_outputs h 40%N 0, linked_outputs h 32%N 0)) (try_identity rich 32%N 0)
  = Some (VOk, Some 25%N, [(26%N, 0)], [(40%N, 0)]).
Proof. vm_compute. reflexivity. Qed.
(** A constant is no value, the function of a call neither. *)
Example identity_refused : try_identity rich 12%N 0 = None /\ try_identity rich 13%N 1 = None /\ try_identity rich 23%N 0 = None.
Proof. vm_compute. auto. Qed.
(** The load of the constant is unused.  The constant can be removed after it. *)
Example constants_removed : remove_const rich 11%N = ValueUsed 11%N /\ remove_const rich 12%N = InvalidNode 12%N /\ remove_load_constant rich 11%N = InvalidNode 11%N /\
  option_map (fun x => (validate no_types patch_ops (fst x), snd x, memN 12%N (h_nodes (fst x)))) (left_over (remove_load_constant rich 12%N)) = Some (VOk, 11%N, false) /\
  match left_over (remove_load_constant rich 12%N) with
  | Some (h, c) => option_map (fun x => (validate no_types patch_ops (fst x), snd x, memN 11%N (h_nodes (fst x)))) (left_over (remove_const h c))
  | None => None
  end = Some (VOk, 4%N, false).
Proof. vm_compute. repeat split. Qed.

(** ** What fails *)
(** The code says that a failed insertion changes nothing.  If the parent is not a dataflow graph, the wire is lost. *)
Definition stray : hugr op N := graph_of (make [AddChild 1%N 0%N (bit_op 0); AddChild 2%N 0%N (bit_op 1); Connect 1%N 0 2%N 0]).
Definition bad_parent (r : identity (M := N)) : option (hugr op N) := match r with IdBadParent h => Some h | _ => None end.
Lemma stray_facts : option_map h_links (bad_parent (insert_identity (pass_on 9 1 type_arg) 3%N stray 2%N 0)) = Some [] /\ h_links stray = [((1%N, 0), (2%N, 0))].
Proof. vm_compute. auto. Qed.
Lemma stray_wf : wf stray.
Proof. apply built_wf. vm_compute. tauto. Qed.
Theorem insert_identity_unchanged_refuted : exists (h h' : hugr op N) x n k, wf h /\ ~ In x (h_nodes h) /\ insert_identity (pass_on 9 1 type_arg) x h n k = IdBadParent h' /\ h_links h' <> h_links h.
Proof.
  pose proof stray_wf as W. pose proof stray_facts as F. assert (Hx : ~ In 3%N (h_nodes stray)) by (apply memN_false; vm_compute; reflexivity). revert W F Hx. generalize stray as h. intros h W [F1 F2] Hx.
  destruct (insert_identity (pass_on 9 1 type_arg) 3%N h 2%N 0) as [|h'| |] eqn:E; try discriminate. exists h, h', 3%N, 2%N, 0. split; [exact W|]. split; [exact Hx|]. split; [exact E|].
  cbn in F1. injection F1 as F1. rewrite F1, F2. discriminate.
Qed.
Print Assumptions insert_identity_unchanged_refuted.

(** An unused load cannot be removed if something comes before it. *)
Definition ordered : hugr op N := graph_of (make
  [AddChild 1%N 0%N (fn 1); AddChild 2%N 1%N (OInput [bit]); AddChild 3%N 1%N (OOutput [bit]); Connect 2%N 0 3%N 0;
   AddChild 4%N 1%N (OConst 0 bit true); AddChild 5%N 1%N (OLoadConstant bit); Connect 4%N 0 5%N 0; Connect 2%N 1 5%N 1]).
Lemma ordered_facts : validate no_types patch_ops ordered = VOk /\ h_ops ordered 5%N = OLoadConstant bit /\ linked_inputs ordered 5%N 0 = [] /\ remove_load_constant ordered 5%N = RemovePanic.
Proof. vm_compute. auto. Qed.
Lemma ordered_wf : wf ordered.
Proof. apply built_wf. vm_compute. tauto. Qed.
Theorem remove_load_panics_refuted : exists (h : hugr op N) n t, wf h /\ valid no_types patch_ops h /\ h_ops h n = OLoadConstant t /\ linked_inputs h n 0 = [] /\ remove_load_constant h n = RemovePanic.
Proof.
  pose proof ordered_wf as W. pose proof ordered_facts as F. revert W F. generalize ordered as h. intros h W (F1 & F2 & F3 & F4). exists h, 5%N, bit. split; [exact W|]. split; [exact (proj1 (validate_accepts no_types patch_ops h W) F1)|]. auto.
Qed.
Print Assumptions remove_load_panics_refuted.
