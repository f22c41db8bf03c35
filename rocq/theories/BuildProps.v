(** Theorems about builders (C62). *)
From Coq Require Import List Bool NArith Arith Lia.
From Verif Require Import TagModel TypesModel TypesProofs GraphModel GraphSpec GraphProofs GraphRemove Graphs OpModel OpSpec OpProofs OpProps DeadModel DeadProofs DeadFuncs DeadProps InlineModel InsertModel InsertForest ValidModel ValidSpec ValidProofs ValidEdges ValidProps BuildModel BuildSpec BuildProofs.
Import ListNotations.

Section Props.
  Context {M : Type}.
  Notation hugr := (hugr op M).

  (** More links keep everything but the links. *)
  Lemma more_kind (h h' : hugr) ls n d i k : more_links h h' ls -> kind_at h' n d i k <-> kind_at h n d i k.
  Proof. intros (_ & E & _). unfold kind_at. rewrite E. tauto. Qed.
  Lemma more_placed (h h' : hugr) ls t s d : more_links h h' ls -> placed h t s d -> placed h' t s d.
  Proof.
    intros (A1 & A2 & A3 & A4 & A5 & A6 & A7 & A8 & A9 & A10) P. destruct P as [p P Q|p a Ct P Q B Ne (i & j & K & L)|b c g x Ct P Q G X B Ne Nb].
    - apply (pl_sibling _ _ _ _ p); rewrite A3; assumption.
    - apply (pl_external _ _ _ _ p a); unfold below; rewrite ?A3; try assumption. exists i, j. split; [unfold kind_at; rewrite A2; exact K|]. rewrite A10. apply in_or_app. left. exact L.
    - apply (pl_block _ _ _ _ b c g x); unfold below; rewrite ?A3, ?A2; assumption.
  Qed.
  Lemma more_sane (h h' : hugr) ls : more_links h h' ls -> wf h' -> sane h -> sane h'.
  Proof.
    intros (A1 & A2 & A3 & A4 & A5 & A6 & A7 & A8 & A9 & A10) W' [W T P R]. constructor; [exact W'| | |].
    - unfold tree_ok. rewrite A2, A3. exact T.
    - unfold ports_ok. rewrite A1, A2, A5, A6. exact P.
    - rewrite A2, A7. exact R.
  Qed.
  Lemma more_visible (h h' : hugr) ls p s : more_links h h' ls -> visible h' p s <-> visible h p s.
  Proof. intros (A1 & A2 & A3 & _). unfold visible, below. rewrite A2, A3. tauto. Qed.

  Lemma join_wf (h h' : hugr) s d l b : wf h -> join h s d l = Built h' b -> wf h'.
  Proof.
    unfold join. intros W. destruct (connect h (fst s) (snd s) (fst d) (snd d)) as [h2|] eqn:E; [|discriminate]. destruct (port_kind (h_ops h2 (fst d)) Inc (snd d)); [|discriminate].
    intros [= <- _]. exact (connect_wf h h2 _ _ _ _ W E).
  Qed.
  (** Wires that are accepted leave a well formed HUGR. *)
  Theorem wire_wf (h h' : hugr) s d b : wf h -> wire_up h s d = Built h' b -> wf h'.
  Proof.
    intros W. unfold wire_up. destruct (contains h (fst s)); cbn [negb]; [|discriminate]. destruct (port_kind (h_ops h (fst s)) Out (snd s)) as [[]|]; try discriminate; try (apply join_wf; exact W).
    destruct (parent_eqb _ _); cbn [negb].
    - destruct (negb (copyable t) && _); [discriminate|]. apply join_wf. exact W.
    - destruct (copyable t); cbn [negb]; [|discriminate]. destruct (get_parent h (fst s)) as [sp|]; [|discriminate]. destruct (get_parent h (fst d)) as [dp|]; [|discriminate].
      destruct (sibling_of h sp (get_parent h sp) (length (h_nodes h)) dp) as [x|]; [|discriminate]. destruct (_ && _); [|apply join_wf; exact W].
      unfold add_other_edge. destruct (other_port (h_ops h (fst s)) Out); [|discriminate]. destruct (other_port (h_ops h x) Inc); [|discriminate].
      destruct (connect h (fst s) n x n0) as [h1|] eqn:E; [|discriminate]. apply join_wf. exact (connect_wf h h1 _ _ _ _ W E).
  Qed.

  (** An accepted wire from a visible source lies where it may; links are only added, namely the wire and possibly an order edge. *)
  Theorem wire_placed (h h' : hugr) s i d j q b : sane h -> h_parent h d = Some q -> (forall t, kind_at h s Out i (EValue t) -> visible h q s) -> wire_up h (s, i) (d, j) = Built h' b ->
    (exists ls : list link, more_links h h' (ls ++ [((s, i), (d, j))]) /\ forall l, In l ls -> fst (fst l) = s /\ kind_at h s Out (snd (fst l)) EOrder) /\
    forall t, kind_at h s Out i (EValue t) -> placed h' t s d.
  Proof.
    intros Sa Pd Hv E. pose proof (sane_wf h Sa) as W. pose proof (sane_counted h Sa) as C.
    assert (Is : In s (h_nodes h)) by (apply memN_iff; unfold wire_up in E; cbn [fst snd] in E; unfold contains in E; destruct (memN s (h_nodes h)); [reflexivity|discriminate E]).
    assert (Sp : wired h s i d j h').
    { apply (wire_spec h Sa s i d j q h' b Pd); [|exact E]. intros t K. apply (Hv t). apply (value_kind' h Sa); assumption. }
    assert (Kt : forall t, kind_at h s Out i (EValue t) -> port_kind (h_ops h s) Out i = Some (EValue t)) by (intros t K; apply (value_kind h Sa s i t Is); exact K).
    destruct Sp as [ML HP|t p a oi oj K Ct Ps Pa Bd Nd Ho ML|t b0 c g x K Ct Ps Pb Oc Px Bd Nd Nb ML].
    - split; [exists []; split; [exact ML|intros l []]|]. intros t K. destruct (HP t (Kt t K)) as (p & Ps & Pd' & _).
      apply (more_placed h h' _ t s d ML). exact (pl_sibling h t s d p Ps Pd').
    - pose proof (other_order h Sa s oi Is (value_produces _ _ _ K) Ho) as Ko. split.
      + exists [((s, oi), (a, oj))]. split; [exact ML|]. intros l [<-|[]]. split; [reflexivity|exact Ko].
      + intros t' Kt'. rewrite (Kt t' Kt') in K. injection K as <-. destruct ML as (A1 & A2 & A3 & A4 & A5 & A6 & A7 & A8 & A9 & A10).
        apply (pl_external _ _ _ _ p a); unfold below; rewrite ?A3; try assumption. exists oi, oj. split; [unfold kind_at; rewrite A2; exact Ko|]. rewrite A10. apply in_or_app. right. left. reflexivity.
    - split; [exists []; split; [exact ML|intros l []]|]. intros t' Kt'. rewrite (Kt t' Kt') in K. injection K as <-. apply (more_placed h h' _ t' s d ML). exact (pl_block h t' s d b0 c g x Ct Ps Pb Oc Px Bd Nd Nb).
  Qed.

  Lemma kind_fun (h : hugr) n d i k k' : sane h -> In n (h_nodes h) -> kind_at h n d i k -> kind_at h n d i k' -> k = k'.
  Proof. intros Sa I A B. pose proof (sane_counted h Sa) as C. apply (kind_at_iff h C) in A; [|exact I]. apply (kind_at_iff h C) in B; [|exact I]. destruct A, B. congruence. Qed.

  (** ... so all wires stay where they may be ... *)
  Theorem wire_all_placed (h h' : hugr) s i d j q b : sane h -> h_parent h d = Some q -> (forall t, kind_at h s Out i (EValue t) -> visible h q s) -> all_placed h -> wire_up h (s, i) (d, j) = Built h' b -> all_placed h'.
  Proof.
    intros Sa Pd Hv Ap E s' i' d' j' t L K. destruct (wire_placed h h' s i d j q b Sa Pd Hv E) as ((ls & ML & Hls) & Hp). apply (more_kind _ _ _ _ _ _ _ ML) in K.
    pose proof (proj2 (proj2 (proj2 (proj2 (proj2 (proj2 (proj2 (proj2 (proj2 ML))))))))) as El. rewrite El in L. apply in_app_iff in L. destruct L as [L|L].
    - apply (more_placed h h' _ t s' d' ML). exact (Ap s' i' d' j' t L K).
    - apply in_app_iff in L. destruct L as [L|[[= <- <- <- <-]|[]]]; [|exact (Hp t K)]. destruct (Hls _ L) as (Es & Ko). cbn [fst snd] in Es, Ko. subst s'.
      assert (Is : In s (h_nodes h)).
      { pose proof (wire_wf h h' (s, i) (d, j) b (sane_wf h Sa) E) as W'. assert (Lk : In ((s, i'), (d', j')) (h_links h')) by (rewrite El; apply in_or_app; right; apply in_or_app; left; exact L).
        destruct (wf_links h' W' _ Lk) as ((I & _) & _). cbn in I. rewrite (proj1 ML) in I. exact I. }
      pose proof (kind_fun h s Out i' _ _ Sa Is K Ko) as X. discriminate.
  Qed.

  (** ... and linear values stay used at most once. *)
  Theorem wire_single_use (h h' : hugr) s i d j q b : sane h -> h_parent h d = Some q -> (forall t, kind_at h s Out i (EValue t) -> visible h q s) -> single_use h -> wire_up h (s, i) (d, j) = Built h' b -> single_use h'.
  Proof.
    intros Sa Pd Hv Su E n i' t I K Lt. 
    assert (Is : In s (h_nodes h)) by (apply memN_iff; unfold wire_up in E; cbn [fst snd] in E; unfold contains in E; destruct (memN s (h_nodes h)); [reflexivity|discriminate E]).
    destruct (wire_placed h h' s i d j q b Sa Pd Hv E) as ((ls & ML & Hls) & _).
    rewrite (proj1 ML) in I. apply (more_kind _ _ _ _ _ _ _ ML) in K. unfold out_links. rewrite (proj2 (proj2 (proj2 (proj2 (proj2 (proj2 (proj2 (proj2 (proj2 ML))))))))).
    rewrite !filter_app, !app_length. assert (Z : filter (fun l : link => ep_eqb (fst l) (n, i')) ls = []).
    { destruct (filter (fun l : link => ep_eqb (fst l) (n, i')) ls) as [|l r] eqn:F; [reflexivity|]. exfalso. assert (Il : In l (filter (fun l : link => ep_eqb (fst l) (n, i')) ls)) by (rewrite F; left; reflexivity).
      apply filter_In in Il. destruct Il as [Il B]. destruct l as [[a1 a2] e0]. apply ep_eqb_iff in B. destruct (Hls _ Il) as (Es & Ko). cbn [fst snd] in B, Es, Ko. injection B as -> ->. subst n.
      pose proof (kind_fun h s Out i' _ _ Sa I K Ko) as X. discriminate. }
    specialize (Su n i' t I K Lt). unfold out_links in Su. unfold link in *. rewrite Z. cbn [length filter fst]. destruct (ep_eqb (s, i) (n, i')) eqn:Es; cbn [length]; [|lia].
    apply ep_eqb_iff in Es. injection Es as <- <-. 
    assert (Sp : wired h s i d j h').
    { apply (wire_spec h Sa s i d j q h' b Pd); [|exact E]. intros t' K'. apply (Hv t'). apply (value_kind' h Sa); assumption. }
    pose proof (proj2 (proj1 (value_kind h Sa s i t Is) K)) as Kp. destruct Sp as [_ HP|t' p a oi oj K' Ct _ _ _ _ _ _|t' b0 c g x K' Ct _ _ _ _ _ _ _ _].
    - destruct (HP t Kp) as (p & _ & _ & Hl). specialize (Hl Lt). unfold linked_inputs in Hl. apply map_eq_nil in Hl. unfold link in *. rewrite Hl. cbn. lia.
    - rewrite Kp in K'. injection K' as <-. congruence.
    - rewrite Kp in K'. injection K' as <-. congruence.
  Qed.

  (** From a visible source to an existing input, wiring up does not panic. *)
  Theorem wire_total (h : hugr) s i d j q t : sane h -> kind_at h s Out i (EValue t) -> In s (h_nodes h) -> in_port h (d, j) -> h_parent h d = Some q -> visible h q s -> wire_up h (s, i) (d, j) <> BPanic.
  Proof.
    intros Sa K Is Ip Pd (p & Ps & V). pose proof (sane_wf h Sa) as W. pose proof (sane_tree h Sa) as Tr. pose proof (sane_counted h Sa) as C.
    destruct (proj1 (value_kind h Sa s i t Is) K) as (Hi & Kp).
    assert (J : forall (h1 : hugr) ls l, more_links h h1 ls -> join h1 (s, i) (d, j) l <> BPanic).
    { intros h1 ls l (A1 & A2 & A3 & A4 & A5 & A6 & _). unfold join, connect, valid_port, contains. cbn [fst snd num_ports]. rewrite A1, A5, A6. destruct Ip as [Id Lj]. cbn [fst snd] in Id, Lj.
      apply memN_iff in Is, Id. rewrite Is, Id. apply Nat.ltb_lt in Hi, Lj. rewrite Hi, Lj. cbn [andb]. cbn [h_ops set_links]. rewrite A2.
      destruct (kind_exists h C d Inc j) as (k & Hk); [apply memN_iff; exact Id|apply Nat.ltb_lt; exact Lj|]. rewrite Hk. discriminate. }
    assert (M0 : more_links h h []) by (unfold more_links; rewrite app_nil_r; repeat split; reflexivity).
    unfold wire_up. cbn [fst snd]. unfold contains. rewrite (proj2 (memN_iff _ _) Is). cbn [negb]. rewrite Kp, !(get_parent_eq h W), Ps, Pd. cbn [parent_eqb].
    destruct (N.eqb_spec p q) as [<-|Nq]; cbn [negb].
    - destruct (negb (copyable t) && _); [discriminate|]. exact (J h [] _ M0).
    - destruct (copyable t) eqn:Ct; cbn [negb]; [|discriminate]. destruct (sibling_of h p (get_parent h p) (length (h_nodes h)) q) as [x|] eqn:Ex; [|discriminate].
      destruct (sibling_some h Sa _ _ _ _ _ Ex) as (Ux & (r & Px & Hr) & First). pose proof (value_produces _ _ _ Kp) as Pr. destruct (produces_plain _ Pr) as (Hs & oi & Hoi). rewrite Hs. cbn [negb andb].
      assert (Bd : below h d x) by (eapply up_next; eassumption). assert (Nd : d <> x) by (intros ->; exact (no_cycle h W x q Pd Ux)).
      destruct (up_last h d x Bd) as [|(y & _ & Py)]; [congruence|]. destruct (negb (within TControlFlowChild (op_tag (h_ops h x)))) eqn:Nt; [|exact (J h [] _ M0)]. apply negb_true_iff in Nt.
      assert (Er : r = p).
      { destruct (N.eq_dec r p) as [|Nr]; [assumption|]. exfalso. destruct Hr as [|Hr]; [congruence|]. rewrite (get_parent_eq h W) in Hr. destruct V as [V|(c & g & Pc & Oc & Uc & Nc)].
        - destruct (up_last h q p V) as [Eq|(y' & Uy & Py')]; [congruence|]. destruct (up_linear (h_parent h) q x y' Ux Uy) as [L|L].
          + apply (up_split h) in L. destruct L as [<-|(r' & Pr' & L)]; [congruence|]. rewrite Px in Pr'. injection Pr' as <-. apply (no_cycle h W p r Hr). eapply up_trans; [exact L|]. eapply up_next; [exact Py'|constructor].
          + destruct (N.eq_dec y' x) as [->|Ny]; [congruence|]. exact (First y' Uy L Ny Py').
        - assert (c = r) by congruence. subst c. rewrite (block_child g _ _ ltac:(rewrite <- Oc; exact (Tr _ _ Px)) (Tr _ _ Py)) in Nt. discriminate. }
      subst r. pose proof (beside_nests _ _ _ _ Pr (Tr _ _ Ps) (Tr _ _ Px) (Tr _ _ Py)) as Ns. destruct (nests_plain _ Ns) as (Hx & oj & Hoj).
      assert (Ix : In x (h_nodes h)) by (destruct (in_dec N.eq_dec x (h_nodes h)) as [|Hn]; [assumption|destruct (wf_unused h W x Hn); congruence]).
      unfold add_other_edge. rewrite Hoi, Hoj. destruct (connect h s oi x oj) as [h1|] eqn:E1; [exact (J h1 _ _ (connect_more _ _ _ _ _ _ E1))|]. exfalso.
      unfold connect, valid_port, contains in E1. cbn [num_ports] in E1. rewrite (proj2 (memN_iff _ _) Is), (proj2 (memN_iff _ _) Ix) in E1. cbn [andb] in E1.
      destruct (C s Is) as (_ & _ & Cs). destruct (C x Ix) as (_ & Cx & _). rewrite Cs, Cx in E1.
      assert (Lo : forall o dd k, (produces o /\ dd = Out) \/ (nests o /\ dd = Inc) -> other_port o dd = Some k -> k < port_count o dd).
      { intros o dd k Ho. unfold other_port, port_count. destruct Ho as [[Ho ->]|[Ho ->]]; destruct o; destruct Ho; cbn; intros [= <-]; lia. }
      pose proof (Lo _ _ _ (or_introl (conj Pr eq_refl)) Hoi) as L1. pose proof (Lo _ _ _ (or_intror (conj Ns eq_refl)) Hoj) as L2. apply Nat.ltb_lt in L1, L2. rewrite L1, L2 in E1. discriminate.
  Qed.

  (** A wire that is refused cannot be part of a valid HUGR with this hierarchy. *)
  Theorem wire_refused (h h' h2 : hugr) s i d j t e : sane h -> In s (h_nodes h) -> In d (h_nodes h) -> kind_at h s Out i (EValue t) -> wire_up h (s, i) (d, j) = Failed h' e ->
    h' = h /\ (h_parent h2 = h_parent h -> h_ops h2 = h_ops h -> (forall l, In l (h_links h) -> In l (h_links h2)) ->
      match e with
      | NoCopyLinear t' src => t' = t /\ src = (s, i) /\ lub t = Linear /\ out_links h (s, i) <> []
      | NonCopyableIntergraph src dst t' => t' = t /\ src = (s, i) /\ dst = (d, j) /\ lub t = Linear /\ ~ local_edge h2 (EValue t) s d
      | NoRelationIntergraph src dst => src = (s, i) /\ dst = (d, j) /\ ~ local_edge h2 (EValue t) s d
      end).
  Proof.
    intros Sa Is Id K. pose proof (sane_wf h Sa) as W. destruct (proj1 (value_kind h Sa s i t Is) K) as (Hi & Kp). destruct (root_produces h Sa s i t Is Kp) as (p & Ps).
    assert (Jf : forall (h1 : hugr) l, join h1 (s, i) (d, j) l <> Failed h' e).
    { intros h1 l. unfold join. destruct (connect h1 _ _ _ _) as [x|]; [|discriminate]. cbn [fst snd]. destruct (port_kind (h_ops x d) Inc j); discriminate. }
    unfold wire_up. cbn [fst snd]. unfold contains. rewrite (proj2 (memN_iff _ _) Is). cbn [negb]. rewrite Kp, !(get_parent_eq h W), Ps.
    destruct (parent_eqb (Some p) (h_parent h d)) eqn:Pe; cbn [negb].
    - destruct (copyable t) eqn:Ct; cbn [negb andb]; [intros E; destruct (Jf _ _ E)|]. destruct (linked_inputs h s i) as [|x l] eqn:Li; cbn [negb]; [intros E; destruct (Jf _ _ E)|].
      intros [= <- <-]. split; [reflexivity|]. intros _ _ _. split; [reflexivity|]. split; [reflexivity|]. split; [apply copyable_false; exact Ct|]. unfold linked_inputs in Li. unfold out_links. intros Z. rewrite Z in Li. discriminate.
    - assert (Np : h_parent h d <> Some p) by (intros Z; rewrite Z in Pe; cbn in Pe; rewrite N.eqb_refl in Pe; discriminate).
      destruct (copyable t) eqn:Ct; cbn [negb].
      + destruct (match h_parent h d with Some dp => sibling_of h p (get_parent h p) (length (h_nodes h)) dp | None => None end) as [x|] eqn:Ex.
        * destruct (_ && _); [|intros E; destruct (Jf _ _ E)]. destruct (add_other_edge h s x); [intros E; destruct (Jf _ _ E)|discriminate].
        * intros [= <- <-]. split; [reflexivity|]. intros Ep Eo _. split; [reflexivity|]. split; [reflexivity|]. intros Le.
          assert (No : forall x r, up (h_parent h) d x -> d <> x -> h_parent h x = Some r -> r <> p /\ h_parent h p <> Some r).
          { intros x r U Ne Pr. apply (up_split h) in U. destruct U as [|(q & Pd & U)]; [congruence|]. rewrite Pd in Ex. rewrite (get_parent_eq h W) in Ex.
            apply (sibling_none h Sa p (h_parent h p) (length (h_nodes h)) q) with (x := x); try assumption. apply (fuel_enough h Sa). exact (proj1 (proj2 (wf_parent_live h W d q Pd))). }
          destruct Le as [p' A B|p' [(? & Se)|(? & Se)] A B D|t' p' x Se V A B D Nd O|t' b' c g x Se V A B G X D Nd Nx Do]; rewrite Ep in *; [|discriminate Se|discriminate Se| |].
          -- congruence.
          -- unfold below in D. rewrite Ep in D. destruct (No x p' D Nd B) as (N1 & _). congruence.
          -- unfold below in D. rewrite Ep in D. destruct (No x c D Nd X) as (_ & N2). congruence.
      + intros [= <- <-]. split; [reflexivity|]. intros Ep Eo _. split; [reflexivity|]. split; [reflexivity|]. split; [reflexivity|]. apply copyable_false in Ct. split; [exact Ct|]. intros Le.
        destruct Le as [p' A B|p' [(? & Se)|(? & Se)] A B D|t' p' x Se V A B D Nd O|t' b' c g x Se V A B G X D Nd Nx Do]; rewrite Ep in *; congruence.
  Qed.

  (** ** New nodes *)
  Lemma add_fields (h h1 : hugr) n p o : add_node_with_parent OpModel.in_count OpModel.out_count h n p o = Some h1 ->
    ~ In n (h_nodes h) /\ h_nodes h1 = n :: h_nodes h /\ h_ops h1 = upd (h_ops h) n o /\ h_parent h1 = upd (h_parent h) n (Some p) /\ h_links h1 = h_links h /\
    h_in h1 = upd (h_in h) n (OpModel.in_count o) /\ h_out h1 = upd (h_out h) n (OpModel.out_count o) /\ h_root h1 = h_root h /\ h_entry h1 = h_entry h.
  Proof.
    unfold add_node_with_parent, add_node. destruct (contains h n) eqn:Cn; [discriminate|]. unfold push_child. cbn [h_parent set_ops set_ports set_nodes].
    destruct (h_parent h n); [discriminate|]. destruct (climbs _ _ _ _); [discriminate|]. intros [= <-]. apply memN_false in Cn. cbn. repeat split; try reflexivity. exact Cn.
  Qed.

  Lemma upd_live {A} (f : N -> A) n (v : A) x : x <> n -> upd f n v x = f x.
  Proof. intros Ne. unfold upd. destruct (N.eqb_spec x n); [contradiction|reflexivity]. Qed.
  Lemma upd_at {A} (f : N -> A) n (v : A) : upd f n v n = v.
  Proof. unfold upd. rewrite N.eqb_refl. reflexivity. Qed.

  Section Added.
    Variables h h1 : hugr.
    Variables n p : N.
    Variable o : op.
    Hypothesis Sa : sane h.
    Hypothesis Ip : In p (h_nodes h).
    Hypothesis Al : allowed (h_ops h p) o.
    Hypothesis Tg : tag_in_range o = true.
    Hypothesis E : add_node_with_parent OpModel.in_count OpModel.out_count h n p o = Some h1.
    Let W := sane_wf h Sa.

    Lemma added_sane : sane h1.
    Proof.
      destruct (add_fields h h1 n p o E) as (Nn & En & Eo & Ep & El & Ei & Eu & Er & _). constructor.
      - exact (add_child_wf OModule OpModel.in_count OpModel.out_count h h1 n p o W Ip E).
      - intros m q. rewrite Ep, Eo. destruct (N.eq_dec m n) as [->|Nm].
        + rewrite upd_at. intros [= <-]. rewrite upd_at, upd_live by congruence. exact Al.
        + rewrite upd_live by exact Nm. intros P. destruct (wf_parent_live h W m q P) as (Im & Iq & _). rewrite !upd_live by congruence. exact (sane_tree h Sa m q P).
      - intros m. rewrite En, Eo, Ei, Eu. intros [<-|I].
        + rewrite !upd_at. destruct (ports_exists o Inc Tg) as (ki & Pi). destruct (ports_exists o Out Tg) as (ko & Po). exists ki, ko. split; [exact Pi|]. split; [exact Po|].
          rewrite (proj1 (ports_kind _ _ _ Pi)), (proj1 (ports_kind _ _ _ Po)). split; reflexivity.
        + rewrite !upd_live by congruence. exact (sane_ports h Sa m I).
      - rewrite Eo, Er, upd_live by (intros Z; apply Nn; rewrite <- Z; exact (wf_root h W)). exact (sane_root h Sa).
    Qed.
    Lemma added_up a b : In a (h_nodes h) -> up (h_parent h) a b -> up (h_parent h1) a b.
    Proof.
      destruct (add_fields h h1 n p o E) as (Nn & _ & _ & Ep & _). intros I U. induction U as [|a q b P U IH]; [constructor|].
      destruct (wf_parent_live h W a q P) as (_ & Iq & _). eapply up_next; [|exact (IH Iq)]. rewrite Ep, upd_live by congruence. exact P.
    Qed.
    Lemma added_visible s : In s (h_nodes h) -> visible h p s -> visible h1 p s.
    Proof.
      destruct (add_fields h h1 n p o E) as (Nn & _ & Eo & Ep & _). intros Is (b & Pb & V). exists b. rewrite Ep, upd_live by congruence. split; [exact Pb|].
      destruct V as [V|(c & g & Pc & Oc & Uc & Nc)]; [left; exact (added_up p b Ip V)|right]. destruct (wf_parent_live h W b c Pc) as (Ib & Ic & _).
      exists c, g. rewrite Eo, !upd_live by congruence. split; [exact Pc|]. split; [exact Oc|]. split; [exact (added_up p c Ip Uc)|exact Nc].
    Qed.
    Lemma added_kind s d i k : In s (h_nodes h) -> kind_at h1 s d i k <-> kind_at h s d i k.
    Proof. destruct (add_fields h h1 n p o E) as (Nn & _ & Eo & _). intros Is. unfold kind_at. rewrite Eo, upd_live by congruence. tauto. Qed.
    Lemma added_single : single_use h -> single_use h1.
    Proof.
      destruct (add_fields h h1 n p o E) as (Nn & En & _ & _ & El & _). intros Su m i t. rewrite En. unfold out_links. rewrite El. intros [<-|I] K Lt.
      - destruct (filter (fun l => ep_eqb (fst l) (n, i)) (h_links h)) as [|l r] eqn:F; [cbn; lia|]. exfalso. assert (Il : In l (filter (fun l => ep_eqb (fst l) (n, i)) (h_links h))) by (rewrite F; left; reflexivity).
        apply filter_In in Il. destruct Il as [Il B]. apply ep_eqb_iff in B. destruct (wf_links h W l Il) as ((I & _) & _). destruct l as [[x y] z]. cbn in B, I. injection B as -> ->. contradiction.
      - apply (added_kind m Out i _ I) in K. exact (Su m i t I K Lt).
    Qed.
    Lemma added_placed : all_placed h -> all_placed h1.
    Proof.
      destruct (add_fields h h1 n p o E) as (Nn & En & Eo & Ep & El & _). intros Ap s i d j t. rewrite El. intros L K. destruct (wf_links h W _ L) as ((Is & _) & (Id & _)). cbn [fst snd] in Is, Id.
      apply (added_kind s Out i _ Is) in K. destruct (Ap s i d j t L K) as [q P Q|q a Ct P Q B Ne (oi & oj & Ko & Lo)|b c g x Ct P Q G X B Ne Nb].
      - apply (pl_sibling _ _ _ _ q); rewrite Ep, upd_live by congruence; assumption.
      - destruct (wf_parent_live h W a q Q) as (Ia & _). apply (pl_external _ _ _ _ q a); [exact Ct| | | |exact Ne|].
        + rewrite Ep, upd_live by congruence. exact P.
        + rewrite Ep, upd_live by congruence. exact Q.
        + exact (added_up d a Id B).
        + exists oi, oj. rewrite El. split; [apply (added_kind s Out oi _ Is); exact Ko|exact Lo].
      - destruct (wf_parent_live h W b c Q) as (Ib & Ic & _). destruct (wf_parent_live h W x c X) as (Ix & _). apply (pl_block _ _ _ _ b c g x); [exact Ct| | | | | |exact Ne|exact Nb].
        + rewrite Ep, upd_live by congruence. exact P.
        + rewrite Ep, upd_live by congruence. exact Q.
        + rewrite Eo, upd_live by congruence. exact G.
        + rewrite Ep, upd_live by congruence. exact X.
        + exact (added_up d x Id B).
    Qed.
  End Added.

  (** Wiring up several inputs: the invariants stay, and the wires are there. *)
  Theorem wires_ok : forall (ws : list endpoint) (h h' : hugr) n q k, sane h -> single_use h -> all_placed h -> h_parent h n = Some q ->
    (forall w t, In w ws -> kind_at h (fst w) Out (snd w) (EValue t) -> visible h q (fst w)) -> wire_up_inputs h ws n k = Built h' tt ->
    sane h' /\ single_use h' /\ all_placed h' /\ (exists ls, more_links h h' ls) /\ (forall j w, nth_error ws j = Some w -> In (w, (n, k + j)) (h_links h')).
  Proof.
    induction ws as [|w ws IH]; intros h h' n q k Sa Su Ap Pn Hv; cbn [wire_up_inputs].
    { intros [= <-]. repeat (split; [assumption|]). split; [exists []; unfold more_links; rewrite app_nil_r; repeat split; reflexivity|]. intros [|]; discriminate. }
    destruct w as [s i]. destruct (wire_up h (s, i) (n, k)) as [h1 b| |] eqn:E1; try discriminate. intros E.
    assert (Hw : forall t, kind_at h s Out i (EValue t) -> visible h q s) by (intros t K; exact (Hv (s, i) t (or_introl eq_refl) K)).
    destruct (wire_placed h h1 s i n k q b Sa Pn Hw E1) as ((ls & ML & _) & _).
    pose proof (more_sane h h1 _ ML (wire_wf h h1 _ _ b (sane_wf h Sa) E1) Sa) as Sa1.
    assert (Pn1 : h_parent h1 n = Some q) by (destruct ML as (_ & _ & -> & _); exact Pn).
    destruct (IH h1 h' n q (S k) Sa1 (wire_single_use h h1 s i n k q b Sa Pn Hw Su E1) (wire_all_placed h h1 s i n k q b Sa Pn Hw Ap E1) Pn1) as (S2 & U2 & A2 & (ls2 & ML2) & In2); [|exact E|].
    - intros w t Iw K. apply (more_visible h h1 _ q (fst w) ML). apply (Hv w t (or_intror Iw)). exact (proj1 (more_kind h h1 _ _ _ _ _ ML) K).
    - split; [exact S2|]. split; [exact U2|]. split; [exact A2|]. split; [exists ((ls ++ [((s, i), (n, k))]) ++ ls2); exact (more_trans _ _ _ _ _ ML ML2)|].
      intros [|j] w Hj.
      + injection Hj as <-. rewrite Nat.add_0_r. rewrite (proj2 (proj2 (proj2 (proj2 (proj2 (proj2 (proj2 (proj2 (proj2 ML2))))))))).
        apply in_or_app. left. rewrite (proj2 (proj2 (proj2 (proj2 (proj2 (proj2 (proj2 (proj2 (proj2 ML))))))))). apply in_or_app. right. apply in_or_app. right. left. reflexivity.
      + rewrite Nat.add_succ_r; change (S (k + j)) with (S k + j). exact (In2 j w Hj).
  Qed.

  Section Fresh.
  Variable fresh : hugr -> N.
  (** Adding an operation with its wires: the invariants stay, the node has the operation, and its inputs are the wires in order. *)
  Theorem add_op_ok (h h' : hugr) p o ws n k : sane h -> single_use h -> all_placed h -> In p (h_nodes h) -> allowed (h_ops h p) o -> tag_in_range o = true ->
    (forall w t, In w ws -> In (fst w) (h_nodes h) -> kind_at h (fst w) Out (snd w) (EValue t) -> visible h p (fst w)) -> add_op fresh h p o ws = Built h' (n, k) ->
    sane h' /\ single_use h' /\ all_placed h' /\ n = fresh h /\ ~ In n (h_nodes h) /\ k = value_port_count o Out /\ h_ops h' n = o /\ h_parent h' n = Some p /\
    (forall m, In m (h_nodes h) -> h_ops h' m = h_ops h m /\ h_parent h' m = h_parent h m) /\ (forall l, In l (h_links h) -> In l (h_links h')) /\
    (forall j w, nth_error ws j = Some w -> In (w, (n, j)) (h_links h')).
  Proof.
    intros Sa Su Ap Ip Al Tg Hv. unfold add_op. destruct (add_node_with_parent OpModel.in_count OpModel.out_count h (fresh h) p o) as [h1|] eqn:E1; [|discriminate].
    destruct (wire_up_inputs h1 ws (fresh h) 0) as [h2 [] | |] eqn:E2; try discriminate. intros [= <- <- <-].
    destruct (add_fields h h1 (fresh h) p o E1) as (Nn & En & Eo & Ep & El & _). pose proof (added_sane h h1 _ p o Sa Ip Al Tg E1) as S1.
    assert (Pn : h_parent h1 (fresh h) = Some p) by (rewrite Ep; apply upd_at).
    destruct (wires_ok ws h1 h2 (fresh h) p 0 S1 (added_single h h1 _ p o Sa E1 Su) (added_placed h h1 _ p o Sa E1 Ap) Pn) as (S2 & U2 & A2 & (ls & ML) & Hin); [|exact E2|].
    - intros w t Iw K. destruct (in_dec N.eq_dec (fst w) (h_nodes h)) as [Is|Ns].
      + apply (added_visible h h1 _ p o Sa Ip E1 (fst w) Is). apply (Hv w t Iw Is). exact (proj1 (added_kind h h1 _ p o E1 (fst w) Out _ _ Is) K).
      + assert (X : wire_up_inputs h1 ws (fresh h) 0 <> BPanic) by congruence. destruct (N.eq_dec (fst w) (fresh h)) as [->|Nf].
        * exists p. split; [exact Pn|]. left. constructor.
        * exfalso. apply Ns. clear - E2 Iw Nf En. revert E2. generalize 0. revert h1 En. induction ws as [|w' ws IH]; intros h1 En k; [destruct Iw|]. cbn [wire_up_inputs].
          destruct (wire_up h1 w' (fresh h, k)) as [h3 b| |] eqn:E3; try discriminate. destruct Iw as [->|Iw].
          -- intros _. unfold wire_up in E3. unfold contains in E3. destruct (memN (fst w) (h_nodes h1)) eqn:Mm; [|discriminate]. apply memN_iff in Mm. rewrite En in Mm. destruct Mm as [Z|Z]; [congruence|exact Z].
          -- apply (IH Iw). clear - E3 En. unfold wire_up in E3. destruct (contains h1 (fst w')); cbn [negb] in E3; [|discriminate].
             assert (Jn : forall (ha hb : hugr) s d l b0, join ha s d l = Built hb b0 -> h_nodes hb = h_nodes ha) by (intros ha hb s d l b0 Hj; apply join_more in Hj; exact (proj1 Hj)).
             destruct (port_kind (h_ops h1 (fst w')) Out (snd w')) as [[]|]; try discriminate; try (rewrite (Jn _ _ _ _ _ _ E3); exact En).
             destruct (parent_eqb _ _); cbn [negb] in E3.
             ++ destruct (negb (copyable t) && _); [discriminate|]. rewrite (Jn _ _ _ _ _ _ E3). exact En.
             ++ destruct (copyable t); cbn [negb] in E3; [|discriminate]. destruct (get_parent h1 (fst w')); [|discriminate]. destruct (get_parent h1 (fst (fresh h, k))); [|discriminate].
                destruct (sibling_of _ _ _ _ _) as [x|]; [|discriminate]. destruct (_ && _); [|rewrite (Jn _ _ _ _ _ _ E3); exact En].
                unfold add_other_edge in E3. destruct (other_port (h_ops h1 (fst w')) Out); [|discriminate]. destruct (other_port (h_ops h1 x) Inc); [|discriminate].
                destruct (connect h1 _ _ _ _) as [h4|] eqn:E4; [|discriminate]. rewrite (Jn _ _ _ _ _ _ E3). rewrite (proj1 (connect_more _ _ _ _ _ _ E4)). exact En.
    - pose proof ML as (A1 & A2' & A3 & _). pose proof (proj2 (proj2 (proj2 (proj2 (proj2 (proj2 (proj2 (proj2 (proj2 ML))))))))) as A10. split; [exact S2|]. split; [exact U2|]. split; [exact A2|]. split; [reflexivity|]. split; [exact Nn|]. split; [reflexivity|].
      split; [rewrite A2', Eo; apply upd_at|]. split; [rewrite A3; exact Pn|]. split.
      + intros m Im. rewrite A2', A3, Eo, Ep, !upd_live by congruence. split; reflexivity.
      + split; [|exact Hin]. intros l L. rewrite A10, El. apply in_or_app. left. exact L.
  Qed.

  (** Setting the outputs of a region. *)
  Theorem set_outputs_ok (h h' : hugr) p i o rest ws : sane h -> single_use h -> all_placed h -> h_kids h p = i :: o :: rest ->
    (forall w t, In w ws -> kind_at h (fst w) Out (snd w) (EValue t) -> visible h p (fst w)) -> set_outputs h p ws = Built h' tt ->
    sane h' /\ single_use h' /\ all_placed h' /\ (exists ls, more_links h h' ls) /\ (forall j w, nth_error ws j = Some w -> In (w, (o, j)) (h_links h')).
  Proof.
    intros Sa Su Ap Hk Hv. unfold set_outputs. rewrite Hk. apply (wires_ok ws h h' o p 0 Sa Su Ap); [|exact Hv]. apply (wf_kids h (sane_wf h Sa)). rewrite Hk. right. left. reflexivity.
  Qed.

  (** ** Circuits *)
  Lemma set_nth_length {A} (x : A) : forall l i, length (set_nth i x l) = length l.
  Proof. induction l as [|y l IH]; intros [|i]; cbn; try reflexivity. now rewrite IH. Qed.
  Lemma set_nth_at {A} (x : A) : forall l i, i < length l -> nth_error (set_nth i x l) i = Some x.
  Proof. induction l as [|y l IH]; intros [|i]; cbn; intros L; try lia; [reflexivity|]. apply IH. lia. Qed.
  Lemma set_nth_other {A} (x : A) : forall l i j, i <> j -> nth_error (set_nth i x l) j = nth_error l j.
  Proof. induction l as [|y l IH]; intros [|i] [|j] Ne; cbn; try reflexivity; try congruence. apply IH. congruence. Qed.

  Definition is_linear_in (us : list unit_in) (p : nat) : bool := match nth_error us p with Some (ULinear _) => true | _ => false end.
  Lemma put_spec n us : forall ps ws ws' outs, put_outputs n us ps ws = (ws', outs) ->
    outs = map (fun p => (n, p)) (filter (fun p => negb (is_linear_in us p)) ps) /\ length ws' = length ws /\
    (forall i, (forall p, In p ps -> nth_error us p <> Some (ULinear i)) -> tracked ws' i = tracked ws i) /\
    (forall p i, In p ps -> nth_error us p = Some (ULinear i) -> i < length ws -> (forall q, In q ps -> nth_error us q = Some (ULinear i) -> q = p) -> tracked ws' i = Some (n, p)).
  Proof.
    induction ps as [|p ps IH]; intros ws ws' outs; cbn [put_outputs].
    { intros [= <- <-]. split; [reflexivity|]. split; [reflexivity|]. split; [reflexivity|]. intros p i []. }
    destruct (nth_error us p) as [[w|i]|] eqn:Up.
    1,3: destruct (put_outputs n us ps ws) as [ws1 outs1] eqn:E1; intros [= <- <-]; destruct (IH ws ws1 outs1 E1) as (Ho & Hl & Hu & Hs); cbn [filter]; unfold is_linear_in at 1; rewrite Up; cbn [negb map];
      (split; [f_equal; exact Ho|]); (split; [exact Hl|]); (split; [intros j Hj; apply Hu; intros q Hq; apply Hj; right; exact Hq|]); intros q j [<-|Hq] Uq L Un; [congruence|apply (Hs q j Hq Uq L); intros r Hr; apply Un; right; exact Hr].
    intros E1. destruct (IH (set_nth i (Some (n, p)) ws) ws' outs E1) as (Ho & Hl & Hu & Hs). cbn [filter]. unfold is_linear_in at 1. rewrite Up. cbn [negb]. rewrite set_nth_length in Hl. split; [exact Ho|]. split; [exact Hl|]. split.
    - intros j Hj. rewrite Hu by (intros q Hq; apply Hj; right; exact Hq). unfold tracked. rewrite set_nth_other; [reflexivity|]. intros ->. exact (Hj p (or_introl eq_refl) Up).
    - intros q j Hq Uq L Un. destruct (in_dec Nat.eq_dec q ps) as [Iq|Nq].
      + rewrite set_nth_length in Hs. apply (Hs q j Iq Uq L). intros r Hr. apply Un. right. exact Hr.
      + destruct Hq as [<-|Hq]; [|contradiction]. rewrite Up in Uq. injection Uq as <-. rewrite Hu.
        * unfold tracked. rewrite set_nth_at by exact L. reflexivity.
        * intros r Hr Ur. apply Nq. rewrite (Un r (or_intror Hr) Ur) in Hr. exact Hr.
  Qed.

  Lemma unit_wires_spec ws : forall us l, unit_wires ws us = inl l -> Forall2 (fun u w => match u with UWire x => w = x | ULinear i => tracked ws i = Some w end) us l.
  Proof.
    induction us as [|[x|i] us IH]; intros l; cbn [unit_wires].
    - intros [= <-]. constructor.
    - destruct (unit_wires ws us) as [r|]; [|discriminate]. intros [= <-]. constructor; [reflexivity|]. exact (IH r eq_refl).
    - destruct (tracked ws i) as [w|] eqn:T; [|discriminate]. destruct (unit_wires ws us) as [r|]; [|discriminate]. intros [= <-]. constructor; [exact T|]. exact (IH r eq_refl).
  Qed.

  Lemma forall2_nth {A B} (R : A -> B -> Prop) : forall l1 l2, Forall2 R l1 l2 -> forall a x, nth_error l1 a = Some x -> exists y, nth_error l2 a = Some y /\ R x y.
  Proof. induction 1 as [|x y l1 l2 r F IH]; intros [|a] z; cbn; try discriminate; [intros [= <-]; eauto|apply IH]. Qed.

  (** Appending an operation to a circuit, with different tracked wires: the inputs are the given wires and those tracked at the given places, which now
      track the outputs at the same offsets; the other outputs are returned, in order. *)
  Theorem append_tracks (h h' : hugr) p ws ws' o us outs : append_with_outputs fresh h p ws o us = Appended h' ws' outs ->
    (forall a b i, nth_error us a = Some (ULinear i) -> nth_error us b = Some (ULinear i) -> a = b) ->
    exists n k ins, add_op fresh h p o ins = Built h' (n, k) /\ length ws' = length ws /\
      Forall2 (fun u w => match u with UWire x => w = x | ULinear i => tracked ws i = Some w end) us ins /\
      (forall a i, nth_error us a = Some (ULinear i) -> a < k /\ tracked ws' i = Some (n, a)) /\
      (forall i, ~ In (ULinear i) us -> tracked ws' i = tracked ws i) /\
      outs = map (fun a => (n, a)) (filter (fun a => negb (is_linear_in us a)) (seq 0 k)).
  Proof.
    unfold append_with_outputs. destruct (unit_wires ws us) as [ins|] eqn:Eu; [|discriminate]. destruct (add_op fresh h p o ins) as [h1 [n k]| |] eqn:Ea; try discriminate.
    destruct (put_outputs n us (seq 0 k) ws) as [ws1 outs1] eqn:Ep. destruct (leftover us k) as [|x l] eqn:Lf; [|discriminate]. intros [= <- <- <-] Un. exists n, k, ins.
    destruct (put_spec n us _ _ _ _ Ep) as (Ho & Hl & Hu & Hs). pose proof (unit_wires_spec ws us ins Eu) as Hin. split; [exact Ea|]. split; [exact Hl|]. split; [exact Hin|]. split; [|split].
    - intros a i Ua. assert (La : a < k).
      { destruct (le_lt_dec k a) as [L|L]; [|exact L]. exfalso. assert (Iu : In (ULinear i) (skipn k us)).
        { apply nth_error_In with (n := a - k). rewrite <- (firstn_skipn k us) in Ua. rewrite nth_error_app2 in Ua by (rewrite firstn_length; lia). rewrite firstn_length in Ua.
          assert (a < length us) by (apply nth_error_Some; rewrite <- (firstn_skipn k us), nth_error_app2 by (rewrite firstn_length; lia); rewrite firstn_length; congruence).
          rewrite Nat.min_l in Ua by lia. exact Ua. }
        unfold leftover in Lf. assert (X : In i (flat_map (fun u => match u with ULinear j => [j] | UWire _ => [] end) (skipn k us))) by (apply in_flat_map; exists (ULinear i); split; [exact Iu|left; reflexivity]).
        rewrite Lf in X. exact X. }
      split; [exact La|]. apply (Hs a i); [apply in_seq; lia|exact Ua| |intros q _ Uq; exact (Un q a i Uq Ua)].
      destruct (forall2_nth _ us ins Hin a (ULinear i) Ua) as (w & _ & T). unfold tracked in T. apply nth_error_Some. destruct (nth_error ws i); [discriminate|discriminate T].
    - intros i Ni. apply Hu. intros q _ Uq. apply Ni. exact (nth_error_In _ _ Uq).
    - exact Ho.
  Qed.
  End Fresh.
End Props.
Print Assumptions wire_placed.
Print Assumptions wire_single_use.
Print Assumptions wire_total.
Print Assumptions wire_refused.
Print Assumptions wires_ok.
Print Assumptions add_op_ok.
Print Assumptions set_outputs_ok.
Print Assumptions append_tracks.

(** ** Examples *)
(** Checks for what [sane] asks. *)
Definition sane_check (h : hugr op N) : bool :=
  forallb (fun n => match h_parent h n with None => true | Some p => within (f_children (validity_flags (h_ops h p))) (op_tag (h_ops h n)) end) (h_nodes h) &&
  forallb (fun n => tag_in_range (h_ops h n) && Nat.eqb (h_in h n) (port_count (h_ops h n) Inc) && Nat.eqb (h_out h n) (port_count (h_ops h n) Out)) (h_nodes h) &&
  match h_ops h (h_root h) with OModule => true | _ => false end.
Lemma sane_checked (h : hugr op N) : wf h -> sane_check h = true -> sane h.
Proof.
  intros W. unfold sane_check. rewrite !andb_true_iff. intros ((T & P) & R). constructor; [exact W| | |].
  - intros n p Pn. rewrite forallb_forall in T. destruct (wf_parent_live h W n p Pn) as (I & _). specialize (T n I). rewrite Pn in T. now apply children_iff.
  - refine (proj1 (counted_iff h) _). intros n I. rewrite forallb_forall in P. specialize (P n I). rewrite !andb_true_iff in P. destruct P as ((A & B) & D). apply Nat.eqb_eq in B, D. auto.
  - destruct (h_ops h (h_root h)); try discriminate R. reflexivity.
Qed.
Definition next (h : hugr op N) : N := N.of_nat (length (h_nodes h)).

(** A function with two nested graphs, the first with an operation. *)
Definition qubit : ty := TypesModel.TAlias 2 Linear.
Definition nest_acts : list (act (O := op) (M := N)) :=
  [AddChild 1%N 0%N (fn 1); AddChild 2%N 1%N (OInput [bit]); AddChild 3%N 1%N (OOutput [bit]);
   AddChild 4%N 1%N (ODfg ([], [bit])); AddChild 5%N 4%N (OInput []); AddChild 6%N 4%N (OOutput [bit]);
   AddChild 7%N 1%N (ODfg ([], [bit])); AddChild 8%N 7%N (OInput []); AddChild 9%N 7%N (OOutput [bit]); AddChild 10%N 4%N (bit_op 5)].
Definition nest_graph : hugr op N := graph_of (make nest_acts).
Lemma nest_wf : wf nest_graph.
Proof. apply built_wf. vm_compute. tauto. Qed.
Lemma nest_check : sane_check nest_graph = true.
Proof. vm_compute. reflexivity. Qed.
Lemma nest_sane : sane nest_graph.
Proof. exact (sane_checked nest_graph nest_wf nest_check). Qed.

Definition links_of {A} (x : built (hugr op N) A) : option (list link) := match x with Built h _ => Some (h_links h) | _ => None end.
Definition error_of {A} (x : built (hugr op N) A) : option wiring_error := match x with Failed _ e => Some e | _ => None end.

(** A wire into a nested graph gets an order edge; within the nested graph there is none. *)
Example wire_nonvacuous :
  links_of (wire_up nest_graph (2%N, 0) (6%N, 0)) = Some [((2%N, 1), (4%N, 0)); ((2%N, 0), (6%N, 0))] /\
  links_of (wire_up nest_graph (10%N, 0) (6%N, 0)) = Some [((10%N, 0), (6%N, 0))] /\
  error_of (wire_up nest_graph (10%N, 0) (3%N, 0)) = Some (NoRelationIntergraph (10%N, 0) (3%N, 0)).
Proof. vm_compute. repeat split; reflexivity. Qed.

(** Two operations on a qubit, and a copy of it, which is refused. *)
Definition qop (n : N) (a b : row) : op := OExt 4 n [] (a, b).
Definition line_acts : list (act (O := op) (M := N)) :=
  [AddChild 1%N 0%N (OFuncDefn 1 {| p_params := []; p_ins := [qubit; qubit]; p_outs := [qubit; qubit] |} true);
   AddChild 2%N 1%N (OInput [qubit; qubit]); AddChild 3%N 1%N (OOutput [qubit; qubit])].
Definition line_graph : hugr op N := graph_of (make line_acts).
Definition cx := qop 6 [qubit; qubit] [qubit; qubit].
Definition measure := qop 7 [qubit] [qubit; bit].
Definition start : wires := [Some (2%N, 0); Some (2%N, 1)].
Lemma line_wf : wf line_graph.
Proof. apply built_wf. vm_compute. tauto. Qed.
Lemma line_check : sane_check line_graph = true.
Proof. vm_compute. reflexivity. Qed.
Lemma line_sane : sane line_graph.
Proof. exact (sane_checked line_graph line_wf line_check). Qed.
Lemma unlinked (h : hugr op N) : h_links h = [] -> single_use h /\ all_placed h.
Proof. intros E. split; [intros n i t _ _ _; unfold out_links; rewrite E; cbn; lia|intros s i d j t; rewrite E; intros []]. Qed.
Lemma line_links : h_links line_graph = [].
Proof. vm_compute. reflexivity. Qed.
Example line_invariants : sane line_graph /\ single_use line_graph /\ all_placed line_graph.
Proof. split; [exact line_sane|exact (unlinked line_graph line_links)]. Qed.
Example add_op_nonvacuous :
  links_of (add_op next line_graph 1 cx [(2%N, 1); (2%N, 0)]) = Some [((2%N, 1), (4%N, 0)); ((2%N, 0), (4%N, 1))] /\
  error_of (add_op next line_graph 1 cx [(2%N, 1); (2%N, 1)]) = Some (NoCopyLinear qubit (2%N, 1)) /\
  links_of (set_outputs line_graph 1 [(2%N, 1); (2%N, 0)]) = Some [((2%N, 1), (3%N, 0)); ((2%N, 0), (3%N, 1))].
Proof. vm_compute. repeat split; reflexivity. Qed.

Definition tracks_of (x : @appended N) : option (wires * list endpoint) := match x with Appended _ ws outs => Some (ws, outs) | _ => None end.
Example append_nonvacuous :
  tracks_of (append_with_outputs next line_graph 1 start cx [ULinear 1; ULinear 0]) = Some ([Some (4%N, 1); Some (4%N, 0)], []) /\
  tracks_of (append_with_outputs next line_graph 1 start measure [ULinear 1]) = Some ([Some (2%N, 0); Some (4%N, 0)], [(4%N, 1)]).
Proof. vm_compute. split; reflexivity. Qed.

(** ** What does not hold *)
(** The values of a nested graph are accepted in the graph beside it, where no valid HUGR has such a wire. *)
Lemma cousins_not_placed (h h2 : hugr op N) t (s d p q r : N) : h_parent h2 = h_parent h -> h_ops h2 = h_ops h -> h_parent h s = Some p -> h_parent h d = Some q -> h_parent h p = Some r -> h_parent h q = Some r ->
  p <> q -> (forall a, up (h_parent h) r a -> h_parent h a <> Some p) -> (forall g, h_ops h r <> OCfg g) -> ~ placed h2 t s d.
Proof.
  intros Ep Eo Ps Pd Pp Pq Ne Hr Nc [x P Q|x a Ct P Q B Nd _|b c g x Ct P Q G X B Nd Nb]; rewrite ?Ep, ?Eo in *.
  - congruence.
  - assert (x = p) by congruence. subst x. unfold below in B. rewrite Ep in B. apply up_split in B. destruct B as [B|(z & Pz & B)]; [congruence|]. assert (z = q) by congruence. subst z.
    apply up_split in B. destruct B as [<-|(z & Pz' & B)]; [|assert (z = r) by congruence; subst z; exact (Hr a B Q)]. rewrite Pq in Q. injection Q as <-. exact (Hr r (up_here _ _) Pp).
  - assert (b = p) by congruence. subst b. assert (c = r) by congruence. subst c. exact (Nc g G).
Qed.
Lemma nest_parents : h_parent nest_graph 10%N = Some 4%N /\ h_parent nest_graph 9%N = Some 7%N /\ h_parent nest_graph 4%N = Some 1%N /\ h_parent nest_graph 7%N = Some 1%N /\
  h_parent nest_graph 1%N = Some 0%N /\ h_parent nest_graph 0%N = None.
Proof. vm_compute. repeat split; reflexivity. Qed.
Lemma nest_fn : h_ops nest_graph 1%N = fn 1.
Proof. vm_compute. reflexivity. Qed.
Lemma nest_bit : h_ops nest_graph 10%N = bit_op 5.
Proof. vm_compute. reflexivity. Qed.
Lemma nest_cousins : links_of (wire_up nest_graph (10%N, 0) (9%N, 0)) = Some [((10%N, 1), (7%N, 0)); ((10%N, 0), (9%N, 0))].
Proof. vm_compute. reflexivity. Qed.
Lemma wired_same (h h' : hugr op N) s i d j b : wire_up h (s, i) (d, j) = Built h' b -> h_parent h' = h_parent h /\ h_ops h' = h_ops h.
Proof.
  assert (Jn : forall (ha hb : hugr op N) s d l b0, join ha s d l = Built hb b0 -> h_parent hb = h_parent ha /\ h_ops hb = h_ops ha).
  { intros ha hb s0 d0 l b0 Hj. apply join_more in Hj. destruct Hj as (_ & A & B & _). split; assumption. }
  unfold wire_up. destruct (contains h _); cbn [negb]; [|discriminate]. destruct (port_kind _ Out _) as [[]|]; try discriminate; try apply Jn.
  destruct (parent_eqb _ _); cbn [negb].
  - destruct (negb (copyable t) && _); [discriminate|]. apply Jn.
  - destruct (copyable t); cbn [negb]; [|discriminate]. destruct (get_parent h (fst (s, i))); [|discriminate]. destruct (get_parent h (fst (d, j))); [|discriminate].
    destruct (sibling_of _ _ _ _ _) as [x|]; [|discriminate]. destruct (_ && _); [|apply Jn].
    unfold add_other_edge. destruct (other_port _ Out); [|discriminate]. destruct (other_port _ Inc); [|discriminate].
    destruct (connect h _ _ _ _) as [h4|] eqn:E4; [|discriminate]. intros H. apply Jn in H. destruct H as (-> & ->). apply connect_more in E4. destruct E4 as (_ & A & B & _). split; assumption.
Qed.
Lemma cousins_ex (g : hugr op N) ls : sane g -> h_parent g 10%N = Some 4%N /\ h_parent g 9%N = Some 7%N /\ h_parent g 4%N = Some 1%N /\ h_parent g 7%N = Some 1%N /\ h_parent g 1%N = Some 0%N /\ h_parent g 0%N = None ->
  h_ops g 1%N = fn 1 -> h_ops g 10%N = bit_op 5 -> links_of (wire_up g (10%N, 0) (9%N, 0)) = Some ls -> In ((10%N, 0), (9%N, 0)) ls ->
  exists (h h' : hugr op N) s d t b, sane h /\ wire_up h (s, 0) (d, 0) = Built h' b /\ kind_at h' s Out 0 (EValue t) /\ In ((s, 0), (d, 0)) (h_links h') /\
    (forall h2 : hugr op N, h_parent h2 = h_parent h' -> h_ops h2 = h_ops h' -> ~ placed h2 t s d).
Proof.
  intros Sa (P10 & P9 & P4 & P7 & P1 & P0) O1 O10 L Il. destruct (wire_up g (10%N, 0) (9%N, 0)) as [h' b| |] eqn:E; try discriminate L. injection L as L.
  exists g, h', 10%N, 9%N, bit, b. split; [exact Sa|]. split; [exact E|]. destruct (wired_same _ _ _ _ _ _ _ E) as (Ep & Eo). split; [|split].
  - unfold kind_at. rewrite Eo, O10. exists [EValue bit; EOrder]. split; [apply (ports_ext_out 3 5 [] [bit] [bit])|reflexivity].
  - rewrite L. exact Il.
  - intros h2 E1 E2. rewrite Ep in E1. rewrite Eo in E2. apply (cousins_not_placed g h2 bit 10%N 9%N 4%N 7%N 1%N E1 E2 P10 P9 P4 P7).
    + discriminate.
    + intros a U. apply up_split in U. destruct U as [<-|(z & Pz & U)]; [congruence|]. assert (z = 0%N) by congruence. subst z. apply up_split in U. destruct U as [<-|(z & Pz' & U)]; congruence.
    + intros c. rewrite O1. discriminate.
Qed.
Theorem wire_cousins_refuted : exists (h h' : hugr op N) s d t b, sane h /\ wire_up h (s, 0) (d, 0) = Built h' b /\ kind_at h' s Out 0 (EValue t) /\ In ((s, 0), (d, 0)) (h_links h') /\
  (forall h2 : hugr op N, h_parent h2 = h_parent h' -> h_ops h2 = h_ops h' -> ~ placed h2 t s d).
Proof. exact (cousins_ex nest_graph _ nest_sane nest_parents nest_fn nest_bit nest_cousins (or_intror (or_introl eq_refl))). Qed.
Print Assumptions wire_cousins_refuted.

(** A wire between two functions is no error but a panic. *)
Definition funcs_acts : list (act (O := op) (M := N)) :=
  [AddChild 1%N 0%N (fn 1); AddChild 2%N 1%N (OInput [bit]); AddChild 3%N 1%N (OOutput [bit]);
   AddChild 4%N 0%N (fn 2); AddChild 5%N 4%N (OInput [bit]); AddChild 6%N 4%N (OOutput [bit])].
Definition funcs_graph : hugr op N := graph_of (make funcs_acts).
Lemma funcs_wf : wf funcs_graph.
Proof. apply built_wf. vm_compute. tauto. Qed.
Lemma funcs_check : sane_check funcs_graph = true.
Proof. vm_compute. reflexivity. Qed.
Lemma funcs_panic : wire_up funcs_graph (2%N, 0) (6%N, 0) = BPanic.
Proof. vm_compute. reflexivity. Qed.
Lemma funcs_nodes : h_nodes funcs_graph = [6%N; 5%N; 4%N; 3%N; 2%N; 1%N; 0%N].
Proof. vm_compute. reflexivity. Qed.
Lemma funcs_in : h_in funcs_graph 6%N = 2.
Proof. vm_compute. reflexivity. Qed.
Lemma funcs_op : h_ops funcs_graph 2%N = OInput [bit].
Proof. vm_compute. reflexivity. Qed.
Lemma funcs_ex (g : hugr op N) : sane g -> h_nodes g = [6%N; 5%N; 4%N; 3%N; 2%N; 1%N; 0%N] -> h_in g 6%N = 2 -> h_ops g 2%N = OInput [bit] -> wire_up g (2%N, 0) (6%N, 0) = BPanic ->
  exists (h : hugr op N) s d t, sane h /\ In s (h_nodes h) /\ in_port h (d, 0) /\ kind_at h s Out 0 (EValue t) /\ lub t = Copyable /\ wire_up h (s, 0) (d, 0) = BPanic.
Proof.
  intros Sa En Ei Eo E. exists g, 2%N, 6%N, bit. split; [exact Sa|]. rewrite En. split; [cbn; tauto|]. split; [split; cbn [fst snd]; [rewrite En; left; reflexivity|rewrite Ei; auto]|].
  split; [|split; [reflexivity|exact E]]. unfold kind_at. rewrite Eo. exists [EValue bit; EOrder]. split; [apply (ports_input_out [bit])|reflexivity].
Qed.
Theorem wire_unrelated_refuted : exists (h : hugr op N) s d t, sane h /\ In s (h_nodes h) /\ in_port h (d, 0) /\ kind_at h s Out 0 (EValue t) /\ lub t = Copyable /\ wire_up h (s, 0) (d, 0) = BPanic.
Proof. exact (funcs_ex funcs_graph (sane_checked funcs_graph funcs_wf funcs_check) funcs_nodes funcs_in funcs_op funcs_panic). Qed.
Print Assumptions wire_unrelated_refuted.

(** Types are not compared, and an input may get two wires: the outputs can be set twice. *)
Definition mixed_acts : list (act (O := op) (M := N)) :=
  [AddChild 1%N 0%N (OFuncDefn 1 {| p_params := []; p_ins := [qubit; bit]; p_outs := [qubit] |} true); AddChild 2%N 1%N (OInput [qubit; bit]); AddChild 3%N 1%N (OOutput [qubit])].
Definition mixed_graph : hugr op N := graph_of (make mixed_acts).
Definition set_twice (g : hugr op N) : option (list link) := match set_outputs g 1 [(2%N, 1)] with Built h _ => links_of (set_outputs h 1 [(2%N, 0)]) | _ => None end.
Lemma mixed_wf : wf mixed_graph.
Proof. apply built_wf. vm_compute. tauto. Qed.
Lemma mixed_check : sane_check mixed_graph = true.
Proof. vm_compute. reflexivity. Qed.
Lemma mixed_links : set_twice mixed_graph = Some [((2%N, 1), (3%N, 0)); ((2%N, 0), (3%N, 0))].
Proof. vm_compute. reflexivity. Qed.
Lemma mixed_ops : h_ops mixed_graph 2%N = OInput [qubit; bit] /\ h_ops mixed_graph 3%N = OOutput [qubit].
Proof. vm_compute. split; reflexivity. Qed.
Lemma outs_same : forall ws (h h' : hugr op N) n k, wire_up_inputs h ws n k = Built h' tt -> h_ops h' = h_ops h.
Proof.
  induction ws as [|[s i] ws IH]; intros h h' n k; cbn [wire_up_inputs]; [intros [= <-]; reflexivity|].
  destruct (wire_up h (s, i) (n, k)) as [h1 b| |] eqn:E; try discriminate. intros E2. rewrite (IH _ _ _ _ E2). exact (proj2 (wired_same _ _ _ _ _ _ _ E)).
Qed.
Lemma outputs_same (h h' : hugr op N) p ws : set_outputs h p ws = Built h' tt -> h_ops h' = h_ops h.
Proof. unfold set_outputs. destruct (h_kids h p) as [|x [|y r]]; try discriminate. apply outs_same. Qed.
Lemma mixed_ex (g : hugr op N) : sane g -> h_ops g 2%N = OInput [qubit; bit] /\ h_ops g 3%N = OOutput [qubit] ->
  set_twice g = Some [((2%N, 1), (3%N, 0)); ((2%N, 0), (3%N, 0))] ->
  exists (h h1 h2 : hugr op N) p s d i i' t t', sane h /\ set_outputs h p [(s, i)] = Built h1 tt /\ set_outputs h1 p [(s, i')] = Built h2 tt /\ i <> i' /\ t <> t' /\
    In ((s, i), (d, 0)) (h_links h2) /\ In ((s, i'), (d, 0)) (h_links h2) /\ kind_at h2 s Out i (EValue t) /\ kind_at h2 d Inc 0 (EValue t').
Proof.
  intros Sa (O2 & O3) L. unfold set_twice in L. destruct (set_outputs g 1 [(2%N, 1)]) as [h1 [] | |] eqn:E1; try discriminate L. destruct (set_outputs h1 1 [(2%N, 0)]) as [h2 [] | |] eqn:E2; try discriminate L. cbn [links_of] in L.
  assert (L' : h_links h2 = [((2%N, 1), (3%N, 0)); ((2%N, 0), (3%N, 0))]) by congruence. clear L.
  exists g, h1, h2, 1%N, 2%N, 3%N, 1, 0, bit, qubit. split; [exact Sa|]. split; [exact E1|]. split; [exact E2|]. split; [discriminate|]. split; [discriminate|]. rewrite L'. split; [left; reflexivity|]. split; [right; left; reflexivity|].
  assert (Eo : h_ops h2 = h_ops g) by (rewrite (outputs_same _ _ _ _ E2); exact (outputs_same _ _ _ _ E1)). unfold kind_at. rewrite Eo, O2, O3. split.
  - exists [EValue qubit; EValue bit; EOrder]. split; [apply (ports_input_out [qubit; bit])|reflexivity].
  - exists [EValue qubit; EOrder]. split; [apply (ports_output_in [qubit])|reflexivity].
Qed.
Theorem wire_types_refuted : exists (h h1 h2 : hugr op N) p s d i i' t t', sane h /\ set_outputs h p [(s, i)] = Built h1 tt /\ set_outputs h1 p [(s, i')] = Built h2 tt /\ i <> i' /\ t <> t' /\
  In ((s, i), (d, 0)) (h_links h2) /\ In ((s, i'), (d, 0)) (h_links h2) /\ kind_at h2 s Out i (EValue t) /\ kind_at h2 d Inc 0 (EValue t').
Proof. exact (mixed_ex mixed_graph (sane_checked mixed_graph mixed_wf mixed_check) mixed_ops mixed_links). Qed.
Print Assumptions wire_types_refuted.

(** With one place given twice, an output of the operation is neither tracked nor returned. *)
Definition copies_acts : list (act (O := op) (M := N)) :=
  [AddChild 1%N 0%N (fn 1); AddChild 2%N 1%N (OInput [bit]); AddChild 3%N 1%N (OOutput [bit])].
Lemma twice_ex (g : hugr op N) fr p o us ws : (match append_with_outputs fr g p ws o us with Appended h' ws' outs => if option_map fst (tracked ws' 0) then Some (value_port_count o Out, ws', outs) else None | _ => None end) = Some (2, [Some (4%N, 1)], []) ->
  exists (h h' : hugr op N) fr p ws o us ws' outs n, append_with_outputs fr h p ws o us = Appended h' ws' outs /\ tracked ws' 0 = Some (n, 1) /\ value_port_count o Out = 2 /\ ~ In (Some (n, 0)) ws' /\ ~ In (n, 0) outs.
Proof.
  intros E. destruct (append_with_outputs fr g p ws o us) as [h' ws' outs| | | |] eqn:A; try discriminate E. destruct (option_map fst (tracked ws' 0)); [|discriminate E].
  assert (X : value_port_count o Out = 2 /\ ws' = [Some (4%N, 1)] /\ outs = []) by (repeat split; congruence). destruct X as (X1 & X2 & X3). rewrite X2, X3 in A. exists g, h', fr, p, ws, o, us, [Some (4%N, 1)], [], 4%N.
  split; [exact A|]. split; [reflexivity|]. split; [exact X1|]. split; [|intros []]. intros [H|[]]. discriminate H.
Qed.
Definition pair_op := OExt 3 9 [] ([bit; bit], [bit; bit]).
Lemma twice_run : (match append_with_outputs next (graph_of (make copies_acts)) 1 [Some (2%N, 0)] pair_op [ULinear 0; ULinear 0] with Appended h' ws' outs => if option_map fst (tracked ws' 0) then Some (value_port_count pair_op Out, ws', outs) else None | _ => None end) = Some (2, [Some (4%N, 1)], []).
Proof. vm_compute. reflexivity. Qed.
Theorem append_twice_refuted : exists (h h' : hugr op N) fr p ws o us ws' outs n, append_with_outputs fr h p ws o us = Appended h' ws' outs /\ tracked ws' 0 = Some (n, 1) /\ value_port_count o Out = 2 /\ ~ In (Some (n, 0)) ws' /\ ~ In (n, 0) outs.
Proof. exact (twice_ex (graph_of (make copies_acts)) next 1%N pair_op [ULinear 0; ULinear 0] [Some (2%N, 0)] twice_run). Qed.
Print Assumptions append_twice_refuted.
