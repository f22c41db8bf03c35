(** Without an unused constant, or an unused load of one, a graph stays valid. *)
From Coq Require Import List Bool NArith Arith Lia Permutation Relations.
From Verif Require Import TypesModel GraphModel GraphSpec GraphProofs Graphs OpModel OpSpec ValidModel ValidSpec InlineFacts PatchModel PatchSpec PatchWire.
Import ListNotations.
Local Notation wf := GraphSpec.wf.

Lemma filter_same {A} (f : A -> bool) l : (forall x, In x l -> f x = true) -> filter f l = l.
Proof. induction l as [|a l IH]; intros H; [reflexivity|]. cbn. rewrite (H a (or_introl eq_refl)), IH; [reflexivity|]. intros x Hx. apply H. now right. Qed.
Lemma before_filter {A} (f : A -> bool) l a b : before (filter f l) a b -> before l a b.
Proof.
  induction l as [|y l IH]; intros (l1 & l2 & l3 & E); [destruct l1; discriminate|]. cbn in E. destruct (f y).
  - destruct l1 as [|z l1]; cbn in E; injection E as -> E.
    + assert (Hb : In b l) by (eapply (proj1 (filter_In f b l)); rewrite E; apply in_or_app; right; now left). apply in_split in Hb as (u & v & ->). exists [], u, v. reflexivity.
    + destruct IH as (k1 & k2 & k3 & ->); [exists l1, l2, l3; exact E|]. exists (z :: k1), k2, k3. reflexivity.
  - destruct IH as (k1 & k2 & k3 & ->); [exists l1, l2, l3; exact E|]. exists (y :: k1), k2, k3. reflexivity.
Qed.

Section Drop.
  Context {M : Type}.
  Notation hugr := (hugr op M).
  Variable env : N -> N -> option typedef.
  Variable defs : N -> N -> opsig.
  Variables h h' : hugr.
  Variable n : N.
  Hypothesis W : wf h.
  Hypothesis V : valid env defs h.
  Hypothesis X : without h n h'.
  Hypothesis Op : match h_ops h n with OConst _ _ _ | OLoadConstant _ => True | _ => False end.
  Hypothesis Kn : h_kids h n = [].
  Hypothesis Nr : n <> h_root h.
  Hypothesis Ne : n <> h_entry h.
  Hypothesis Unused : forall i d, In ((n, i), d) (h_links h) -> kind_at h n Out i EOrder.

  Lemma not_parent m q : h_parent h m = Some q -> q <> n.
  Proof. intros H ->. apply (wf_kids h W) in H. rewrite Kn in H. destruct H. Qed.
  Lemma d_old m : m <> n -> h_ops h' m = h_ops h m /\ h_parent h' m = h_parent h m.
  Proof. intros H. destruct (wo_old _ _ _ X m H) as (A & B & _). auto. Qed.
  Lemma d_parent m q : h_parent h' m = Some q -> m <> n /\ q <> n /\ h_parent h m = Some q.
  Proof. intros H. assert (Hm : m <> n) by (intros ->; rewrite (wo_gone _ _ _ X) in H; discriminate). rewrite (proj2 (d_old m Hm)) in H. split; [exact Hm|]. split; [eapply not_parent; exact H|exact H]. Qed.
  Lemma d_link l : In l (h_links h') <-> In l (h_links h) /\ fst (fst l) <> n /\ fst (snd l) <> n.
  Proof.
    rewrite (wo_links _ _ _ X), filter_In, negb_true_iff, orb_false_iff, !N.eqb_neq. tauto.
  Qed.
  Lemma d_up b c : up (h_parent h) b c -> b <> n -> up (h_parent h') b c.
  Proof. induction 1 as [b|b q c E U IH]; intros Hb; [apply up_here|]. apply up_next with (p := q); [rewrite (proj2 (d_old b Hb)); exact E|]. apply IH. eapply not_parent, E. Qed.
  Lemma leaf_up c : up (h_parent h) c n -> c = n.
  Proof. intros U. assert (G : forall b, up (h_parent h) c b -> b = n -> c = n); [|exact (G n U eq_refl)]. clear U. intros b U. induction U as [b|b q c0 E U IH]; intros Hb; [exact Hb|]. exfalso. exact (not_parent _ _ E (IH Hb)). Qed.
  Lemma d_kind m dr i k : m <> n -> kind_at h' m dr i k <-> kind_at h m dr i k.
  Proof. intros H. unfold kind_at. rewrite (proj1 (d_old m H)). reflexivity. Qed.
  Lemma d_kind_one m dr i k k' : kind_at h m dr i k -> kind_at h m dr i k' -> k = k'.
  Proof. intros (ks & A & B) (ks' & A' & B'). rewrite (ports_unique _ _ _ _ A A') in B. congruence. Qed.
  Lemma d_into i k : kind_at h n Inc i k -> ~ linear_kind k.
  Proof.
    intros (ks & P & K). destruct (h_ops h n) eqn:O; try destruct Op.
    - rewrite (ports_unique _ _ _ _ P (ports_const_in _ _ _)) in K. destruct i; discriminate.
    - rewrite (ports_unique _ _ _ _ P (ports_load_const_in _)) in K. destruct i as [|[|[|i]]]; cbn in K; try discriminate; injection K as <-; cbn; auto.
  Qed.
  Lemma d_from l : In l (h_links h) -> fst (fst l) = n -> kind_at h (fst (snd l)) Inc (snd (snd l)) EOrder.
  Proof.
    destruct l as [[b i] [c j]]. cbn. intros H ->. destruct (v_links _ _ _ V _ _ _ _ H) as (k & A & B & _). rewrite (d_kind_one _ _ _ _ _ A (Unused _ _ H)) in B. exact B.
  Qed.
  Lemma d_sub q b c : sibling_edge h' q b c -> sibling_edge h q b c.
  Proof. intros (A & B & i & j & L). apply d_parent in A as (_ & _ & A). apply d_parent in B as (_ & _ & B). apply d_link in L as [L _]. split; [exact A|]. split; [exact B|]. eauto. Qed.
  Lemma d_cfg_edge q g b c : h_ops h q = OCfg g -> sibling_edge h q b c -> sibling_edge h' q b c.
  Proof.
    intros O (A & B & i & j & L). destruct g as [gi go]. assert (Hq : In q (h_nodes h)) by (apply (wf_parent_live h W) in A; tauto).
    destruct (v_cfg _ _ _ V q Hq gi go O) as [_ Ed]. destruct (Ed b c i j A B L) as (y & other & rows & r & Ob & _ & Oc).
    assert (Hb : b <> n) by (intros ->; rewrite Ob in Op; exact Op). assert (Hc : c <> n) by (intros ->; destruct Oc as [(oo & rs & Oc)|Oc]; rewrite Oc in Op; exact Op).
    split; [rewrite (proj2 (d_old b Hb)); exact A|]. split; [rewrite (proj2 (d_old c Hc)); exact B|]. exists i, j. apply d_link. auto.
  Qed.
  Lemma d_dominates q g b c : h_ops h q = OCfg g -> In q (h_nodes h) -> dominates h q b c -> dominates h' q b c.
  Proof.
    intros O Hq (e0 & rest & K & (l & Hl) & All). destruct g as [gi go]. destruct (v_cfg _ _ _ V q Hq gi go O) as [(a0 & b0 & r0 & K0 & (oo & rows & Oa) & _) _]. rewrite K in K0. injection K0 as -> _.
    assert (Ha : a0 <> n) by (intros ->; rewrite Oa in Op; exact Op). assert (Hqn : q <> n) by (intros ->; rewrite O in Op; exact Op).
    exists a0. eexists. rewrite (wo_kids _ _ _ X q Hqn), K. cbn [filter]. rewrite (proj2 (N.eqb_neq a0 n) Ha). cbn [negb]. split; [reflexivity|]. split.
    - exists l. eapply walk_mono; [|exact Hl]. intros y z. apply (d_cfg_edge q (gi, go)). exact O.
    - intros l0 Hl0. apply All. eapply walk_mono; [|exact Hl0]. intros y z. apply d_sub.
  Qed.
  Lemma d_edge k b c : b <> n -> c <> n -> local_edge h k b c -> local_edge h' k b c.
  Proof.
    intros Hb Hc H. destruct H as [q A B|q A B C D|t0 q y A B C D E F (i & j & G1 & G2)|t0 y cf g z A B C D E F G H0 H1 H2].
    - apply le_sibling with (p := q); [rewrite (proj2 (d_old _ Hb)); exact A|rewrite (proj2 (d_old _ Hc)); exact B].
    - apply le_static with (p := q); [exact A|rewrite (proj2 (d_old _ Hb)); assumption|apply d_up; assumption|exact D].
    - assert (Hy : y <> n) by (intros ->; exact (F (leaf_up _ E))).
      apply le_external with (t := t0) (p := q) (a := y); try assumption; [rewrite (proj2 (d_old _ Hb)); assumption|rewrite (proj2 (d_old _ Hy)); assumption|apply d_up; assumption|].
      exists i, j. split; [apply d_kind; assumption|]. apply d_link. auto.
    - pose proof (not_parent _ _ C) as Hy. pose proof (not_parent _ _ D) as Hcf. assert (Hz : z <> n). { intros ->. destruct g as [gi go]. destruct H2 as (e0 & rest & K & (l & Hl) & _). assert (Hq : In cf (h_nodes h)) by (apply (wf_parent_live h W) in D; tauto).
        destruct (v_cfg _ _ _ V cf Hq gi go E) as [(a0 & b0 & r0 & K0 & (oo & rows & Oa) & _) Ed]. rewrite K in K0. injection K0 as -> _. clear - Hl Ed Oa Op. assert (Q : forall u l v, walk (sibling_edge h cf) u l v -> u <> n -> v <> n).
        { intros u l0 v Hw. induction Hw as [u|u w l1 v Eg Hw IH]; intros Hu; [exact Hu|]. apply IH. intros ->. destruct Eg as (P1 & P2 & i & j & L). destruct (Ed u n i j P1 P2 L) as (? & ? & ? & ? & _ & _ & [(? & ? & Oc)|Oc]); rewrite Oc in Op; exact Op. }
        apply (Q _ _ _ Hl); [intros ->; rewrite Oa in Op; exact Op|reflexivity]. }
      apply le_dominator with (t := t0) (b := y) (c := cf) (g := g) (x := z); try assumption; try (first [rewrite (proj2 (d_old b Hb))|rewrite (proj2 (d_old y Hy))|rewrite (proj2 (d_old z Hz))]; assumption).
      + rewrite (proj1 (d_old _ Hcf)). exact E.
      + apply d_up; assumption.
      + apply (d_dominates cf g); [exact E| |exact H2]. apply (wf_parent_live h W) in D; tauto.
  Qed.
  Lemma d_scope m ds : scope h' m ds -> m <> n -> scope h m ds.
  Proof.
    induction 1 as [|m q name f pub P O|m q ds P O S0 IH]; intros Hm.
    - rewrite (wo_root _ _ _ X). constructor.
    - apply d_parent in P as (_ & Hq & P). rewrite (proj1 (d_old q Hq)) in O. eapply scope_function; eassumption.
    - apply d_parent in P as (_ & Hq & P). rewrite (proj1 (d_old q Hq)) in O. eapply scope_other; [exact P|exact O|apply IH, Hq].
  Qed.
  Lemma d_keep c : c <> n -> negb (N.eqb c n) = true.
  Proof. intros H. now rewrite (proj2 (N.eqb_neq c n) H). Qed.

  Lemma drop_valid : valid env defs h'.
  Proof.
    assert (Live : forall m, In m (h_nodes h') -> m <> n /\ In m (h_nodes h)) by (intros m H; apply (wo_nodes _ _ _ X) in H; tauto).
    constructor.
    - intros m H. destruct (Live m H) as [Hm Hl]. destruct (v_ports _ _ _ V m Hl) as (ki & ko & A). destruct (wo_old _ _ _ X m Hm) as (-> & _ & -> & ->). eauto.
    - intros m q P. apply d_parent in P as (Hm & Hq & P). rewrite (proj1 (d_old m Hm)), (proj1 (d_old q Hq)). apply (v_tree _ _ _ V m q P).
    - rewrite (wo_entry _ _ _ X), (proj1 (d_old _ (not_eq_sym Ne))). apply (v_entry _ _ _ V).
    - intros m H ins outs R. destruct (Live m H) as [Hm Hl]. rewrite (proj1 (d_old m Hm)) in R. destruct (v_region _ _ _ V m Hl ins outs R) as [(b & c & rest & K & Ob & Oc & Nb) Ac]. split.
      + assert (Hb : b <> n) by (intros ->; rewrite Ob in Op; exact Op). assert (Hc : c <> n) by (intros ->; rewrite Oc in Op; exact Op).
        exists b, c, (filter (fun c => negb (N.eqb c n)) rest). rewrite (wo_kids _ _ _ X m Hm), K. cbn [filter]. rewrite (d_keep b Hb), (d_keep c Hc). split; [reflexivity|]. rewrite (proj1 (d_old b Hb)), (proj1 (d_old c Hc)). split; [exact Ob|]. split; [exact Oc|].
        intros y Hy. apply filter_In in Hy as [Hy Hn]. apply negb_true_iff, N.eqb_neq in Hn. rewrite (proj1 (d_old y Hn)). apply Nb, Hy.
      + assert (Pm : forall y z, path (sibling_edge h' m) y z -> path (sibling_edge h m) y z) by (intros y z Hy; induction Hy as [y z H0|y z w _ IH1 _ IH2]; [apply t_step, d_sub, H0|eapply t_trans; eassumption]).
        intros y Hy. apply (Ac y), Pm, Hy.
    - intros m H rows other outs R. destruct (Live m H) as [Hm Hl]. rewrite (proj1 (d_old m Hm)) in R. destruct (v_conditional _ _ _ V m Hl rows other outs R) as [A B]. split; [exact A|].
      assert (Hk : forall c, In c (h_kids h m) -> c <> n). { clear - B Op. induction B as [|r c l l' E B IH]; intros y Hy; [destruct Hy|]. destruct Hy as [<-|Hy]; [intros ->; rewrite E in Op; exact Op|apply IH, Hy]. }
      rewrite (wo_kids _ _ _ X m Hm), filter_same by (intros c Hc; apply d_keep, Hk, Hc). eapply Forall2_in_r; [|exact B]. intros r c Hc E. rewrite (proj1 (d_old c (Hk c Hc))). exact E.
    - intros m H ins outs R. destruct (Live m H) as [Hm Hl]. rewrite (proj1 (d_old m Hm)) in R. destruct (v_cfg _ _ _ V m Hl ins outs R) as [(b & c & rest & K & (oo & rows & Ob) & Oc & Nb) Ed]. split.
      + assert (Hb : b <> n) by (intros ->; rewrite Ob in Op; exact Op). assert (Hc : c <> n) by (intros ->; rewrite Oc in Op; exact Op).
        exists b, c, (filter (fun c => negb (N.eqb c n)) rest). rewrite (wo_kids _ _ _ X m Hm), K. cbn [filter]. rewrite (d_keep b Hb), (d_keep c Hc). split; [reflexivity|]. rewrite (proj1 (d_old b Hb)), (proj1 (d_old c Hc)). split; [eauto|]. split; [exact Oc|].
        intros y Hy. apply filter_In in Hy as [Hy Hn]. apply negb_true_iff, N.eqb_neq in Hn. rewrite (proj1 (d_old y Hn)). apply Nb, Hy.
      + intros u v i j Pu Pv L. apply d_parent in Pu as (Hu & _ & Pu). apply d_parent in Pv as (Hv & _ & Pv). rewrite (proj1 (d_old u Hu)), (proj1 (d_old v Hv)). apply (Ed u v i j Pu Pv). apply d_link in L. tauto.
    - intros m i k H K. destruct (Live m H) as [Hm Hl]. apply d_kind in K; [|exact Hm]. pose proof (v_inputs _ _ _ V m i k Hl K) as A.
      assert (E : (k = EOrder -> False) -> in_links h' (m, i) = in_links h (m, i)).
      { intros Hk. unfold in_links. rewrite (wo_links _ _ _ X). apply filter_within. intros l Hl0 E. apply ep_eqb_iff in E. apply negb_true_iff, orb_false_iff. split; apply N.eqb_neq.
        - intros E2. pose proof (d_from l Hl0 E2) as K2. rewrite E in K2. cbn in K2. apply Hk. exact (d_kind_one _ _ _ _ _ K K2).
        - rewrite E. cbn. exact Hm. }
      destruct k; try exact Logic.I; rewrite E by discriminate; exact A.
    - intros m i k H K Lk. destruct (Live m H) as [Hm Hl]. apply d_kind in K; [|exact Hm]. rewrite <- (v_outputs _ _ _ V m i k Hl K Lk). f_equal. unfold out_links. rewrite (wo_links _ _ _ X). apply filter_within.
      intros l Hl0 E. apply ep_eqb_iff in E. apply negb_true_iff, orb_false_iff. split; apply N.eqb_neq; [rewrite E; cbn; exact Hm|]. intros E2. destruct l as [f [g j]]. cbn in E, E2. subst f g.
      destruct (v_links _ _ _ V _ _ _ _ Hl0) as (k2 & A & B & _). rewrite (d_kind_one _ _ _ _ _ A K) in B. exact (d_into _ _ B Lk).
    - intros b i c j L. apply d_link in L as (L & Hb & Hc). cbn in Hb, Hc. destruct (v_links _ _ _ V b i c j L) as (k & A & B & C). exists k. split; [now apply d_kind|]. split; [now apply d_kind|]. apply d_edge; assumption.
    - intros m ds H S0. destruct (Live m H) as [Hm Hl]. destruct (v_types _ _ _ V m ds Hl (d_scope m ds S0 Hm)) as [A B]. rewrite (proj1 (d_old m Hm)). split; [exact A|]. intros i k K. apply B with (i := i). now apply d_kind in K.
    - intros b c name f g pb pc Bf Eb Ec. rewrite (wo_root _ _ _ X), (wo_kids _ _ _ X _ (not_eq_sym Nr)) in Bf. destruct (before_In _ _ _ Bf) as [Ib Ic]. apply filter_In in Ib as [_ Ib]. apply filter_In in Ic as [_ Ic]. apply negb_true_iff, N.eqb_neq in Ib, Ic.
      rewrite (proj1 (d_old b Ib)) in Eb. rewrite (proj1 (d_old c Ic)) in Ec. apply (v_linkage _ _ _ V b c name f g pb pc); try assumption. eapply before_filter, Bf.
  Qed.
End Drop.
