(** A node on a wire: the graph stays valid. *)
From Coq Require Import List Bool NArith Arith Lia Permutation Relations.
From Verif Require Import TypesModel GraphModel GraphSpec GraphProofs Graphs OpModel OpSpec ValidModel ValidSpec InlineFacts PatchModel PatchSpec.
Import ListNotations.
Local Notation wf := GraphSpec.wf.

Lemma filter_none' {A} (f : A -> bool) l : (forall x, In x l -> f x = false) -> filter f l = [].
Proof. induction l as [|a l IH]; intros H; [reflexivity|]. cbn. rewrite (H a (or_introl eq_refl)). apply IH. intros x Hx. apply H. now right. Qed.
Lemma filter_within {A} (f g : A -> bool) l : (forall x, In x l -> f x = true -> g x = true) -> filter f (filter g l) = filter f l.
Proof.
  induction l as [|a l IH]; intros H; [reflexivity|]. cbn [filter]. assert (IH' : filter f (filter g l) = filter f l) by (apply IH; intros x Hx; apply H; now right).
  destruct (g a) eqn:Ga; cbn [filter]; [now rewrite IH'|]. destruct (f a) eqn:Fa; [rewrite (H a (or_introl eq_refl) Fa) in Ga; discriminate|exact IH'].
Qed.
Lemma Forall2_in_r {A B} (P Q : A -> B -> Prop) l l' : (forall a b, In b l' -> P a b -> Q a b) -> Forall2 P l l' -> Forall2 Q l l'.
Proof. intros H F. induction F as [|a b l l' Hab F IH]; constructor; [apply H; [now left|exact Hab]|]. apply IH. intros a0 b0 Hb. apply H. now right. Qed.
Lemma before_snoc {A} (l : list A) x a b : before (l ++ [x]) a b -> b <> x -> before l a b.
Proof.
  intros (l1 & l2 & l3 & E) Hb. destruct l3 as [|y l3 _] using rev_ind.
  - exfalso. assert (E2 : l ++ [x] = (l1 ++ a :: l2) ++ [b]) by (rewrite E, <- app_assoc; reflexivity). apply app_inj_tail in E2 as [_ E2]. congruence.
  - assert (E2 : l ++ [x] = (l1 ++ a :: l2 ++ b :: l3) ++ [y]) by (rewrite E, <- !app_assoc; cbn; rewrite <- !app_assoc; reflexivity).
    apply app_inj_tail in E2 as [E2 _]. exists l1, l2, l3. exact E2.
Qed.

Lemma clos_t_rt {A} (R : A -> A -> Prop) a b c : clos_trans A R a b -> clos_refl_trans A R b c -> clos_trans A R a c.
Proof. intros H1 H2. revert H1. induction H2 as [b c H|b|b c d _ IH1 _ IH2]; intros H1; [eapply t_trans; [exact H1|apply t_step, H]|exact H1|auto]. Qed.
Lemma clos_rt_t' {A} (R : A -> A -> Prop) a b c : clos_refl_trans A R a b -> clos_trans A R b c -> clos_trans A R a c.
Proof. intros H1 H2. revert H2. induction H1 as [a b H|b|a b d _ IH1 _ IH2]; intros H2; [eapply t_trans; [apply t_step, H|exact H2]|exact H2|auto]. Qed.

Section Wire.
  Context {M : Type}.
  Notation hugr := (hugr op M).
  Variable env : N -> N -> option typedef.
  Variable defs : N -> N -> opsig.
  Variables h h' : hugr.
  Variables s d : endpoint.
  Variables p x : N.
  Variables (e m : N) (a : list term) (t : ty).
  Variables ri ro : list ty.
  Hypothesis W : wf h.
  Hypothesis V : valid env defs h.
  Hypothesis X : on_wire h s d p x (OExt e m a ([t], [t])) h'.
  Hypothesis Ld : in_links h d = [(s, d)].
  Hypothesis Kd : kind_at h (fst d) Inc (snd d) (EValue t).
  Hypothesis Pd : h_parent h (fst d) = Some p.
  Hypothesis Rp : region (h_ops h p) ri ro.
  Hypothesis Ok : forall ds, scope h (fst d) ds -> args_ok env ds (defs e m) a /\ valid_ty env ds t = true.

  Lemma live_not_x n : In n (h_nodes h) -> n <> x.
  Proof. intros Hn ->. exact (ow_new _ _ _ _ _ _ _ X Hn). Qed.
  Lemma kid_not_x n q : h_parent h n = Some q -> n <> x /\ q <> x.
  Proof. intros H. apply (wf_parent_live h W) in H as (A & B & _). split; apply live_not_x; assumption. Qed.
  Lemma kids_not_x n c : In c (h_kids h n) -> c <> x.
  Proof. intros H. apply (wf_kids h W) in H. exact (proj1 (kid_not_x c n H)). Qed.
  Lemma ends_not_x l : In l (h_links h) -> fst (fst l) <> x /\ fst (snd l) <> x.
  Proof. intros H. destruct (wf_links h W l H) as [[A _] [B _]]. split; apply live_not_x; assumption. Qed.
  Lemma wire : In (s, d) (h_links h).
  Proof. assert (H : In (s, d) (in_links h d)) by (rewrite Ld; now left). apply filter_In in H. apply H. Qed.
  Lemma only_wire l : In l (h_links h) -> snd l = d -> l = (s, d).
  Proof. intros H E. assert (A : In l (in_links h d)) by (apply filter_In; split; [exact H|now apply ep_eqb_iff]). rewrite Ld in A. destruct A as [<-|[]]. reflexivity. Qed.
  Lemma ops_old n : n <> x -> h_ops h' n = h_ops h n.
  Proof. intros H. apply (ow_old _ _ _ _ _ _ _ X n H). Qed.
  Lemma parent_old n : n <> x -> h_parent h' n = h_parent h n.
  Proof. intros H. apply (ow_old _ _ _ _ _ _ _ X n H). Qed.
  Lemma p_not_x : p <> x.
  Proof. exact (proj2 (kid_not_x _ _ Pd)). Qed.
  Lemma kids_old n : n <> p -> n <> x -> h_kids h' n = h_kids h n.
  Proof. apply (ow_kids _ _ _ _ _ _ _ X). Qed.
  Lemma link_iff l : In l (h_links h') <-> (In l (h_links h) /\ snd l <> d) \/ l = (s, (x, 0)) \/ l = ((x, 0), d).
  Proof.
    rewrite (ow_links _ _ _ _ _ _ _ X), in_app_iff, filter_In, negb_true_iff. cbn [In]. split.
    - intros [[A B]|[<-|[<-|[]]]]; auto. left. split; [exact A|]. intros E. apply ep_eqb_iff in E. congruence.
    - intros [[A B]|[E0|E0]]; auto. left. split; [exact A|]. destruct (ep_eqb (snd l) d) eqn:E; [apply ep_eqb_iff in E; contradiction|reflexivity].
  Qed.
  Lemma link_old b i c j : b <> x -> c <> x -> In ((b, i), (c, j)) (h_links h') -> In ((b, i), (c, j)) (h_links h).
  Proof. intros Hb Hc H. apply link_iff in H as [[H _]|[H|H]]; [exact H|congruence|congruence]. Qed.
  Lemma up_more b c : up (h_parent h) b c -> up (h_parent h') b c.
  Proof. induction 1 as [b|b q c E U IH]; [apply up_here|]. apply up_next with (p := q); [|exact IH]. rewrite parent_old; [exact E|]. exact (proj1 (kid_not_x _ _ E)). Qed.
  Lemma sibling_other q b c : q <> p -> sibling_edge h' q b c <-> sibling_edge h q b c.
  Proof.
    intros Hq. pose proof (ow_place _ _ _ _ _ _ _ X) as Px. split.
    - intros (Pb & Pc & i & j & L). assert (Hb : b <> x) by congruence. assert (Hc : c <> x) by congruence. rewrite parent_old in Pb, Pc by assumption. split; [exact Pb|]. split; [exact Pc|]. exists i, j. apply link_old; assumption.
    - intros (Pb & Pc & i & j & L). destruct (kid_not_x _ _ Pb) as [Hb _]. destruct (kid_not_x _ _ Pc) as [Hc _]. split; [rewrite parent_old; assumption|]. split; [rewrite parent_old; assumption|]. exists i, j. apply link_iff. left. split; [exact L|]. cbn. intros E. subst d. cbn in Pd. congruence.
  Qed.
  Lemma walk_mono (E1 E2 : N -> N -> Prop) : (forall b c, E1 b c -> E2 b c) -> forall b l c, walk E1 b l c -> walk E2 b l c.
  Proof. intros H b l c Hw. induction Hw; [constructor|]. econstructor; [apply H; eassumption|assumption]. Qed.
  Lemma dominates_old c b n : c <> p -> c <> x -> dominates h c b n -> dominates h' c b n.
  Proof.
    intros Hp Hx (e0 & rest & K & (l & Hl) & All). exists e0, rest. rewrite kids_old by assumption. split; [exact K|]. split.
    - exists l. eapply walk_mono; [|exact Hl]. intros. now apply sibling_other.
    - intros l0 Hl0. apply All. eapply walk_mono; [|exact Hl0]. intros. now apply sibling_other.
  Qed.
  Lemma kind_old n dr i k : n <> x -> kind_at h' n dr i k <-> kind_at h n dr i k.
  Proof. intros H. unfold kind_at. rewrite ops_old by exact H. reflexivity. Qed.
  Lemma kind_one n dr i k k' : kind_at h n dr i k -> kind_at h n dr i k' -> k = k'.
  Proof. intros (ks & A & B) (ks' & A' & B'). rewrite (ports_unique _ _ _ _ A A') in B. congruence. Qed.
  Lemma kind_new dr i k : kind_at h' x dr i k -> (i = 0 /\ k = EValue t) \/ (i = 1 /\ k = EOrder).
  Proof.
    intros (ks & A & B). rewrite (ow_op _ _ _ _ _ _ _ X) in A. assert (E : ks = [EValue t; EOrder]).
    { destruct dr; [refine (ports_unique _ _ _ _ A _); exact (ports_ext_in e m a [t] [t])|refine (ports_unique _ _ _ _ A _); exact (ports_ext_out e m a [t] [t])]. }
    subst ks. destruct i as [|[|i]]; cbn in B; [injection B as <-; auto|injection B as <-; auto|destruct i; discriminate].
  Qed.
  Lemma kind_x dr : kind_at h' x dr 0 (EValue t).
  Proof.
    destruct dr; (eexists; split; [rewrite (ow_op _ _ _ _ _ _ _ X); constructor|reflexivity]).
  Qed.
  Lemma order_stays n i c j : kind_at h n Out i EOrder -> In ((n, i), (c, j)) (h_links h) -> In ((n, i), (c, j)) (h_links h') /\ n <> x /\ c <> x.
  Proof.
    intros K L. destruct (ends_not_x _ L) as [A B]. split; [|auto]. apply link_iff. left. split; [exact L|]. cbn. intros E. destruct (v_links _ _ _ V _ _ _ _ L) as (k & K1 & K2 & _).
    rewrite (kind_one _ _ _ _ _ K1 K) in K2. subst d. cbn in Kd. discriminate (kind_one _ _ _ _ _ K2 Kd).
  Qed.
  Lemma not_p_cfg c g : h_ops h c = OCfg g -> c <> p.
  Proof. intros H ->. rewrite H in Rp. inversion Rp. Qed.

  Lemma edge_old k n c : n <> x -> c <> x -> local_edge h k n c -> local_edge h' k n c.
  Proof.
    intros Hn Hc H. destruct H as [q A B|q A B C D|t0 q b A B C D E F (i & j & G1 & G2)|t0 b cf g z A B C D E F G H0 H1 H2].
    - apply le_sibling with (p := q); rewrite parent_old; assumption.
    - apply le_static with (p := q); [exact A|rewrite parent_old; assumption|apply up_more, C|exact D].
    - destruct (order_stays _ _ _ _ G1 G2) as (L & _ & Hb). apply le_external with (t := t0) (p := q) (a := b); try assumption; [rewrite parent_old; assumption|rewrite parent_old; assumption|apply up_more, E|].
      exists i, j. split; [apply kind_old; assumption|exact L].
    - destruct (kid_not_x _ _ D) as [Hb Hcf]. destruct (kid_not_x _ _ F) as [Hz _]. apply le_dominator with (t := t0) (b := b) (c := cf) (g := g) (x := z); try assumption; try (rewrite parent_old; assumption).
      + rewrite ops_old; assumption.
      + apply up_more, G.
      + apply dominates_old; [eapply not_p_cfg; exact E|assumption|assumption].
  Qed.
  Lemma below_p c : below h (fst d) c -> fst d <> c -> below h' x c.
  Proof.
    intros U Hd. apply up_next with (p := p); [apply (ow_place _ _ _ _ _ _ _ X)|]. apply up_more. inversion U; subst; [contradiction|]. congruence.
  Qed.
  Lemma edge_in : local_edge h (EValue t) (fst s) (fst d) -> local_edge h' (EValue t) (fst s) x.
  Proof.
    intros H. destruct (ends_not_x _ wire) as [Hs _]. cbn in Hs. destruct H as [q A B|q A B C D|t0 q b A B C D E F (i & j & G1 & G2)|t0 b cf g z A B C D E F G H0 H1 H2].
    - assert (q = p) as -> by congruence. apply le_sibling with (p := p); [rewrite parent_old; assumption|apply (ow_place _ _ _ _ _ _ _ X)].
    - destruct A as [[? ?]|[? ?]]; discriminate.
    - destruct (order_stays _ _ _ _ G1 G2) as (L & _ & Hb). apply le_external with (t := t0) (p := q) (a := b); try assumption; [rewrite parent_old; assumption|rewrite parent_old; assumption|apply below_p; assumption|congruence|].
      exists i, j. split; [apply kind_old; assumption|exact L].
    - destruct (kid_not_x _ _ D) as [Hb Hcf]. destruct (kid_not_x _ _ F) as [Hz _]. apply le_dominator with (t := t0) (b := b) (c := cf) (g := g) (x := z); try assumption; try (rewrite parent_old; assumption).
      + rewrite ops_old; assumption.
      + apply below_p; assumption.
      + congruence.
      + apply dominates_old; [eapply not_p_cfg; exact E|assumption|assumption].
  Qed.

  (** ** Cycles *)
  Lemma acyclic_p : acyclic (sibling_edge h p) -> acyclic (sibling_edge h' p).
  Proof.
    intros A. set (E := sibling_edge h p). set (E' := sibling_edge h' p).
    assert (Old : forall b c, b <> x -> c <> x -> E' b c -> E b c).
    { intros b c Hb Hc (Pb & Pc & i & j & L). rewrite parent_old in Pb, Pc by assumption. split; [exact Pb|]. split; [exact Pc|]. exists i, j. apply link_old; assumption. }
    destruct (ends_not_x _ wire) as [Hs Hd]. cbn in Hs, Hd.
    assert (In_ : forall b, E' b x -> b = fst s /\ E (fst s) (fst d)).
    { intros b (Pb & _ & i & j & L). apply link_iff in L as [[L _]|[L|L]]; [destruct (ends_not_x _ L); contradiction| |].
      - injection L as L1 _. assert (Eb : b = fst s) by now rewrite <- L1. split; [exact Eb|]. rewrite Eb, parent_old in Pb by exact Hs. split; [exact Pb|]. split; [exact Pd|]. exists (snd s), (snd d). rewrite <- !surjective_pairing. exact wire.
      - injection L as _ _ L. exfalso. apply Hd. now rewrite <- L. }
    assert (Out_ : forall c, E' x c -> c = fst d).
    { intros c (_ & _ & i & j & L). apply link_iff in L as [[L _]|[L|L]]; [destruct (ends_not_x _ L); contradiction| |].
      - injection L as L _ _. exfalso. apply Hs. now rewrite <- L.
      - injection L as _ L. now rewrite <- L. }
    assert (Key : forall b c, path E' b c ->
      clos_refl_trans _ E (if N.eqb b x then fst d else b) (if N.eqb c x then fst s else c) /\ (b <> x -> c <> x -> path E b c) /\ (c = x -> E (fst s) (fst d))).
    { intros b c H. induction H as [b c H|b c f H1 IH1 H2 IH2].
      - destruct (N.eqb_spec b x) as [->|Hb]; destruct (N.eqb_spec c x) as [->|Hc].
        + destruct (In_ x H) as [-> _]. contradiction.
        + pose proof (Out_ c H) as ->. split; [apply rt_refl|]. split; [congruence|congruence].
        + destruct (In_ b H) as [-> L]. split; [apply rt_refl|]. split; [congruence|auto].
        + split; [apply rt_step, Old; assumption|]. split; [intros _ _; apply t_step, Old; assumption|congruence].
      - destruct IH1 as (A1 & A2 & A3). destruct IH2 as (B1 & B2 & B3). destruct (N.eqb_spec c x) as [->|Hc].
        + specialize (A3 eq_refl). split; [eapply rt_trans; [exact A1|]; eapply rt_trans; [apply rt_step; exact A3|exact B1]|]. split; [|exact B3].
          intros Hb Hf. rewrite (proj2 (N.eqb_neq b x) Hb) in A1. rewrite (proj2 (N.eqb_neq f x) Hf) in B1. apply clos_rt_t' with (b := fst s); [exact A1|]. apply clos_t_rt with (b := fst d); [apply t_step, A3|exact B1].
        + split; [eapply rt_trans; eassumption|]. split; [|exact B3]. intros Hb Hf. eapply t_trans; [apply A2; assumption|apply B2; assumption]. }
    intros b H. destruct (Key b b H) as (K1 & K2 & K3). destruct (N.eq_dec b x) as [->|Hb].
    - rewrite N.eqb_refl in K1. specialize (K3 eq_refl). apply (A (fst s)). apply clos_t_rt with (b := fst d); [apply t_step, K3|exact K1].
    - apply (A b), K2; assumption.
  Qed.

  (** ** Scopes *)
  Lemma scope_old n ds : scope h' n ds -> n <> x -> scope h n ds.
  Proof.
    induction 1 as [|n q name f pub P O|n q ds P O S IH]; intros Hn.
    - rewrite (ow_root _ _ _ _ _ _ _ X). constructor.
    - rewrite parent_old in P by exact Hn. destruct (kid_not_x _ _ P) as [_ Hq]. rewrite ops_old in O by exact Hq. eapply scope_function; eassumption.
    - rewrite parent_old in P by exact Hn. destruct (kid_not_x _ _ P) as [_ Hq]. rewrite ops_old in O by exact Hq. eapply scope_other; [exact P|exact O|apply IH, Hq].
  Qed.
  Lemma scope_new ds : scope h' x ds -> scope h (fst d) ds.
  Proof.
    pose proof (ow_place _ _ _ _ _ _ _ X) as Px. pose proof p_not_x as Hp. assert (G : forall n, scope h' n ds -> n = x -> scope h (fst d) ds); [|intros H; exact (G x H eq_refl)].
    intros n H. destruct H as [|n q name f pub P O|n q ds P O S0]; intros E.
    - exfalso. apply (live_not_x (h_root h) (wf_root h W)). rewrite <- (ow_root _ _ _ _ _ _ _ X). exact E.
    - rewrite E, Px in P. injection P as <-. rewrite ops_old in O by exact Hp. eapply scope_function; eassumption.
    - rewrite E, Px in P. injection P as <-. rewrite ops_old in O by exact Hp. eapply scope_other; [exact Pd|exact O|apply scope_old; assumption].
  Qed.

  (** ** Links at ports *)
  Lemma d_not_x : d <> (x, 0).
  Proof. intros E. destruct (ends_not_x _ wire) as [_ A]. cbn in A. rewrite E in A. contradiction. Qed.
  Lemma s_not_x : s <> (x, 0).
  Proof. intros E. destruct (ends_not_x _ wire) as [A _]. cbn in A. rewrite E in A. contradiction. Qed.
  Lemma ep_neq b c : b <> c -> ep_eqb b c = false.
  Proof. intros H. destruct (ep_eqb b c) eqn:E; [apply ep_eqb_iff in E; contradiction|reflexivity]. Qed.
  Lemma ep_same b : ep_eqb b b = true.
  Proof. now apply ep_eqb_iff. Qed.
  Lemma in_old f : f <> d -> f <> (x, 0) -> in_links h' f = in_links h f.
  Proof.
    intros Hd Hx. unfold in_links. rewrite (ow_links _ _ _ _ _ _ _ X). etransitivity; [apply (@filter_app link)|]. cbn [filter snd]. rewrite (ep_neq (x, 0) f) by congruence. rewrite (ep_neq d f) by congruence. rewrite app_nil_r.
    apply filter_within. intros l _ E. apply ep_eqb_iff in E. rewrite E, ep_neq by exact Hd. reflexivity.
  Qed.
  Lemma in_d : in_links h' d = [((x, 0), d)].
  Proof.
    unfold in_links. rewrite (ow_links _ _ _ _ _ _ _ X). etransitivity; [apply (@filter_app link)|]. cbn [filter snd]. rewrite (ep_neq (x, 0) d) by (intros E; exact (d_not_x (eq_sym E))). rewrite ep_same.
    rewrite filter_none'; [reflexivity|]. intros l H. apply filter_In in H as [_ H]. now apply negb_true_iff in H.
  Qed.
  Lemma in_x : in_links h' (x, 0) = [(s, (x, 0))].
  Proof.
    unfold in_links. rewrite (ow_links _ _ _ _ _ _ _ X). etransitivity; [apply (@filter_app link)|]. cbn [filter snd]. rewrite ep_same, (ep_neq d (x, 0)) by exact d_not_x.
    rewrite filter_none'; [reflexivity|]. intros l H. apply filter_In in H as [H _]. apply ep_neq. intros E. destruct (ends_not_x _ H) as [_ A]. rewrite E in A. contradiction.
  Qed.
  Lemma out_old f : f <> s -> f <> (x, 0) -> out_links h' f = out_links h f.
  Proof.
    intros Hd Hx. unfold out_links. rewrite (ow_links _ _ _ _ _ _ _ X). etransitivity; [apply (@filter_app link)|]. cbn [filter fst]. rewrite (ep_neq (x, 0) f) by congruence. rewrite (ep_neq s f) by congruence. rewrite app_nil_r.
    apply filter_within. intros l Hl E. apply ep_eqb_iff in E. rewrite ep_neq; [reflexivity|]. intros E2. pose proof (only_wire _ Hl E2) as ->. cbn in E. congruence.
  Qed.
  Lemma out_s : length (out_links h s) = 1 -> out_links h' s = [(s, (x, 0))].
  Proof.
    intros L1. assert (H : In (s, d) (out_links h s)) by (apply filter_In; split; [apply wire|apply ep_same]). unfold out_links. rewrite (ow_links _ _ _ _ _ _ _ X). etransitivity; [apply (@filter_app link)|]. cbn [filter fst].
    rewrite ep_same, (ep_neq (x, 0) s) by (intros E; exact (s_not_x (eq_sym E))). rewrite filter_none'; [reflexivity|]. intros l Hl. apply filter_In in Hl as [Hl Hd].
    destruct (ep_eqb (fst l) s) eqn:E; [|reflexivity]. exfalso. assert (Hl2 : In l (out_links h s)) by (apply filter_In; auto). destruct (out_links h s) as [|y [|z r]]; try discriminate. destruct H as [->|[]]. destruct Hl2 as [<-|[]]. cbn in Hd. rewrite ep_same in Hd. discriminate.
  Qed.
  Lemma out_x : out_links h' (x, 0) = [((x, 0), d)].
  Proof.
    unfold out_links. rewrite (ow_links _ _ _ _ _ _ _ X). etransitivity; [apply (@filter_app link)|]. cbn [filter fst]. rewrite ep_same, (ep_neq s (x, 0)) by exact s_not_x.
    rewrite filter_none'; [reflexivity|]. intros l H. apply filter_In in H as [H _]. apply ep_neq. intros E. destruct (ends_not_x _ H) as [A _]. rewrite E in A. contradiction.
  Qed.

  Lemma wire_valid : valid env defs h'.
  Proof.
    pose proof p_not_x as Hp. pose proof (ow_place _ _ _ _ _ _ _ X) as Px. destruct (ends_not_x _ wire) as [Hs Hd]. cbn in Hs, Hd.
    assert (Live : forall n, In n (h_nodes h') -> n = x \/ (n <> x /\ In n (h_nodes h))).
    { intros n H. apply (ow_nodes _ _ _ _ _ _ _ X) in H as [->|H]; [auto|]. right. split; [apply live_not_x, H|exact H]. }
    constructor.
    - intros n H. destruct (Live n H) as [->|[Hn Hl]].
      + destruct (ow_ports _ _ _ _ _ _ _ X) as [P1 P2]. exists [EValue t; EOrder], [EValue t; EOrder]. rewrite (ow_op _ _ _ _ _ _ _ X). split; [exact (ports_ext_in e m a [t] [t])|]. split; [exact (ports_ext_out e m a [t] [t])|]. auto.
      + destruct (v_ports _ _ _ V n Hl) as (ki & ko & A). destruct (ow_old _ _ _ _ _ _ _ X n Hn) as (-> & _ & -> & ->). eauto.
    - intros n q P. destruct (N.eq_dec n x) as [->|Hn].
      + assert (q = p) as -> by congruence. rewrite (ow_op _ _ _ _ _ _ _ X), (ops_old p Hp). eapply al_dataflow; [exact Rp|constructor].
      + rewrite parent_old in P by exact Hn. destruct (kid_not_x _ _ P) as [_ Hq]. rewrite (ops_old n Hn), (ops_old q Hq). apply (v_tree _ _ _ V n q P).
    - rewrite (ow_entry _ _ _ _ _ _ _ X), ops_old; [apply (v_entry _ _ _ V)|]. apply live_not_x, (wf_entry h W).
    - intros n H. destruct (Live n H) as [->|[Hn Hl]]; intros ins outs R; [rewrite (ow_op _ _ _ _ _ _ _ X) in R; inversion R|]. rewrite ops_old in R by exact Hn. destruct (v_region _ _ _ V n Hl ins outs R) as [(b & c & rest & K & Ob & Oc & Nb) Ac].
      assert (Hk : forall y, In y (b :: c :: rest) -> h_ops h' y = h_ops h y) by (intros y Hy; apply ops_old, (kids_not_x n); rewrite K; exact Hy).
      destruct (N.eq_dec n p) as [->|Hnp].
      + split; [|apply acyclic_p, Ac]. exists b, c, (rest ++ [x]). rewrite (ow_last _ _ _ _ _ _ _ X), K. split; [reflexivity|]. rewrite !Hk by (cbn; auto). split; [exact Ob|]. split; [exact Oc|].
        intros y Hy. apply in_app_iff in Hy as [Hy|[<-|[]]]; [rewrite Hk by (cbn; auto); apply Nb, Hy|rewrite (ow_op _ _ _ _ _ _ _ X); cbn; auto].
      + split.
        * exists b, c, rest. rewrite kids_old by assumption. split; [exact K|]. rewrite !Hk by (cbn; auto). split; [exact Ob|]. split; [exact Oc|]. intros y Hy. rewrite Hk by (cbn; auto). apply Nb, Hy.
        * assert (Pm : forall y z, path (sibling_edge h' n) y z -> path (sibling_edge h n) y z) by (intros y z Hy; induction Hy as [y z H0|y z w _ IH1 _ IH2]; [apply t_step, (proj1 (sibling_other n y z Hnp)), H0|eapply t_trans; eassumption]).
          intros y Hy. apply (Ac y), Pm, Hy.
    - intros n H. destruct (Live n H) as [->|[Hn Hl]]; intros rows other outs R; [rewrite (ow_op _ _ _ _ _ _ _ X) in R; discriminate|]. rewrite ops_old in R by exact Hn. destruct (v_conditional _ _ _ V n Hl rows other outs R) as [A B]. split; [exact A|].
      assert (Hnp : n <> p) by (intros ->; rewrite R in Rp; inversion Rp). rewrite kids_old by assumption. eapply Forall2_in_r; [|exact B]. intros r c Hc E. rewrite ops_old; [exact E|]. exact (kids_not_x _ _ Hc).
    - intros n H. destruct (Live n H) as [->|[Hn Hl]]; intros ins outs R; [rewrite (ow_op _ _ _ _ _ _ _ X) in R; discriminate|]. rewrite ops_old in R by exact Hn. destruct (v_cfg _ _ _ V n Hl ins outs R) as [(b & c & rest & K & Ob & Oc & Nb) Ed].
      assert (Hnp : n <> p) by (intros ->; rewrite R in Rp; inversion Rp). assert (Hk : forall y, In y (b :: c :: rest) -> h_ops h' y = h_ops h y) by (intros y Hy; apply ops_old, (kids_not_x n); rewrite K; exact Hy). split.
      + exists b, c, rest. rewrite kids_old by assumption. split; [exact K|]. rewrite !Hk by (cbn; auto). split; [exact Ob|]. split; [exact Oc|]. intros y Hy. rewrite Hk by (cbn; auto). apply Nb, Hy.
      + intros u v i j Pu Pv L. assert (Hu : u <> x) by congruence. assert (Hv : v <> x) by congruence. rewrite (ops_old u Hu), (ops_old v Hv). rewrite parent_old in Pu, Pv by assumption. apply (Ed u v i j Pu Pv). apply link_old; assumption.
    - intros n i k H K. destruct (Live n H) as [->|[Hn Hl]].
      + destruct (kind_new _ _ _ K) as [[-> ->]|[-> ->]]; [rewrite in_x; reflexivity|exact Logic.I].
      + apply kind_old in K; [|exact Hn]. pose proof (v_inputs _ _ _ V n i k Hl K) as A. destruct (ep_eqb (n, i) d) eqn:E.
        * apply ep_eqb_iff in E. rewrite E in *. rewrite in_d. assert (K2 : kind_at h n Inc i (EValue t)) by (rewrite <- E in Kd; exact Kd). rewrite (kind_one _ _ _ _ _ K K2). reflexivity.
        * rewrite in_old; [exact A| |congruence]. intros E2. apply ep_eqb_iff in E2. congruence.
    - intros n i k H K Lk. destruct (Live n H) as [->|[Hn Hl]].
      + destruct (kind_new _ _ _ K) as [[-> ->]|[-> ->]]; [rewrite out_x; reflexivity|destruct Lk].
      + apply kind_old in K; [|exact Hn]. pose proof (v_outputs _ _ _ V n i k Hl K Lk) as A. destruct (ep_eqb (n, i) s) eqn:E.
        * apply ep_eqb_iff in E. rewrite E in *. rewrite out_s by exact A. reflexivity.
        * rewrite out_old; [exact A| |congruence]. intros E2. apply ep_eqb_iff in E2. congruence.
    - intros b i c j L. assert (Lw : exists k, kind_at h (fst s) Out (snd s) k /\ kind_at h (fst d) Inc (snd d) k /\ local_edge h k (fst s) (fst d)) by (apply (v_links _ _ _ V); rewrite <- !surjective_pairing; exact wire).
      destruct Lw as (k0 & A0 & B0 & C0). rewrite (kind_one _ _ _ _ _ B0 Kd) in *. apply link_iff in L as [[L _]|[L|L]].
      + destruct (v_links _ _ _ V b i c j L) as (k & A & B & C). destruct (ends_not_x _ L) as [Hb Hc]. cbn in Hb, Hc. exists k. split; [now apply kind_old|]. split; [now apply kind_old|]. apply edge_old; assumption.
      + injection L as L -> ->. assert (Eb : b = fst s) by now rewrite <- L. assert (Ei : i = snd s) by now rewrite <- L. rewrite Eb, Ei. exists (EValue t). split; [apply kind_old; assumption|]. split; [apply kind_x|]. apply edge_in, C0.
      + injection L as -> -> L. assert (Ec : c = fst d) by now rewrite <- L. assert (Ej : j = snd d) by now rewrite <- L. rewrite Ec, Ej. exists (EValue t). split; [apply kind_x|]. split; [apply kind_old; assumption|]. apply le_sibling with (p := p); [exact Px|rewrite parent_old; assumption].
    - intros n ds H S. destruct (Live n H) as [->|[Hn Hl]].
      + destruct (Ok ds (scope_new ds S)) as [A B]. rewrite (ow_op _ _ _ _ _ _ _ X). split; [exact A|]. intros i k K. destruct (kind_new _ _ _ K) as [[_ ->]|[_ ->]]; [exact B|exact Logic.I].
      + destruct (v_types _ _ _ V n ds Hl (scope_old n ds S Hn)) as [A B]. rewrite ops_old by exact Hn. split; [exact A|]. intros i k K. apply B with (i := i). now apply kind_old in K.
    - intros b c name f g pb pc Bf Eb Ec. assert (Hb : b <> x) by (intros ->; rewrite (ow_op _ _ _ _ _ _ _ X) in Eb; discriminate). assert (Hc : c <> x) by (intros ->; rewrite (ow_op _ _ _ _ _ _ _ X) in Ec; discriminate).
      rewrite ops_old in Eb, Ec by assumption. apply (v_linkage _ _ _ V b c name f g pb pc); try assumption. rewrite (ow_root _ _ _ _ _ _ _ X) in Bf. destruct (N.eq_dec (h_root h) p) as [E|E].
      + rewrite E in *. rewrite (ow_last _ _ _ _ _ _ _ X) in Bf. eapply before_snoc; eassumption.
      + rewrite kids_old in Bf; [exact Bf|exact E|]. apply live_not_x, (wf_root h W).
  Qed.
End Wire.
