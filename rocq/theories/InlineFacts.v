(** The facts about the boundary of a dataflow graph in a valid HUGR. *)
From Coq Require Import List Bool NArith Arith Lia Permutation Relations.
From Verif Require Import TypesModel GraphModel GraphSpec GraphProofs GraphRemove Graphs InsertForest OpModel OpSpec OpProofs OpProps
  DeadModel DeadProofs ValidModel ValidSpec ValidProofs ValidEdges ValidProps InlineModel InlineSpec InlineProofs.
Import ListNotations.

Definition flow_kind (k : ekind) : Prop := match k with EOrder | EValue _ => True | _ => False end.

Lemma values_nth : forall r i k, nth_error (values r) i = Some k -> exists t, k = EValue t.
Proof. intros r i k E. unfold values in E. rewrite nth_error_map in E. destruct (nth_error r i); inversion E. eauto. Qed.

(** Operations with values or orders have one order port, the last one. *)
Lemma order_last : forall o d ks i k, ports o d ks -> nth_error ks i = Some k -> flow_kind k ->
  exists front, ks = front ++ [EOrder] /\ forall x, In x front -> k_value x = true \/ k_static x = true.
Proof.
  intros o d ks i k P E K.
  assert (V : forall r x, In x (values r) -> k_value x = true \/ k_static x = true).
  { intros r x X. unfold values in X. apply in_map_iff in X. destruct X as (t & <- & _). now left. }
  destruct P; try (destruct i as [|[|i]]; inversion E; subst; contradiction);
    try (exists (values r); split; [reflexivity|apply V]);
    try (exists (values i0); split; [reflexivity|apply V]);
    try (exists (values o); split; [reflexivity|apply V]).
  - exists (values i0 ++ [EFunction f]). split; [now rewrite <- app_assoc|]. intros x X. apply in_app_iff in X. destruct X as [X|[<-|[]]]; [eapply V; exact X|now right].
  - exists (EValue (TFun i0 o) :: values i0). split; [reflexivity|]. intros x [<-|X]; [now left|eapply V; exact X].
  - exists [EConst t]. split; [reflexivity|]. intros x [<-|[]]. now right.
  - exists [EValue t]. split; [reflexivity|]. intros x [<-|[]]. now left.
  - exists [EFunction f]. split; [reflexivity|]. intros x [<-|[]]. now right.
  - exists [EValue (TFun i0 o)]. split; [reflexivity|]. intros x [<-|[]]. now left.
  - exists [EValue (new_sum vs)]. split; [reflexivity|]. intros x [<-|[]]. now left.
  - exfalso. rewrite nth_error_map in E. destruct (nth_error rows i); inversion E. now subst.
  - exists (values ji ++ values r). split; [now rewrite <- app_assoc|]. intros x X. apply in_app_iff in X. destruct X; eapply V; eassumption.
  - exists (values jo ++ values r). split; [now rewrite <- app_assoc|]. intros x X. apply in_app_iff in X. destruct X; eapply V; eassumption.
  - exists (EValue (new_sum rows) :: values oi). split; [reflexivity|]. intros x [<-|X]; [now left|eapply V; exact X].
  - exists (values out). split; [reflexivity|apply V].
Qed.

Lemma ports_unique : forall o d ks ks', ports o d ks -> ports o d ks' -> ks = ks'.
Proof. intros o d ks ks' P P'. apply layout_ports in P. apply layout_ports in P'. congruence. Qed.

Lemma last_other : forall o d front, ports o d (front ++ [EOrder]) -> (forall x, In x front -> k_value x = true \/ k_static x = true) -> other_port o d = Some (length front).
Proof.
  intros o d front P F. apply (op_other_port o d _ P). split.
  - exists EOrder. split; [|split; reflexivity]. rewrite nth_error_app2 by lia. now rewrite Nat.sub_diag.
  - intros j k L E. rewrite nth_error_app1 in E by exact L. apply F. now apply nth_error_In in E.
Qed.

Lemma order_index : forall front j, (forall x, In x front -> k_value x = true \/ k_static x = true) -> nth_error (front ++ [EOrder]) j = Some EOrder -> j = length front.
Proof.
  intros front j F E. destruct (Nat.lt_ge_cases j (length front)) as [L|L].
  - rewrite nth_error_app1 in E by exact L. apply nth_error_In in E. apply F in E. destruct E; discriminate.
  - rewrite nth_error_app2 in E by exact L. destruct (j - length front) as [|[|k]] eqn:X; [lia|discriminate|discriminate].
Qed.

Section Facts.
  Context {M : Type}.
  Variable env : N -> N -> option typedef.
  Variable defs : N -> N -> opsig.
  Variable h : hugr op M.
  Hypothesis W : wf h.
  Hypothesis V : valid env defs h.

  Lemma kind_unique : forall n d j k k', kind_at h n d j k -> kind_at h n d j k' -> k = k'.
  Proof. intros n d j k k' (ks & P & E) (ks' & P' & E'). rewrite (ports_unique _ _ _ _ P P') in E. congruence. Qed.

  Lemma port_number : forall n d ks, In n (h_nodes h) -> ports (h_ops h n) d ks -> num_ports h n d = length ks.
  Proof.
    intros n d ks I P. destruct (v_ports _ _ _ V n I) as (ki & ko & Pi & Po & Ei & Eo). destruct d; cbn [num_ports].
    - now rewrite (ports_unique _ _ _ _ P Pi).
    - now rewrite (ports_unique _ _ _ _ P Po).
  Qed.

  Lemma flow_port : forall n d j k, In n (h_nodes h) -> kind_at h n d j k -> flow_kind k ->
    exists q, other_port (h_ops h n) d = Some q /\ q < num_ports h n d /\ kind_at h n d q EOrder /\ forall j, kind_at h n d j EOrder -> j = q.
  Proof.
    intros n d j k I (ks & P & E) K. destruct (order_last _ _ _ _ _ P E K) as (front & -> & F). exists (length front).
    split; [now apply last_other|]. split; [rewrite (port_number n d _ I P), app_length; cbn; lia|]. split.
    - exists (front ++ [EOrder]). split; [exact P|]. rewrite nth_error_app2 by lia. now rewrite Nat.sub_diag.
    - intros j' (ks' & P' & E'). rewrite (ports_unique _ _ _ _ P' P) in E'. now apply order_index in E'.
  Qed.

  Lemma flow_out : forall n j k, In n (h_nodes h) -> kind_at h n Out j k -> flow_kind k -> can_out h n /\ kind_at h n Out (oo h n) EOrder /\ forall j, kind_at h n Out j EOrder -> j = oo h n.
  Proof.
    intros n j k I E K. destruct (flow_port n Out j k I E K) as (q & O & L & A & B). unfold can_out, oo, out_port. rewrite O. auto.
  Qed.
  Lemma flow_in : forall n j k, In n (h_nodes h) -> kind_at h n Inc j k -> flow_kind k -> can_in h n /\ kind_at h n Inc (oi h n) EOrder /\ forall j, kind_at h n Inc j EOrder -> j = oi h n.
  Proof.
    intros n j k I E K. destruct (flow_port n Inc j k I E K) as (q & O & L & A & B). unfold can_in, oi, in_port. rewrite O. auto.
  Qed.

  Lemma link_nodes : forall s a t b, In ((s, a), (t, b)) (h_links h) -> In s (h_nodes h) /\ In t (h_nodes h).
  Proof. intros s a t b L. destruct (wf_links h W _ L) as [[A _] [B _]]. auto. Qed.

  (** Where the target of an edge can lie: in the region of the source, or in another block. *)
  Lemma link_scope : forall s a d b, In ((s, a), (d, b)) (h_links h) -> exists p, h_parent h s = Some p /\
    ((below h d p /\ d <> p) \/ exists c g, h_parent h p = Some c /\ h_ops h c = OCfg g /\ ~ below h d p).
  Proof.
    intros s a d b L. destruct (v_links _ _ _ V s a d b L) as (k & Ks & Kd & Lo).
    destruct Lo as [q Ps Pd|q K Ps Ud Nd|t q x _ _ Ps Px Ud Nd (i' & j' & _ & L')|t y c g x _ _ Ps Py Oc Px Ud Nd Nx _].
    - exists q. split; [exact Ps|]. left. split; [apply up_next with q; [exact Pd|constructor]|]. intros ->. apply (no_cycle h W q q Pd). constructor.
    - exists q. auto.
    - exists q. split; [exact Ps|]. left. split; [eapply up_trans; [exact Ud|]; apply up_next with q; [exact Px|constructor]|].
      intros ->. exact (no_cycle h W x q Px Ud).
    - exists y. split; [exact Ps|]. right. exists c, g. split; [exact Py|]. split; [exact Oc|]. intros U. apply Nx. exact (child_unique h W c y x d Py Px U Ud).
  Qed.

  Variables n parent i o : N.
  Variable rest : list N.
  Variables ins outs : list ty.
  Hypothesis D : dfg h n parent i o rest.
  Hypothesis Op : h_ops h n = ODfg (ins, outs).

  Lemma dfg_live : In n (h_nodes h).
  Proof. apply (wf_parent_live h W n parent (dfg_parent _ _ _ _ _ _ D)). Qed.
  Lemma dfg_boundary : h_ops h i = OInput ins /\ h_ops h o = OOutput outs /\ forall c, In c rest -> ~ boundary (h_ops h c).
  Proof.
    destruct (v_region _ _ _ V n dfg_live ins outs) as [(a & b & r & K & A & B & C) _]; [rewrite Op; constructor|].
    rewrite (dfg_kids _ _ _ _ _ _ D) in K. injection K as <- <- <-. auto.
  Qed.
  Lemma dfg_children : h_parent h i = Some n /\ h_parent h o = Some n /\ forall c, In c rest -> h_parent h c = Some n.
  Proof.
    pose proof (dfg_kids _ _ _ _ _ _ D) as K. repeat split; [| |intros c I]; apply (wf_kids h W); rewrite K; cbn; auto.
  Qed.
  Lemma dfg_inner_live : In i (h_nodes h) /\ In o (h_nodes h).
  Proof. destruct dfg_children as (A & B & _). split; [exact (proj1 (wf_parent_live h W _ _ A))|exact (proj1 (wf_parent_live h W _ _ B))]. Qed.
  Lemma not_self : forall c, h_parent h c <> Some c.
  Proof. intros c E. apply (no_cycle h W c c E). constructor. Qed.
  Lemma dfg_distinct : n <> i /\ n <> o /\ i <> o.
  Proof.
    destruct dfg_children as (A & B & _). split; [intros E; rewrite <- E in A; now apply not_self in A|]. split; [intros E; rewrite <- E in B; now apply not_self in B|].
    intros ->. pose proof (wf_kids_once h W n) as ND. rewrite (dfg_kids _ _ _ _ _ _ D) in ND. inversion ND as [|? ? X _]. apply X. now left.
  Qed.
  Lemma dfg_region : exists x y, region (h_ops h parent) x y.
  Proof.
    pose proof (v_tree _ _ _ V n parent (dfg_parent _ _ _ _ _ _ D)) as T. rewrite Op in T. inversion T; subst; eauto.
  Qed.
  Lemma dfg_not_cfg : forall g, h_ops h parent <> OCfg g.
  Proof. intros g E. destruct dfg_region as (x & y & R). rewrite E in R. inversion R. Qed.

  Lemma n_in_ports : ports (h_ops h n) Inc (values ins ++ [EOrder]).
  Proof. rewrite Op. constructor. Qed.
  Lemma n_out_ports : ports (h_ops h n) Out (values outs ++ [EOrder]).
  Proof. rewrite Op. constructor. Qed.
  Lemma i_out_ports : ports (h_ops h i) Out (values ins ++ [EOrder]).
  Proof. destruct dfg_boundary as (-> & _). constructor. Qed.
  Lemma o_in_ports : ports (h_ops h o) Inc (values outs ++ [EOrder]).
  Proof. destruct dfg_boundary as (_ & -> & _). constructor. Qed.

  Lemma flow_list : forall r j k, nth_error (values r ++ [EOrder]) j = Some k -> flow_kind k /\ (j = length r <-> k = EOrder) /\ j <= length r.
  Proof.
    intros r j k E. assert (Lr : length (values r) = length r) by apply map_length. destruct (Nat.lt_ge_cases j (length r)) as [L|L].
    - rewrite nth_error_app1 in E by lia. apply values_nth in E. destruct E as (t & ->). split; [exact I|]. split; [|lia]. split; [lia|discriminate].
    - rewrite nth_error_app2 in E by lia. destruct (j - length (values r)) as [|[|x]] eqn:X; inversion E. split; [exact I|]. split; [|lia]. split; [reflexivity|lia].
  Qed.
  Lemma list_flow : forall r j, j < length r -> exists t, nth_error (values r ++ [EOrder]) j = Some (EValue t).
  Proof.
    intros r j L. assert (Lr : length (values r) = length r) by apply map_length. destruct (nth_error (values r) j) as [k|] eqn:E.
    - destruct (values_nth _ _ _ E) as (t & ->). exists t. now rewrite nth_error_app1 by lia.
    - apply nth_error_None in E. lia.
  Qed.

  Lemma to_n : forall s a j, In ((s, a), (n, j)) (h_links h) -> s <> n /\ s <> i /\ s <> o.
  Proof.
    intros s a j L. destruct dfg_children as (A & B & _). pose proof (dfg_parent _ _ _ _ _ _ D) as Pn.
    assert (X : forall s, h_parent h s = Some n -> ~ In ((s, a), (n, j)) (h_links h)).
    { intros s' Ps L'. destruct (link_scope s' a n j L') as (p & Pp & [[_ Q]|(c & g & Pc & Oc & _)]); rewrite Ps in Pp; injection Pp as <-; [congruence|].
      rewrite Pn in Pc. injection Pc as <-. exact (dfg_not_cfg g Oc). }
    split; [|split; intros ->; [exact (X i A L)|exact (X o B L)]]. intros ->.
    destruct (v_links _ _ _ V n a n j L) as (k & Ks & Kd & Lo).
    destruct Lo as [q Ps Pd|q K Ps Ud Nd|t q x _ _ Ps Px Ud Nd (i' & j' & _ & L')|t y c g x _ _ Ps Py Oc Px Ud Nd Nx _].
    - destruct dfg_region as (x & y & R). destruct (wf_parent_live h W n parent Pn) as (_ & Ip & _).
      destruct (v_region _ _ _ V parent Ip x y R) as [_ Ac]. apply (Ac n). constructor. split; [exact Pn|]. split; [exact Pn|]. eauto.
    - destruct Kd as (ks & P & E). rewrite (ports_unique _ _ _ _ P n_in_ports) in E. apply flow_list in E. destruct E as [E _]. destruct K as [(t & ->)|(f & ->)]; contradiction.
    - apply Nd. apply (child_unique h W q n x n); auto. constructor.
    - rewrite Pn in Ps. injection Ps as <-. apply Nx. apply (child_unique h W c parent x n); auto. apply up_next with parent; [exact Pn|constructor].
  Qed.

  Lemma from_n : forall a t b, In ((n, a), (t, b)) (h_links h) -> t <> n /\ ~ below h t n.
  Proof.
    intros a t b L. pose proof (dfg_parent _ _ _ _ _ _ D) as Pn.
    assert (Nn : t <> n) by (intros ->; now apply to_n in L). split; [exact Nn|]. intros U.
    destruct (v_links _ _ _ V n a t b L) as (k & Ks & Kd & Lo).
    destruct Lo as [q Ps Pd|q K Ps Ud Nd|y q x _ _ Ps Px Ud Nd (i' & j' & _ & L')|z y c g x _ _ Ps Py Oc Px Ud Nd Nx _].
    - apply Nn. apply (child_unique h W q t n t); auto. constructor.
    - destruct Ks as (ks & P & E). rewrite (ports_unique _ _ _ _ P n_out_ports) in E. apply flow_list in E. destruct E as [E _]. destruct K as [(x & ->)|(f & ->)]; contradiction.
    - assert (x = n) by (apply (child_unique h W q x n t); auto). subst x. now apply to_n in L'.
    - rewrite Pn in Ps. injection Ps as <-. apply Nx. apply (child_unique h W c parent x t); auto. eapply up_trans; [exact U|]. apply up_next with parent; [exact Pn|constructor].
  Qed.

  Lemma below_n : forall c, h_parent h c = Some n -> below h c n.
  Proof. intros c P. apply up_next with n; [exact P|constructor]. Qed.

  Lemma into_i : forall s a j, ~ In ((s, a), (i, j)) (h_links h).
  Proof.
    intros s a j L. destruct (v_links _ _ _ V s a i j L) as (k & _ & (ks & P & E) & _). destruct dfg_boundary as (A & _). rewrite A in P. inversion P; subst. destruct j; discriminate.
  Qed.
  Lemma from_o : forall a t b, ~ In ((o, a), (t, b)) (h_links h).
  Proof.
    intros a t b L. destruct (v_links _ _ _ V o a t b L) as (k & (ks & P & E) & _). destruct dfg_boundary as (_ & B & _). rewrite B in P. inversion P; subst. destruct a; discriminate.
  Qed.

  Definition source (d : N) (p : nat) : endpoint := match in_links h (d, p) with l :: _ => fst l | [] => (d, p) end.

  Lemma one_source : forall d p t, In d (h_nodes h) -> kind_at h d Inc p (EValue t) -> filter (into (d, p)) (h_links h) = [(source d p, (d, p))].
  Proof.
    intros d p t I K. destruct (proj1 (proj2 (valid_wiring env defs h V)) d p _ I K) as (s & j & E); [exists t; now left|].
    unfold source. change (filter (into (d, p)) (h_links h)) with (in_links h (d, p)). now rewrite E.
  Qed.

  Theorem dfg_facts : boundary_facts h n i o (length ins) (length outs) (source n) (source o).
  Proof.
    destruct dfg_distinct as (D1 & D2 & D3). destruct dfg_children as (Pi & Po & _). destruct dfg_inner_live as (Li & Lo). pose proof dfg_live as Ln.
    assert (LV : forall r, length (values r) = length r) by (intros r; apply map_length).
    assert (KN : forall c dd r p k, ports (h_ops h c) dd (values r ++ [EOrder]) -> kind_at h c dd p k -> flow_kind k).
    { intros c dd r p k P (ks & P' & E). rewrite (ports_unique _ _ _ _ P' P) in E. now apply flow_list in E. }
    assert (VF : forall r x, In x (values r) -> k_value x = true \/ k_static x = true).
    { intros r x X. unfold values in X. apply in_map_iff in X. destruct X as (t & <- & _). now left. }
    assert (KV : forall c dd r p, ports (h_ops h c) dd (values r ++ [EOrder]) -> p < length r -> exists t, kind_at h c dd p (EValue t)).
    { intros c dd r p P L. destruct (list_flow r p L) as (t & E). exists t, (values r ++ [EOrder]). auto. }
    constructor.
    - auto.
    - exact (wf_links h W).
    - intros [[s a] [t b]] L H. cbn [fst snd] in *. destruct (v_links _ _ _ V s a t b L) as (k & Ks & Kt & _). destruct (link_nodes _ _ _ _ L) as [Is It].
      assert (K : flow_kind k).
      { destruct H as [[<-|[<-|[]]]|[<-|[<-|[]]]];
          [exact (KN _ _ _ _ _ n_out_ports Ks)|exact (KN _ _ _ _ _ i_out_ports Ks)|exact (KN _ _ _ _ _ n_in_ports Kt)|exact (KN _ _ _ _ _ o_in_ports Kt)]. }
      split; [eapply flow_out|eapply flow_in]; eassumption.
    - unfold oi, oo. rewrite (last_other _ _ _ n_in_ports), (last_other _ _ _ n_out_ports), (last_other _ _ _ i_out_ports), (last_other _ _ _ o_in_ports) by apply VF.
      now rewrite !LV.
    - intros p L. destruct (KV _ _ _ _ n_in_ports L) as (t & K). split; [exact (one_source n p t Ln K)|]. split; (split; [assumption|]); cbn [fst snd].
      + change (p < num_ports h n Inc). rewrite (port_number _ _ _ Ln n_in_ports), app_length, LV. cbn. lia.
      + change (p < num_ports h i Out). rewrite (port_number _ _ _ Li i_out_ports), app_length, LV. cbn. lia.
    - intros p L. destruct (KV _ _ _ _ o_in_ports L) as (t & K). pose proof (one_source o p t Lo K) as One. split; [exact One|]. split; [|split].
      + split; [assumption|]. cbn [fst snd]. change (p < num_ports h o Inc). rewrite (port_number _ _ _ Lo o_in_ports), app_length, LV. cbn. lia.
      + split; [assumption|]. cbn [fst snd]. change (p < num_ports h n Out). rewrite (port_number _ _ _ Ln n_out_ports), app_length, LV. cbn. lia.
      + intros Ei. assert (L' : In (source o p, (o, p)) (h_links h)).
        { assert (X : In (source o p, (o, p)) (filter (into (o, p)) (h_links h))) by (rewrite One; now left). now apply filter_In in X. }
        destruct (source o p) as [s a]. cbn [fst snd] in *. subst s. destruct (v_links _ _ _ V _ _ _ _ L') as (k & Ks & Kd & _).
        rewrite (kind_unique _ _ _ _ _ Kd K) in Ks. destruct Ks as (ks & P & E). rewrite (ports_unique _ _ _ _ P i_out_ports) in E. apply flow_list in E.
        destruct E as (_ & E & Le). destruct (Nat.eq_dec a (length ins)) as [X|X]; [apply E in X; discriminate|lia].
    - intros [[s a] [t b]] L E. cbn [fst snd] in *. subst t. destruct (to_n _ _ _ L) as (A & B & C). intros [X|[X|[X|[]]]]; congruence.
    - intros [[s a] [t b]] L E. cbn [fst snd] in *. subst s. destruct (from_n _ _ _ L) as (A & B). intros [X|[X|[X|[]]]]; [congruence| |]; apply B; rewrite <- X; now apply below_n.
    - intros [[s a] [t b]] L E. cbn [fst snd] in *. subst t. intros ->. destruct (from_n _ _ _ L) as (A & B). apply B. now apply below_n.
    - intros [[s a] [t b]] L E. cbn [fst snd] in *. subst s. intros ->. now apply to_n in L.
    - intros [[s a] [t b]] L E. cbn [fst snd] in E. subst t. exact (into_i _ _ _ L).
    - intros [[s a] [t b]] L E. cbn [fst] in E. subst s. exact (from_o _ _ _ L).
  Qed.
End Facts.
