(** Facts about valid graphs: where the values that a node uses come from. *)
From Coq Require Import List Bool NArith Arith Lia Relations.
From Verif Require Import TypesModel GraphModel GraphSpec GraphProofs GraphBfs Graphs InsertForest OpModel OpSpec OpProofs DeadModel InlineModel ReplaceModel
  ValidModel ValidSpec ValidProofs ValidNodes ValidEdges ValidProps FlowModel EmitModel.
Import ListNotations.

Lemma region_parent : forall o ins outs, region o ins outs -> flow_parent o = true.
Proof. intros o ins outs R. destruct R; vm_compute; reflexivity. Qed.

Lemma parent_region : forall o, flow_parent o = true -> exists ins outs, region o ins outs.
Proof.
  intros o. destruct o; vm_compute; intros X; try discriminate X; try (destruct s); do 2 eexists; constructor.
Qed.

Lemma values_front : forall r (l : list ekind), (forall t, ~ In (EValue t) l) ->
  forall j, j < length r <-> exists t, nth_error (values r ++ l) j = Some (EValue t).
Proof.
  intros r l N_ j. unfold values. split.
  - intros L. rewrite nth_error_app1 by now rewrite map_length. destruct (nth_error r j) as [t|] eqn:Er; [exists t; now apply map_nth_error|].
    apply nth_error_None in Er. lia.
  - intros (t & Et). destruct (Nat.lt_ge_cases j (length r)) as [L|L]; [exact L|exfalso].
    rewrite nth_error_app2 in Et by now rewrite map_length. apply (N_ t). exact (nth_error_In _ _ Et).
Qed.

Definition layout_row (o : op) (d : dir) : list ekind :=
  values (side d (sig_of o)) ++
  match static_port_kind o d with Some k => [k] | None => [] end ++
  match o, d with
  | OBlock _ _ rows, Out => map (fun _ => EControl) rows
  | _, _ => match other_port_kind o d with Some k => if Nat.leb 1 (non_df_port_count o d) then [k] else [] | None => [] end
  end.

Lemma ports_row : forall o d ks, ports o d ks -> ks = layout_row o d.
Proof.
  intros o d ks P. inversion P; subst; try (destruct d); unfold layout_row, values; cbn; rewrite ?map_app, ?app_nil_r, <- ?app_assoc; try reflexivity.
  replace (nth t vs []) with r; [reflexivity|]. symmetry. now apply nth_error_nth.
Qed.

Lemma value_ports : forall o d ks j, ports o d ks ->
  j < value_port_count o d <-> exists t, nth_error ks j = Some (EValue t).
Proof.
  intros o d ks j P. rewrite (ports_row _ _ _ P). unfold layout_row, value_port_count. apply values_front.
  intros t I. apply in_app_iff in I. destruct I as [I|I].
  - destruct o, d; cbn in I; intuition discriminate.
  - destruct o, d; cbn in I; try (apply in_map_iff in I; destruct I as (? & ? & _); discriminate); intuition discriminate.
Qed.

Section Valid.
  Context {M : Type}.
  Variable env : N -> N -> option typedef.
  Variable defs : N -> N -> opsig.
  Variable h : hugr op M.
  Hypothesis W : wf h.
  Hypothesis V : valid env defs h.

  Lemma all_wires : forall n, In n (h_nodes h) -> in_wires h n = seq 0 (in_count h n) /\ out_wires h n = seq 0 (out_count h n).
  Proof.
    intros n I. destruct (v_ports _ _ _ V n I) as (ki & ko & Pi & Po & Ei & Eo). unfold in_wires, out_wires.
    split; f_equal; apply Nat.min_r.
    - rewrite Ei, (ports_row _ _ _ Pi). unfold layout_row, in_count. rewrite app_length. unfold values. rewrite map_length. cbn. lia.
    - rewrite Eo, (ports_row _ _ _ Po). unfold layout_row, out_count. rewrite app_length. unfold values. rewrite map_length. cbn. lia.
  Qed.

  Lemma value_at : forall n d j t, kind_at h n d j (EValue t) -> j < value_port_count (h_ops h n) d.
  Proof. intros n d j t (ks & P & E). apply (value_ports _ _ _ j P). eauto. Qed.

  (** The value that input [i] of [n] uses comes from output [p] of [s]. *)
  Definition uses (n : N) (i : nat) (s : N) (p : nat) : Prop := i < in_count h n /\ single_linked_output h n i = Some (s, p).

  Lemma slo_link : forall n i s p, single_linked_output h n i = Some (s, p) -> In ((s, p), (n, i)) (h_links h).
  Proof.
    intros n i s p E. unfold single_linked_output, linked_outputs in E.
    assert (I : In (s, p) (map fst (filter (fun l => ep_eqb (snd l) (n, i)) (h_links h)))) by (destruct (map fst _) as [|x [|? ?]]; inversion E; now left).
    apply in_map_iff in I. destruct I as ([a b] & Ea & I). apply filter_In in I. cbn in *. destruct I as [I B]. apply ep_eqb_iff in B. now subst.
  Qed.

  Lemma uses_exists : forall n i, In n (h_nodes h) -> i < in_count h n -> exists s p, uses n i s p.
  Proof.
    intros n i I L. destruct (v_ports _ _ _ V n I) as (ki & ko & Pi & Po & Ei & Eo). pose proof L as L'. unfold in_count in L'.
    apply (value_ports _ Inc _ i Pi) in L'. destruct L' as (t & Et).
    pose proof (v_inputs _ _ _ V n i (EValue t) I (ex_intro _ ki (conj Pi Et))) as X. cbn in X. unfold in_links in X.
    unfold uses, single_linked_output, linked_outputs. destruct (filter (fun l => ep_eqb (snd l) (n, i)) (h_links h)) as [|[[s p] y] [|? ?]]; cbn in X; try discriminate. cbn. eauto.
  Qed.

  Lemma uses_facts : forall n i s p, uses n i s p -> In s (h_nodes h) /\ In n (h_nodes h) /\ p < out_count h s /\
    exists t, kind_at h s Out p (EValue t) /\ local_edge h (EValue t) s n.
  Proof.
    intros n i s p [L E]. apply slo_link in E. destruct (wf_links h W _ E) as [[Is _] [In_ _]]. cbn in *.
    destruct (v_links _ _ _ V s p n i E) as (k & Ks & Kn & Lo). split; [exact Is|]. split; [exact In_|].
    destruct (v_ports _ _ _ V n In_) as (ki & ko & Pi & _). pose proof L as L'. apply (value_ports _ Inc _ i Pi) in L'. destruct L' as (t & Et).
    destruct Kn as (ks & Pk & Ek). rewrite (ports_row _ _ _ Pk), <- (ports_row _ _ _ Pi), Et in Ek. injection Ek as <-.
    split; [exact (value_at _ _ _ _ Ks)|]. eauto.
  Qed.

  (** An operation with an order output is in a dataflow region. *)
  Lemma ordered_region : forall n p i, h_parent h n = Some p -> kind_at h n Out i EOrder -> exists ins outs, region (h_ops h p) ins outs.
  Proof.
    intros n p i P (ks & Pk & E). pose proof (v_tree _ _ _ V n p P) as T. rewrite (ports_row _ _ _ Pk) in E. apply nth_error_In in E.
    unfold layout_row in E. destruct T;
      try (exfalso; cbn in E; try (apply in_map_iff in E; destruct E as (? & ? & _); discriminate); intuition discriminate); eauto.
  Qed.
  (** ... and so is one with a value output. *)
  Lemma valued_region : forall n p i t, h_parent h n = Some p -> kind_at h n Out i (EValue t) -> exists ins outs, region (h_ops h p) ins outs.
  Proof.
    intros n p i t P (ks & Pk & E). pose proof (v_tree _ _ _ V n p P) as T. rewrite (ports_row _ _ _ Pk) in E. apply nth_error_In in E.
    unfold layout_row in E. destruct T;
      try (exfalso; cbn in E; try (apply in_map_iff in E; destruct E as (? & ? & _); discriminate); intuition discriminate); eauto.
  Qed.

  Lemma region_acyclic : forall p ins outs, In p (h_nodes h) -> region (h_ops h p) ins outs -> acyclic (sibling_edge h p).
  Proof. intros p ins outs I R. exact (proj2 (v_region _ _ _ V p I ins outs R)). Qed.

  Lemma kid_live : forall n p, h_parent h n = Some p -> In n (h_nodes h) /\ In p (h_nodes h).
  Proof. intros n p P. destruct (wf_parent_live h W n p P) as (A & B & _). auto. Qed.

  Lemma below_up : forall n p a, h_parent h n = Some p -> below h a n -> below h a p.
  Proof. intros n p a P B. eapply up_trans; [exact B|]. apply up_next with p; [exact P|constructor]. Qed.

  (** Where something used inside a child of [p] comes from, if it does not come from inside the child. *)
  Theorem source_cases : forall p n d i s q, h_parent h n = Some p -> below h d n -> uses d i s q -> ~ below h s n ->
    ~ below h s p \/
    sibling_edge h p s n \/
    (exists b g, h_parent h s = Some b /\ h_parent h b = Some p /\ b <> n /\ h_ops h p = OCfg g /\ dominates h p b n).
  Proof.
    intros p n d i s q P B U Ns.
    destruct (uses_facts d i s q U) as (Is & Id & Lq & t & Kt & Lo). destruct U as [_ E]. apply slo_link in E.
    assert (Dec : below h s p \/ ~ below h s p).
    { destruct (descendants_spec h W p (proj2 (kid_live n p P))) as (_ & _ & X). destruct (in_dec N.eq_dec s (descendants h p)) as [Y|Y]; rewrite X in Y; auto. }
    destruct Dec as [Bs|]; [right|left; assumption].
    pose proof (below_up n p d P B) as Bd.
    inversion Lo as [r Ps Pd|r [(y & K)|(y & K)] Ps Ud Nd|y r a K _ Ps Pa Ud Nd (i' & j' & Ko & L')|y b c g x K _ Ps Pb Oc Px Ud Nd Nx Do]; try discriminate K.
    - (* sibling *)
      destruct (N.eq_dec d n) as [->|Ne].
      + rewrite P in Pd. injection Pd as <-. left. split; [assumption|]. split; [assumption|]. eauto.
      + exfalso. apply Ns. apply (parent_below h s r n Ps). exact (below_parent h d r n Pd B Ne).
    - (* external *)
      assert (Nsp : s <> p).
      { intros ->. assert (a = p) by (apply (child_unique h W r a p d); assumption). subst a.
        destruct (ordered_region p r i' Ps Ko) as (ins & outs & R). apply (region_acyclic r ins outs (proj2 (kid_live p r Ps)) R p).
        constructor. split; [assumption|]. split; [assumption|]. eauto. }
      pose proof (below_parent h s r p Ps Bs Nsp) as Br.
      assert (Bdr : below h d r) by (apply (below_up a r d Pa Ud)).
      destruct (N.eq_dec r p) as [->|Nr].
      + left. assert (a = n) by (apply (child_unique h W p a n d); assumption). subst a. split; [assumption|]. split; [assumption|]. eauto.
      + exfalso. apply Ns. apply (parent_below h s r n Ps).
        (* r strictly below p, ancestor of d, n a child of p above d *)
        destruct (up_linear _ _ _ _ Bdr B) as [Y|Y]; [exact Y|].
        destruct (N.eq_dec n r) as [->|Nn]; [constructor|]. pose proof (below_parent h n p r P Y Nn) as Z.
        exfalso. apply Nr. apply (up_antisym h W); assumption.
    - (* dominator *)
      assert (Nsp : s <> p).
      { intros ->. apply Nx. apply (child_unique h W c b x d Pb Px); [|exact Ud]. exact (below_up p b d Ps Bd). }
      pose proof (below_parent h s b p Ps Bs Nsp) as Bb.
      assert (Nbp : b <> p).
      { intros ->. apply Nx. now apply (child_unique h W c p x d Pb Px). }
      pose proof (below_parent h b c p Pb Bb Nbp) as Bc.
      destruct (N.eq_dec c p) as [->|Nc].
      + right. assert (x = n) by (apply (child_unique h W p x n d); assumption). subst x. exists b, g. auto.
      + exfalso. apply Ns. apply (parent_below h s b n Ps). apply (parent_below h b c n Pb).
        assert (Bdc : below h d c) by (apply (below_up x c d Px Ud)).
        destruct (up_linear _ _ _ _ Bdc B) as [Y|Y]; [exact Y|].
        destruct (N.eq_dec n c) as [->|Nn]; [constructor|]. pose proof (below_parent h n p c P Y Nn) as Z.
        exfalso. apply Nc. apply (up_antisym h W); assumption.
  Qed.

  (** Nothing is used inside itself. *)
  Theorem source_outside : forall n i s q, uses n i s q -> ~ below h s n.
  Proof.
    intros n i s q U Bs. destruct (uses_facts n i s q U) as (Is & Id & Lq & t & Kt & Lo). destruct U as [_ E]. apply slo_link in E.
    inversion Lo as [r Ps Pd|r [(y & K)|(y & K)] Ps Ud Nd|y r a K _ Ps Pa Ud Nd (i' & j' & Ko & L')|y b c g x K _ Ps Pb Oc Px Ud Nd Nx Do]; try discriminate K.
    - assert (s = n) by (apply (child_unique h W r s n s); try assumption; constructor). subst s.
      destruct (valued_region n r q t Ps Kt) as (ins & outs & R). apply (region_acyclic r ins outs (proj2 (kid_live n r Ps)) R n).
      constructor. split; [assumption|]. split; [assumption|]. eauto.
    - assert (Y : below h s a) by (eapply up_trans; [exact Bs|exact Ud]).
      assert (s = a) by (apply (child_unique h W r s a s); try assumption; constructor). subst s.
      apply Nd. apply (up_antisym h W); assumption.
    - apply Nx. apply (child_unique h W c b x s Pb Px); [apply up_next with b; [exact Ps|constructor]|]. eapply up_trans; [exact Bs|exact Ud].
  Qed.

  (** Values do not cross the boundary of a function. *)
  Theorem source_function : forall f name sg pub d i s q, h_ops h f = OFuncDefn name sg pub -> below h d f -> uses d i s q -> below h s f.
  Proof.
    intros f name sg pub d i s q Of B U. destruct (uses_facts d i s q U) as (Is & Id & Lq & t & Kt & Lo).
    assert (Dec : below h s f \/ ~ below h s f).
    { destruct (in_dec N.eq_dec f (h_nodes h)) as [Y|Y].
      - destruct (descendants_spec h W f Y) as (_ & _ & X). destruct (in_dec N.eq_dec s (descendants h f)) as [Z|Z]; rewrite X in Z; auto.
      - exfalso. apply Y. exact (up_live h W d f B Id). }
    destruct Dec as [Y|Ns]; [exact Y|exfalso].
    assert (Top : forall a r, h_parent h a = Some r -> below h d a -> ~ below h a f -> h_ops h a = OModule \/ h_parent h f = Some a).
    { intros a r Pa Ua Na. destruct (up_linear _ _ _ _ Ua B) as [Z|Z]; [contradiction|].
      destruct (up_split h f a Z) as [->|(g & Pg & Zg)]; [exfalso; apply Na; constructor|]. right.
      destruct (function_parent env defs h V f g name sg pub Of Pg) as [_ Top]. 
      destruct (up_split h g a Zg) as [->|(y & Py & _)]; [exact Pg|congruence]. }
    assert (Lift : forall a r, h_parent h a = Some r -> below h d a -> ~ below h r f -> h_ops h r = OModule \/ (exists z, h_parent h r = Some z /\ h_ops h z = OModule)).
    { intros a r Pa Ua Nr. destruct (up_linear _ _ _ _ Ua B) as [Z|Z].
      - destruct (N.eq_dec a f) as [->|Naf].
        + left. apply (function_parent env defs h V f r name sg pub Of Pa).
        + exfalso. apply Nr. exact (below_parent h a r f Pa Z Naf).
      - destruct (up_split h f a Z) as [->|(g & Pg & Zg)].
        + left. apply (function_parent env defs h V a r name sg pub Of Pa).
        + destruct (function_parent env defs h V f g name sg pub Of Pg) as [Og Topg].
          destruct (up_split h g a Zg) as [->|(y & Py & _)]; congruence. }
    assert (NoOrder : forall r j k, h_parent h s = Some r -> kind_at h s Out j k -> h_ops h r = OModule -> k <> EValue t).
    { intros r j k Ps Kj Or ->. destruct (valued_region s r j t Ps Kj) as (ins & outs & R). rewrite Or in R. inversion R. }
    inversion Lo as [r Ps Pd|r [(y & K)|(y & K)] Ps Ud Nd|y r a K _ Ps Pa Ud Nd (i' & j' & Ko & L')|y b c g x K _ Ps Pb Oc Px Ud Nd Nx Do]; try discriminate K.
    - destruct (N.eq_dec d f) as [->|Ne].
      + destruct (function_parent env defs h V f r name sg pub Of Pd) as [Or _]. exact (NoOrder r q _ Ps Kt Or eq_refl).
      + apply Ns. apply (parent_below h s r f Ps). exact (below_parent h d r f Pd B Ne).
    - assert (Nr : ~ below h r f) by (intros Z; apply Ns; exact (parent_below h s r f Ps Z)).
      destruct (Lift a r Pa Ud Nr) as [Or|(z & Pz & Oz)]; [exact (NoOrder r q _ Ps Kt Or eq_refl)|].
      destruct (valued_region s r q t Ps Kt) as (ins & outs & R). pose proof (v_tree _ _ _ V r z Pz) as T. rewrite Oz in T.
      destruct (h_ops h r) eqn:Or; try solve [inversion R]; try solve [inversion T; match goal with X : region OModule _ _ |- _ => inversion X end].
      (* r is itself a function: then a is in it, and so is d *)
      destruct (up_linear _ _ _ _ Ud B) as [Z|Z].
      + destruct (N.eq_dec a f) as [->|Naf]; [|exact (Nr (below_parent h a r f Pa Z Naf))].
        destruct (function_parent env defs h V f r name sg pub Of Pa) as [Or' _]. congruence.
      + destruct (up_split h f a Z) as [->|(g & Pg & Zg)].
        * destruct (function_parent env defs h V a r name sg pub Of Pa) as [Or' _]. congruence.
        * destruct (function_parent env defs h V f g name sg pub Of Pg) as [Og Topg].
          destruct (up_split h g a Zg) as [->|(y0 & Py & _)]; congruence.
    - assert (Nc : ~ below h c f) by (intros Z; apply Ns; apply (parent_below h s b f Ps); exact (parent_below h b c f Pb Z)).
      destruct (up_linear _ _ _ _ Ud B) as [Z|Z].
      + destruct (N.eq_dec x f) as [->|Naf]; [|exact (Nc (below_parent h x c f Px Z Naf))].
        destruct (function_parent env defs h V f c name sg pub Of Px) as [Or' _]. congruence.
      + destruct (up_split h f x Z) as [->|(g' & Pg & Zg)].
        * destruct (function_parent env defs h V x c name sg pub Of Px) as [Or' _]. congruence.
        * destruct (function_parent env defs h V f g' name sg pub Of Pg) as [Og Topg].
          destruct (up_split h g' x Zg) as [->|(y0 & Py & _)]; congruence.
  Qed.

  (** For the regions: *)
  Theorem source_in_region : forall p ins outs n d i s q, region (h_ops h p) ins outs -> h_parent h n = Some p -> below h d n -> uses d i s q ->
    ~ below h s n -> ~ below h s p \/ sibling_edge h p s n.
  Proof.
    intros p ins outs n d i s q R P B U Ns. destruct (source_cases p n d i s q P B U Ns) as [X|[X|(b & g & _ & _ & _ & Og & _)]]; auto.
    rewrite Og in R. inversion R.
  Qed.

  Theorem source_in_case : forall p rows oi ou n d i s q, h_ops h p = OConditional rows oi ou -> h_parent h n = Some p -> below h d n -> uses d i s q ->
    ~ below h s n -> ~ below h s p.
  Proof.
    intros p rows oi ou n d i s q O P B U Ns. destruct (source_cases p n d i s q P B U Ns) as [X|[(Ps & _ & j & k & L)|(b & g & _ & _ & _ & Og & _)]]; [exact X| |congruence].
    exfalso. destruct (v_links _ _ _ V s j n k L) as (x & _ & (ks & Pk & Ek) & _).
    pose proof (v_conditional _ _ _ V p (proj2 (kid_live n p P)) rows oi ou O) as [_ Fc].
    assert (In n (h_kids h p)) as Ik by (now apply (wf_kids h W)).
    assert (Oc : exists sg, h_ops h n = OCase sg). { clear - Fc Ik. induction Fc as [|r c rs cs Hc _ IH]; [destruct Ik|]. destruct Ik as [->|Ik]; eauto. }
    destruct Oc as (sg & Oc). rewrite Oc in Pk. inversion Pk; subst. destruct k; discriminate.
  Qed.

  Theorem source_in_block : forall p g n d i s q, h_ops h p = OCfg g -> h_parent h n = Some p -> below h d n -> uses d i s q ->
    ~ below h s n -> ~ below h s p \/ (exists b, h_parent h s = Some b /\ h_parent h b = Some p /\ b <> n /\ dominates h p b n).
  Proof.
    intros p g n d i s q O P B U Ns. destruct (source_cases p n d i s q P B U Ns) as [X|[(Ps & _ & j & k & L)|(b & g' & A1 & A2 & A3 & _ & A4)]]; [auto| |right; eauto].
    exfalso. destruct (uses_facts d i s q U) as (_ & _ & _ & t & Kt & _). destruct (valued_region s p q t Ps Kt) as (ins & outs & R).
    rewrite O in R. inversion R.
  Qed.

  (** ** The order of the nodes of a region *)
  Theorem order_spec : forall p ins outs, In p (h_nodes h) -> region (h_ops h p) ins outs ->
    exists l, topo_order h p = Some l /\ NoDup (rev l) /\ (forall n, In n (rev l) <-> h_parent h n = Some p) /\
      forall D n R, rev l = D ++ n :: R -> forall s, sibling_edge h p s n -> In s D.
  Proof.
    intros p ins outs Ip Rg. unfold topo_order. set (es := region_edges h p).
    destruct (topo_spec es (h_kids h p) (region_kids h W p) (length (h_kids h p) + length es) []
                (filter (fun n => match preds es n with [] => true | _ => false end) (h_kids h p))) as (l & E & NL & S & R & C).
    - constructor.
    - intros n [[]|I]. now apply filter_In in I.
    - intros [|x l1] n l2 E; discriminate.
    - intros n I a Ia. apply filter_In in I. destruct I as [_ I]. apply in_preds in Ia. destruct (preds es n); [destruct Ia|discriminate].
    - intros n I A. right. apply filter_In. split; [exact I|]. destruct (preds es n) as [|a l] eqn:E; [reflexivity|].
      exfalso. apply (A a). apply in_preds. rewrite E. now left.
    - unfold open_out. apply Nat.add_le_mono; apply filter_shorter.
    - exists l. split; [exact E|]. split; [now apply NoDup_rev|].
      pose proof (topo_acyclic es (h_kids h p) l (wf_kids_once h W p) (region_kids h W p) NL S R C) as [_ Ac].
      assert (Len : length l = length (h_kids h p)).
      { apply Ac. apply (acyclic_ext (sibling_edge h p) (edge_rel es)); [|exact (region_acyclic p ins outs Ip Rg)].
        intros a b. symmetry. apply (in_region h W). }
      assert (A : forall n, In n (h_kids h p) -> In n l) by (apply NoDup_length_incl; [exact NL|lia|exact S]).
      split.
      + intros n. rewrite <- in_rev. rewrite <- (wf_kids h W). split; auto.
      + intros D n Rest El s Sb. apply in_rev. apply (R (rev Rest) n (rev D)).
        * rewrite <- (rev_involutive l), El, rev_app_distr. cbn [rev]. now rewrite <- app_assoc.
        * now apply (in_region h W).
  Qed.

  (** ** Boundary nodes *)
  Theorem region_io : forall p ins outs, In p (h_nodes h) -> region (h_ops h p) ins outs ->
    exists i o, get_io h p = Some (i, o) /\ fat_io h p = Some (i, o) /\ h_ops h i = OInput ins /\ h_ops h o = OOutput outs /\
      h_parent h i = Some p /\ h_parent h o = Some p /\
      forall c, h_parent h c = Some p -> (c = i \/ c = o \/ ~ boundary (h_ops h c)).
  Proof.
    intros p ins outs Ip R. destruct (proj1 (v_region _ _ _ V p Ip ins outs R)) as (a & b & rest & K & Oa & Ob & Nb).
    exists a, b. assert (G : get_io h p = Some (a, b)) by (unfold get_io; rewrite (region_parent _ _ _ R), K; reflexivity).
    split; [exact G|]. split; [unfold fat_io; rewrite G, Oa, Ob; reflexivity|]. split; [exact Oa|]. split; [exact Ob|].
    split; [apply (wf_kids h W); rewrite K; now left|]. split; [apply (wf_kids h W); rewrite K; right; now left|].
    intros c Pc. apply (wf_kids h W) in Pc. rewrite K in Pc. destruct Pc as [<-|[<-|Pc]]; auto.
  Qed.

  Lemma fat_get_io : forall p i o, fat_io h p = Some (i, o) -> get_io h p = Some (i, o).
  Proof.
    intros p i o E. unfold fat_io in E. destruct (get_io h p) as [[a b]|]; [|discriminate]. destruct (h_ops h a); try discriminate. destruct (h_ops h b); try discriminate. exact E.
  Qed.

  Lemma get_io_region : forall p i o, get_io h p = Some (i, o) -> exists ins outs, region (h_ops h p) ins outs.
  Proof.
    intros p i o E. unfold get_io in E. destruct (flow_parent (h_ops h p)) eqn:Fp; [|discriminate]. now apply parent_region.
  Qed.

  Lemma desc_iff : forall p m, In p (h_nodes h) -> memN m (descendants h p) = true <-> below h m p.
  Proof. intros p m Ip. rewrite memN_iff. destruct (descendants_spec h W p Ip) as (_ & _ & X). apply X. Qed.

  Lemma below_dec : forall a p, In p (h_nodes h) -> below h a p \/ ~ below h a p.
  Proof.
    intros a p Ip. destruct (memN a (descendants h p)) eqn:Em; [left; now apply desc_iff|right]. intros X. apply (desc_iff p a Ip) in X. congruence.
  Qed.
End Valid.
