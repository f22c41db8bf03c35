(** Proofs about wiring up nodes. *)
From Coq Require Import List Bool NArith Arith Lia.
From Verif Require Import TagModel TypesModel TypesProofs GraphModel GraphSpec GraphProofs GraphRemove Graphs OpModel OpSpec OpProofs OpProps DeadModel DeadProofs DeadFuncs InlineModel InsertModel InsertForest ValidModel ValidSpec ValidProofs ValidEdges BuildModel BuildSpec.
Import ListNotations.

Section Proofs.
  Context {M : Type}.
  Notation hugr := (hugr op M).

  Lemma connect_more (h h' : hugr) s i d j : connect h s i d j = Some h' -> more_links h h' [((s, i), (d, j))].
  Proof. unfold connect. destruct (valid_port h s Out i && valid_port h d Inc j); [|discriminate]. intros [= <-]. unfold more_links. cbn. repeat split; reflexivity. Qed.

  Lemma more_trans (h h1 h2 : hugr) a b : more_links h h1 a -> more_links h1 h2 b -> more_links h h2 (a ++ b).
  Proof.
    intros (A1 & A2 & A3 & A4 & A5 & A6 & A7 & A8 & A9 & A10) (B1 & B2 & B3 & B4 & B5 & B6 & B7 & B8 & B9 & B10).
    unfold more_links. rewrite B1, B2, B3, B4, B5, B6, B7, B8, B9, B10, A10, app_assoc. repeat split; assumption.
  Qed.

  (** ** Operations with value outputs *)
  Definition produces (o : op) : Prop :=
    match o with
    | OInput _ | OCall _ _ _ | OCallIndirect _ | OLoadConstant _ | OLoadFunction _ _ _ | ODfg _ | OExt _ _ _ _ | OOpaque _ _ _ _ | OTag _ _ | OTailLoop _ _ _ | OCfg _ | OConditional _ _ _ => True
    | _ => False
    end.
  Lemma value_produces o i t : port_kind o Out i = Some (EValue t) -> produces o.
  Proof.
    unfold port_kind, value_port_count, sig_of. destruct o; cbn; try (intros _; exact Logic.I); try (destruct i; discriminate).
  Qed.
  Lemma produces_plain o : produces o -> within TControlFlowChild (op_tag o) = false /\ exists i, other_port o Out = Some i.
  Proof. destruct o; intros []; (split; [reflexivity|]); unfold other_port; cbn; eexists; reflexivity. Qed.

  (** The operations that can be around a wire that leaves its region. *)
  Definition nests (o : op) : Prop := match o with ODfg _ | OTailLoop _ _ _ | OCfg _ | OConditional _ _ _ => True | _ => False end.
  Lemma nests_plain o : nests o -> within TControlFlowChild (op_tag o) = false /\ exists i, other_port o Inc = Some i.
  Proof. destruct o; intros []; (split; [reflexivity|]); unfold other_port; cbn; eexists; reflexivity. Qed.
  Lemma beside_nests p s x c : produces s -> allowed p s -> allowed p x -> allowed x c -> nests x.
  Proof.
    intros Ps As Ax Ac. assert (R : exists i o, region p i o).
    { inversion As; subst; try (exfalso; exact Ps); eauto. }
    destruct R as (i & o & R). inversion Ax; subst; inversion R; subst; try (exact Logic.I);
      try match goal with H : in_dataflow ?x |- _ => inversion H; subst; try exact Logic.I end; inversion Ac; subst;
      match goal with H : region _ _ _ |- _ => inversion H end.
  Qed.
  Lemma block_child s x c : allowed (OCfg s) x -> allowed x c -> within TControlFlowChild (op_tag x) = true.
  Proof. intros A B. inversion A; subst; try reflexivity; match goal with H : region (OCfg _) _ _ |- _ => inversion H end. Qed.

  Section At.
    Variable h : hugr.
    Hypothesis Sa : sane h.
    Let W := sane_wf h Sa.
    Let Tr := sane_tree h Sa.
    Lemma sane_counted : counted h.
    Proof. apply counted_iff. exact (sane_ports h Sa). Qed.
    Let C := sane_counted.

    Lemma value_kind n i t : In n (h_nodes h) -> kind_at h n Out i (EValue t) <-> i < h_out h n /\ port_kind (h_ops h n) Out i = Some (EValue t).
    Proof. intros I. apply (kind_at_iff h C n Out i (EValue t) I). Qed.

    Lemma value_kind' n i t : In n (h_nodes h) -> port_kind (h_ops h n) Out i = Some (EValue t) -> kind_at h n Out i (EValue t).
    Proof.
      intros I K. apply value_kind; [exact I|]. split; [|exact K]. destruct (C n I) as (_ & _ & ->). unfold port_kind in K.
      unfold port_count. destruct (Nat.ltb_spec i (value_port_count (h_ops h n) Out)) as [L|L]; [lia|].
      exfalso. destruct (Nat.eqb i _); [destruct (static_port_kind (h_ops h n) Out) as [k|] eqn:E|].
      - injection K as ->. destruct (h_ops h n); discriminate.
      - destruct (h_ops h n); cbn in K; discriminate.
      - destruct (h_ops h n); cbn in K; discriminate.
    Qed.

    Lemma other_order n i : In n (h_nodes h) -> produces (h_ops h n) -> other_port (h_ops h n) Out = Some i -> kind_at h n Out i EOrder.
    Proof.
      intros I P E. destruct (C n I) as (T & _). destruct (ports_exists (h_ops h n) Out T) as (ks & Pk). exists ks. split; [exact Pk|].
      apply (op_other_port _ _ _ Pk) in E. destruct E as ((k & Ek & Kv & Ks) & _). rewrite Ek. f_equal.
      rewrite <- (layout_ports _ _ _ Pk) in Ek. unfold layout in Ek. apply nth_error_In in Ek. apply in_app_iff in Ek. destruct Ek as [Ek|Ek].
      - unfold values in Ek. apply in_map_iff in Ek. destruct Ek as (t & <- & _). discriminate.
      - destruct (h_ops h n); try (exfalso; exact P); cbn in Ek; destruct Ek as [Ek|[]]; congruence.
    Qed.

    (** ** The search for the sibling *)
    Lemma sibling_some sp spp : forall fuel a x, sibling_of h sp spp fuel a = Some x -> up (h_parent h) a x /\
      (exists p, h_parent h x = Some p /\ (p = sp \/ spp = Some p)) /\
      (forall y, up (h_parent h) a y -> up (h_parent h) y x -> y <> x -> h_parent h y <> Some sp).
    Proof.
      induction fuel as [|fuel IH]; intros a x; cbn [sibling_of]; [discriminate|]. rewrite (get_parent_eq h W).
      destruct (h_parent h a) as [p|] eqn:Pa; [|discriminate]. destruct (N.eqb_spec p sp) as [->|Np]; cbn [orb].
      - intros [= <-]. split; [constructor|]. split; [eauto|]. intros y U V Ne. exfalso. apply Ne. apply (up_antisym h W); assumption.
      - destruct spp as [q|]; [destruct (N.eqb_spec p q) as [->|Nq]|].
        + intros [= <-]. split; [constructor|]. split; [eauto|]. intros y U V Ne. exfalso. apply Ne. apply (up_antisym h W); assumption.
        + intros E. destruct (IH p x E) as (U & P & F). split; [eapply up_next; eassumption|]. split; [exact P|].
          intros y V V' Ne. apply (up_split h) in V. destruct V as [<-|(q' & Q & V)]; [congruence|]. rewrite Pa in Q. injection Q as <-. exact (F y V V' Ne).
        + intros E. destruct (IH p x E) as (U & P & F). split; [eapply up_next; eassumption|]. split; [exact P|].
          intros y V V' Ne. apply (up_split h) in V. destruct V as [<-|(q' & Q & V)]; [congruence|]. rewrite Pa in Q. injection Q as <-. exact (F y V V' Ne).
    Qed.
    Lemma sibling_none sp spp : forall fuel a, (forall k x, hops (h_parent h) k a = Some x -> k < fuel) -> sibling_of h sp spp fuel a = None ->
      forall x p, up (h_parent h) a x -> h_parent h x = Some p -> p <> sp /\ spp <> Some p.
    Proof.
      induction fuel as [|fuel IH]; intros a F E x p U P.
      { specialize (F 0 a eq_refl). lia. }
      cbn [sibling_of] in E. rewrite (get_parent_eq h W) in E. apply (up_split h) in U. destruct (h_parent h a) as [q|] eqn:Pa.
      2:{ destruct U as [<-|(q & Q & _)]; congruence. }
      destruct (N.eqb_spec q sp) as [->|Nq]; cbn [orb] in E; [discriminate|].
      assert (X : spp <> Some q).
      { intros ->. rewrite N.eqb_refl in E. discriminate. }
      destruct U as [<-|(q' & Q & U)].
      - rewrite Pa in P. injection P as <-. auto.
      - injection Q as <-. assert (E' : sibling_of h sp spp fuel q = None) by (destruct spp as [r|]; [destruct (N.eqb q r); [discriminate|]|]; exact E).
        apply (IH q) with (x := x); try assumption. intros k y Hk. assert (S k < S fuel); [|lia]. apply (F (S k) y). cbn. now rewrite Pa.
    Qed.
    Lemma fuel_enough a : In a (h_nodes h) -> forall k x, hops (h_parent h) k a = Some x -> k < length (h_nodes h).
    Proof. intros I k x E. eapply (hops_bound (h_parent h) (h_root h)); [apply (wf_top h W)|apply (wf_parent h W)|exact I|apply (wf_reach h W); exact I|exact E]. Qed.

    Lemma root_produces n i t : In n (h_nodes h) -> port_kind (h_ops h n) Out i = Some (EValue t) -> exists p, h_parent h n = Some p.
    Proof.
      intros I K. destruct (N.eq_dec n (h_root h)) as [->|Ne].
      - rewrite (sane_root h Sa) in K. destruct i; discriminate.
      - destruct (wf_parent h W n I Ne) as (p & P & _). eauto.
    Qed.

    (** ** What [wire_up] does *)
    Inductive wired (s : N) (i : nat) (d : N) (j : nat) (h' : hugr) : Prop :=
    | wd_plain : more_links h h' [((s, i), (d, j))] ->
        (forall t, port_kind (h_ops h s) Out i = Some (EValue t) -> exists p, h_parent h s = Some p /\ h_parent h d = Some p /\ (lub t = Linear -> linked_inputs h s i = [])) -> wired s i d j h'
    | wd_outer t p a oi oj : port_kind (h_ops h s) Out i = Some (EValue t) -> lub t = Copyable -> h_parent h s = Some p -> h_parent h a = Some p -> below h d a -> d <> a ->
        other_port (h_ops h s) Out = Some oi -> more_links h h' ([((s, oi), (a, oj))] ++ [((s, i), (d, j))]) -> wired s i d j h'
    | wd_block t b c g x : port_kind (h_ops h s) Out i = Some (EValue t) -> lub t = Copyable -> h_parent h s = Some b -> h_parent h b = Some c -> h_ops h c = OCfg g ->
        h_parent h x = Some c -> below h d x -> d <> x -> b <> x -> more_links h h' [((s, i), (d, j))] -> wired s i d j h'.

    Lemma copyable_false t : copyable t = false <-> lub t = Linear.
    Proof. unfold copyable. destruct (lub t); cbn; split; congruence. Qed.

    Lemma join_more (h1 h' : hugr) s d l b : join h1 s d l = Built h' b -> more_links h1 h' [(s, d)].
    Proof.
      unfold join. destruct (connect h1 (fst s) (snd s) (fst d) (snd d)) as [h2|] eqn:E; [|discriminate]. destruct (port_kind (h_ops h2 (fst d)) Inc (snd d)); [|discriminate].
      intros [= <- _]. apply connect_more in E. destruct s, d. exact E.
    Qed.

    Lemma wire_spec s i d j q h' b : h_parent h d = Some q -> (forall t, port_kind (h_ops h s) Out i = Some (EValue t) -> visible h q s) ->
      wire_up h (s, i) (d, j) = Built h' b -> wired s i d j h'.
    Proof.
      intros Pd Hv. unfold wire_up. cbn [fst snd]. destruct (contains h s) eqn:Cs; cbn [negb]; [|discriminate]. apply memN_iff in Cs. rewrite !(get_parent_eq h W), Pd.
      destruct (port_kind (h_ops h s) Out i) as [k|] eqn:K; [|discriminate].
      assert (Plain : forall l, (forall t, k <> EValue t) -> join h (s, i) (d, j) l = Built h' b -> wired s i d j h').
      { intros l Hk E. apply join_more in E. apply wd_plain; [exact E|]. intros t Kt. exfalso. rewrite K in Kt. injection Kt as Kt. exact (Hk t Kt). }
      destruct k as [|t|t|f|]; try (apply Plain; intros t' Ht'; discriminate Ht'). destruct (root_produces s i t Cs K) as (p & Ps). rewrite Ps. cbn [parent_eqb].
      destruct (N.eqb_spec p q) as [<-|Nq]; cbn [negb].
      - destruct (copyable t) eqn:Ct; cbn [negb andb].
        + intros E. apply join_more in E. apply wd_plain; [exact E|]. intros t' Kt'. rewrite K in Kt'. injection Kt' as <-. exists p. repeat split; try assumption.
          intros L. apply copyable_false in L. congruence.
        + destruct (linked_inputs h s i) as [|x l] eqn:Li; cbn [negb]; [|discriminate]. intros E. apply join_more in E. apply wd_plain; [exact E|].
          intros t' Kt'. exists p. repeat split; auto.
      - destruct (copyable t) eqn:Ct; cbn [negb]; [|discriminate]. apply copyable_iff in Ct. rewrite (get_parent_eq h W).
        destruct (sibling_of h p (h_parent h p) (length (h_nodes h)) q) as [x|] eqn:Ex; [|discriminate]. destruct (sibling_some _ _ _ _ _ Ex) as (Ux & (r & Px & Hr) & First).
        pose proof (value_produces _ _ _ K) as Pr. destruct (produces_plain _ Pr) as (Hs & oi & Hoi). rewrite Hs. cbn [negb andb].
        assert (Bd : below h d x) by (eapply up_next; eassumption). assert (Nd : d <> x) by (intros ->; exact (no_cycle h W x q Pd Ux)).
        destruct (up_last h d x Bd) as [|(y & _ & Py)]; [congruence|].
        destruct (N.eq_dec r p) as [->|Nr].
        + pose proof (beside_nests _ _ _ _ Pr (Tr _ _ Ps) (Tr _ _ Px) (Tr _ _ Py)) as Ns. destruct (nests_plain _ Ns) as (Hx & oj & Hoj). rewrite Hx. cbn [negb].
          unfold add_other_edge. rewrite Hoi, Hoj. destruct (connect h s oi x oj) as [h1|] eqn:E1; [|discriminate]. intros E. apply join_more in E. apply connect_more in E1.
          eapply (wd_outer s i d j h' t p x oi oj); try eassumption. exact (more_trans _ _ _ _ _ E1 E).
        + destruct Hr as [Hr|Hr]; [congruence|]. destruct (Hv t eq_refl) as (b0 & Pb & V). rewrite Ps in Pb. injection Pb as <-.
          assert (Nx : p <> x).
          { intros <-. destruct (up_last h q p Ux) as [Eq|(y' & Uy & Py')]; [congruence|]. apply (First y' Uy); [eapply up_next; [exact Py'|constructor]| |exact Py'].
            intros ->. apply (no_cycle h W p p Py'). constructor. }
          destruct V as [V|(c & g & Pc & Oc & Uc & Nc)].
          * exfalso. destruct (up_last h q p V) as [Eq|(y' & Uy & Py')]; [congruence|]. 
            destruct (up_linear (h_parent h) q x y' Ux Uy) as [L|L].
            -- apply (up_split h) in L. destruct L as [<-|(r' & Pr' & L)]; [congruence|]. rewrite Px in Pr'. injection Pr' as <-.
               apply (no_cycle h W p r Hr). eapply up_trans; [exact L|]. eapply up_next; [exact Py'|constructor].
            -- destruct (N.eq_dec y' x) as [->|Ny]; [congruence|]. exact (First y' Uy L Ny Py').
          * assert (c = r) by congruence. subst c. rewrite (block_child g _ _ ltac:(rewrite <- Oc; exact (Tr _ _ Px)) (Tr _ _ Py)). cbn [negb]. intros E. apply join_more in E.
            eapply (wd_block s i d j h' t p r g x); eassumption.
    Qed.
  End At.
End Proofs.
