(** Proofs about the inlining of a call: the call becomes a dataflow graph that holds a copy of the body of the function. *)
From Coq Require Import List Bool NArith Arith Lia.
From Verif Require Import TypesModel GraphModel GraphSpec GraphProofs GraphRemove GraphBfs OpModel OpSpec DeadModel InlineModel InsertModel InsertSpec InsertProofs InsertTree InsertForest ValidSpec EmitGraph CullProofs IncallModel IncallSpec IncallCopy.
Import ListNotations.
Local Notation wf := GraphSpec.wf.

Section Empty.
  Context {M : Type}.
  Notation hugr := (hugr op M).
  Variable h : hugr.
  Variables c : N.
  Variable sg : poly.
  Hypothesis Wh : wf h.
  Hypothesis Hc : In c (h_nodes h).
  Hypothesis Oc : h_ops h c = OCall sg [] (p_ins sg, p_outs sg).
  Let k := length (p_ins sg).
  Hypothesis Pi : h_in h c = k + 2.
  Let new_op := ODfg (p_ins sg, p_outs sg).

  Lemma ops_replaced (g g' : hugr) n o : wf g -> replace_op g n o = Some g' -> wf g'.
  Proof. intros Wg. unfold replace_op. destruct (contains g n); [|discriminate]. intros [= <-]. constructor; apply Wg. Qed.

  Record emptied (h1 : hugr) : Prop := {
    e_wf : wf h1;
    e_nodes : h_nodes h1 = h_nodes h;
    e_root : h_root h1 = h_root h;
    e_entry : h_entry h1 = h_entry h;
    e_parent : h_parent h1 = h_parent h;
    e_kids : h_kids h1 = h_kids h;
    e_meta : h_meta h1 = h_meta h;
    e_ops : forall y, h_ops h1 y = if N.eqb y c then new_op else h_ops h y;
    e_in : forall y, h_in h1 y = if N.eqb y c then S k else h_in h y;
    e_out : forall y, h_out h1 y = h_out h y;
    e_links : h_links h1 = filter (fun l : link => negb (N.eqb (fst (snd l)) c && Nat.leb k (snd (snd l)))) (h_links h) ++ map (fun l : link => (fst l, (c, k))) (in_links h (c, S k)) }.

  Lemma connect_each : forall ss (g : hugr) i, (forall s, In s ss -> out_port g s) -> In c (h_nodes g) -> i < h_in g c ->
    each (fun h s => connect h (fst s) (snd s) c i) ss g = Some (set_links g (h_links g ++ map (fun s => (s, (c, i))) ss)).
  Proof.
    induction ss as [|s ss IH]; intros g i Hs Hn Hi; cbn [each map].
    { rewrite app_nil_r. destruct g; reflexivity. }
    unfold connect at 1. unfold valid_port, contains, num_ports. destruct (Hs s (or_introl eq_refl)) as (A & B). rewrite (proj2 (memN_iff _ _) A), (proj2 (Nat.ltb_lt _ _) B), (proj2 (memN_iff _ _) Hn), (proj2 (Nat.ltb_lt _ _) Hi). cbn [andb].
    rewrite IH; [|intros s' Is; exact (Hs s' (or_intror Is))|exact Hn|exact Hi]. cbn [set_links h_links]. rewrite <- app_assoc. destruct s. reflexivity.
  Qed.
  Lemma filter_twice {A} (p q r : A -> bool) (l : list A) : (forall x, In x l -> (q x && p x) = r x) -> filter p (filter q l) = filter r l.
  Proof.
    induction l as [|x l IH]; intros Hx; [reflexivity|]. cbn [filter]. pose proof (Hx x (or_introl eq_refl)) as E. rewrite <- E. destruct (q x); cbn [andb filter]; [destruct (p x)|]; rewrite IH; auto; intros y Iy; apply Hx; right; exact Iy.
  Qed.

  Lemma empty_spec : exists h1, empty_call h c new_op = Some h1 /\ emptied h1.
  Proof.
    unfold empty_call. rewrite Oc. assert (S1 : static_port (OCall sg [] (p_ins sg, p_outs sg)) Inc = Some k) by reflexivity.
    assert (S2 : other_port (OCall sg [] (p_ins sg, p_outs sg)) Inc = Some (S k)) by (unfold other_port; cbn; f_equal; unfold k; apply Nat.add_1_r).
    assert (S3 : other_port new_op Inc = Some k) by (unfold other_port; cbn; f_equal; unfold k; apply Nat.add_0_r).
    rewrite S1, S2, S3. unfold disconnect at 1. unfold valid_port, contains, num_ports. rewrite (proj2 (memN_iff _ _) Hc), Pi. rewrite (proj2 (Nat.ltb_lt k (k + 2)) ltac:(lia)). cbn [andb].
    unfold disconnect at 1. unfold valid_port, contains, num_ports. cbn [set_links h_nodes h_in]. rewrite (proj2 (memN_iff _ _) Hc), Pi. rewrite (proj2 (Nat.ltb_lt (S k) (k + 2)) ltac:(lia)). cbn [andb].
    unfold replace_op, contains. cbn [set_links h_nodes]. rewrite (proj2 (memN_iff _ _) Hc).
    unfold add_ports, set_num_ports, contains. cbn [set_ops set_links h_nodes h_in h_out]. rewrite (proj2 (memN_iff _ _) Hc).
    set (ss := linked_outputs _ c (S k)). assert (Es : ss = map fst (in_links h (c, S k))).
    { unfold ss, linked_outputs, in_links. cbn [set_links h_links]. f_equal. apply filter_twice. intros [s e] _. unfold at_port. cbn [snd].
      destruct (ep_eqb e (c, S k)) eqn:B; [|apply andb_false_r]. apply ep_eqb_iff in B. subst e. rewrite andb_true_r. apply negb_true_iff. destruct (ep_eqb (c, S k) (c, k)) eqn:B; [|reflexivity]. apply ep_eqb_iff in B. injection B. lia. }
    rewrite connect_each.
    - eexists. split; [reflexivity|]. assert (El : forall P, filter P (filter (fun l : link => negb (at_port c Inc (S k) l)) (filter (fun l => negb (at_port c Inc k l)) (h_links h))) =
        filter (fun l => negb (at_port c Inc k l) && negb (at_port c Inc (S k) l) && P l) (h_links h)).
      { intros P. rewrite (filter_twice (fun l => negb (at_port c Inc (S k) l)) (fun l => negb (at_port c Inc k l)) (fun l => negb (at_port c Inc k l) && negb (at_port c Inc (S k) l))) by reflexivity. apply filter_twice. reflexivity. }
      set (L := h_links _ ++ _). assert (EL : L = filter (fun l : link => negb (N.eqb (fst (snd l)) c && Nat.leb k (snd (snd l)))) (h_links h) ++ map (fun l : link => (fst l, (c, k))) (in_links h (c, S k))).
      { unfold L. cbn [set_links set_ports set_ops h_links]. rewrite Es, map_map. f_equal. rewrite El. apply filter_ext_in. intros [[s a] [d j]] I. cbn [fst snd]. destruct (wf_links h Wh _ I) as [[A B] [A' B']]. cbn [fst snd] in *.
        unfold at_port. cbn [fst snd]. destruct (N.eqb_spec s c) as [->|Ns].
        - rewrite (proj2 (Nat.leb_gt (h_out h c) a) B). cbn [andb negb]. destruct (N.eqb_spec d c) as [->|Nd].
          + rewrite Pi in B'. destruct (Nat.leb_spec k j).
            * assert (Ej : j = k \/ j = S k) by lia. assert (R : ep_eqb (c, j) (c, k) = true \/ ep_eqb (c, j) (c, S k) = true) by (destruct Ej as [->| ->]; [left|right]; apply ep_eqb_iff; reflexivity). cbn [negb andb].
              destruct R as [-> | ->]; cbn [negb andb]; [reflexivity|]. rewrite andb_false_r. reflexivity.
            * assert (R1 : ep_eqb (c, j) (c, k) = false) by (destruct (ep_eqb (c, j) (c, k)) eqn:Q; [apply ep_eqb_iff in Q; injection Q; lia|reflexivity]).
              assert (R2 : ep_eqb (c, j) (c, S k) = false) by (destruct (ep_eqb (c, j) (c, S k)) eqn:Q; [apply ep_eqb_iff in Q; injection Q; lia|reflexivity]).
              rewrite R1, R2. cbn [negb andb]. rewrite ?Pi. destruct (Nat.leb_spec (k + 2 + 0 - 1) j); [lia|reflexivity].
          + assert (R : forall i, ep_eqb (d, j) (c, i) = false) by (intros i; destruct (ep_eqb (d, j) (c, i)) eqn:Q; [apply ep_eqb_iff in Q; injection Q; contradiction|reflexivity]). rewrite !R. reflexivity.
        - cbn [andb negb]. destruct (N.eqb_spec d c) as [->|Nd].
          + rewrite Pi in B'. destruct (Nat.leb_spec k j).
            * assert (Ej : j = k \/ j = S k) by lia. assert (R : ep_eqb (c, j) (c, k) = true \/ ep_eqb (c, j) (c, S k) = true) by (destruct Ej as [->| ->]; [left|right]; apply ep_eqb_iff; reflexivity). cbn [negb andb].
              destruct R as [-> | ->]; cbn [negb andb]; [reflexivity|]. rewrite andb_false_r. reflexivity.
            * assert (R1 : ep_eqb (c, j) (c, k) = false) by (destruct (ep_eqb (c, j) (c, k)) eqn:Q; [apply ep_eqb_iff in Q; injection Q; lia|reflexivity]).
              assert (R2 : ep_eqb (c, j) (c, S k) = false) by (destruct (ep_eqb (c, j) (c, S k)) eqn:Q; [apply ep_eqb_iff in Q; injection Q; lia|reflexivity]).
              rewrite R1, R2. cbn [negb andb]. rewrite ?Pi. destruct (Nat.leb_spec (k + 2 + 0 - 1) j); [lia|reflexivity].
          + assert (R : forall i, ep_eqb (d, j) (c, i) = false) by (intros i; destruct (ep_eqb (d, j) (c, i)) eqn:Q; [apply ep_eqb_iff in Q; injection Q; contradiction|reflexivity]). rewrite !R. reflexivity. }
      assert (Ein : forall y, upd (h_in h) c (k + 2 + 0 - 1) y = if N.eqb y c then S k else h_in h y) by (intros y; unfold upd; destruct (N.eqb y c); [lia|reflexivity]).
      assert (Eout : forall y, upd (h_out h) c (h_out h c) y = h_out h y) by (intros y; unfold upd; destruct (N.eqb_spec y c) as [->|]; reflexivity).
      constructor; cbn [set_links set_ports set_ops h_nodes h_root h_entry h_parent h_kids h_meta h_ops h_in h_out h_links]; try reflexivity; try assumption; [|rewrite Pi; exact Ein].
      constructor; cbn [set_links set_ports set_ops h_nodes h_root h_entry h_parent h_kids h_meta h_ops h_in h_out h_links]; try apply Wh.
      intros l I. unfold out_port, in_port. cbn [set_links set_ports set_ops h_nodes h_in h_out]. rewrite Eout. rewrite Pi, Ein. rewrite EL in I. apply in_app_iff in I. destruct I as [I|I].
      + apply filter_In in I. destruct I as [I Q]. destruct (wf_links h Wh l I) as [[A B] [A' B']]. split; [split; assumption|]. split; [exact A'|]. destruct (N.eqb_spec (fst (snd l)) c) as [e|]; [|exact B'].
        destruct l as [[s a] [d j]]. cbn [fst snd] in *. subst d. apply negb_true_iff, andb_false_iff in Q. destruct Q as [Q|Q]; [discriminate|]. apply Nat.leb_gt in Q. lia.
      + apply in_map_iff in I. destruct I as (l0 & <- & I). apply filter_In in I. destruct I as [I _]. destruct (wf_links h Wh l0 I) as [[A B] _]. cbn [fst snd]. rewrite N.eqb_refl. split; [split; assumption|]. split; [exact Hc|lia].
    - intros s Is. rewrite Es in Is. apply in_map_iff in Is. destruct Is as (l & <- & I). apply filter_In in I. destruct I as [I _]. destruct (wf_links h Wh l I) as [[A B] _].
      unfold out_port. cbn [set_links set_ports set_ops h_nodes h_out]. split; [exact A|]. unfold upd. destruct (N.eqb_spec (fst (fst l)) c) as [e|]; [rewrite <- e|]; exact B.
    - exact Hc.
    - cbn [set_links set_ports set_ops h_in]. unfold upd. rewrite N.eqb_refl, Pi. lia.
  Qed.
End Empty.

Section Whole.
  Context {M : Type}.
  Notation hugr := (hugr op M).
  Variable env : N -> N -> option typedef.
  Variable h : hugr.
  Variables f c nm : N.
  Variable sg : poly.
  Variable pub : bool.
  Variable ids : list N.
  Hypothesis Wh : wf h.
  Hypothesis Hc : In c (h_nodes h).
  Hypothesis Oc : h_ops h c = OCall sg [] (p_ins sg, p_outs sg).
  Hypothesis Sc : static_source h c = Some f.
  Hypothesis Of : h_ops h f = OFuncDefn nm sg pub.
  Hypothesis Pi : h_in h c = length (p_ins sg) + 2.
  Hypothesis Kc : h_kids h c = [].
  Hypothesis Hcf : ~ up (h_parent h) c f.
  Hypothesis Hclosed : forall a i b j, In ((a, i), (b, j)) (h_links h) -> inner h f a -> inner h f b.
  Hypothesis Hids : NoDup ids.
  Hypothesis Hfresh : forall y, In y ids -> ~ In y (h_nodes h).
  Hypothesis Hlen : length (h_nodes h) <= length ids.
  Let k := length (p_ins sg).

  Lemma f_live : In f (h_nodes h).
  Proof.
    unfold static_source in Sc. destruct (static_port (h_ops h c) Inc) as [i|]; [|discriminate]. destruct (linked_outputs h c i) as [|[s a] l] eqn:E; [discriminate|]. cbn in Sc. injection Sc as ->.
    assert (I : In (f, a) (linked_outputs h c i)) by (rewrite E; left; reflexivity). unfold linked_outputs in I. apply in_map_iff in I. destruct I as (l0 & E0 & I). apply filter_In in I. destruct I as [I _].
    destruct (wf_links h Wh l0 I) as [[A _] _]. rewrite E0 in A. exact A.
  Qed.
  Lemma c_outer : ~ inner h f c.
  Proof. intros [U _]. exact (Hcf U). Qed.
  Lemma inner_live x : inner h f x -> In x (h_nodes h).
  Proof. intros [U Ne]. inversion U as [|? p ? P _]; subst; [contradiction|]. exact (proj1 (wf_parent_live h Wh x p P)). Qed.
  Lemma filter_none {A} (p : A -> bool) l : (forall x, In x l -> p x = false) -> filter p l = [].
  Proof. induction l as [|x l IH]; intros G; [reflexivity|]. cbn [filter]. rewrite (G x (or_introl eq_refl)). apply IH. intros y I. apply G. right. exact I. Qed.

  Lemma in_emptied h1 : emptied h c sg h1 -> forall y i, in_links h1 (y, i) = if N.eqb y c then (if Nat.ltb i k then in_links h (c, i) else if Nat.eqb i k then map (fun l : link => (fst l, (c, k))) (in_links h (c, S k)) else []) else in_links h (y, i).
  Proof.
    intros Em y i. unfold in_links at 1. rewrite (e_links _ _ _ _ Em). fold k. rewrite filter_app. destruct (N.eqb_spec y c) as [->|Ny].
    - destruct (Nat.ltb_spec i k) as [Li|Li].
      + rewrite (filter_none _ (map _ _)).
        * rewrite app_nil_r. unfold in_links. apply filter_twice. intros [s [d j]] _. cbn [fst snd]. destruct (ep_eqb (d, j) (c, i)) eqn:B; [|apply andb_false_r]. apply ep_eqb_iff in B. injection B as -> ->. rewrite andb_true_r, N.eqb_refl. cbn [andb]. apply negb_true_iff, Nat.leb_gt. exact Li.
        * intros l I. apply in_map_iff in I. destruct I as (l0 & <- & _). cbn [snd]. destruct (ep_eqb (c, k) (c, i)) eqn:B; [|reflexivity]. apply ep_eqb_iff in B. injection B. lia.
      + rewrite (filter_none _ (filter _ _)).
        * cbn [app]. destruct (Nat.eqb_spec i k) as [->|Ne].
          -- generalize (in_links h (c, S k)). induction l as [|l ls IH]; [reflexivity|]. cbn [map filter snd]. assert (B : ep_eqb (c, k) (c, k) = true) by (apply ep_eqb_iff; reflexivity). rewrite B, IH. reflexivity.
          -- apply filter_none. intros l I. apply in_map_iff in I. destruct I as (l0 & <- & _). cbn [snd]. destruct (ep_eqb (c, k) (c, i)) eqn:B; [|reflexivity]. apply ep_eqb_iff in B. injection B. lia.
        * intros [s [d j]] I. apply filter_In in I. destruct I as [_ Q]. cbn [fst snd] in *. destruct (ep_eqb (d, j) (c, i)) eqn:B; [|reflexivity]. apply ep_eqb_iff in B. injection B as -> ->. rewrite N.eqb_refl in Q. cbn [andb] in Q. apply negb_true_iff, Nat.leb_gt in Q. lia.
    - rewrite (filter_none _ (map _ _)).
      + rewrite app_nil_r. unfold in_links. apply filter_twice. intros [s [d j]] _. cbn [fst snd]. destruct (ep_eqb (d, j) (y, i)) eqn:B; [|apply andb_false_r]. apply ep_eqb_iff in B. injection B as -> ->. rewrite andb_true_r. destruct (N.eqb_spec y c); [contradiction|reflexivity].
      + intros l I. apply in_map_iff in I. destruct I as (l0 & <- & _). cbn [snd]. destruct (ep_eqb (c, k) (y, i)) eqn:B; [|reflexivity]. apply ep_eqb_iff in B. injection B. congruence.
  Qed.

  Theorem inline_call_spec : exists h' m, inline_call env h c ids = CallInlined h' m /\ wf h' /\ call_inlined h f c sg (image_of m) h'.
  Proof.
    unfold inline_call. unfold contains. rewrite (proj2 (memN_iff _ _) Hc). cbn [negb]. rewrite Oc, Sc, Of. destruct (empty_spec h c sg Wh Hc Oc Pi) as (h1 & E1 & Em). rewrite E1.
    assert (Inn : forall x, inner h1 f x <-> inner h f x) by (intros x; unfold inner; rewrite (e_parent _ _ _ _ Em); reflexivity).
    destruct (copy_spec env h1 f c ids (e_wf _ _ _ _ Em)) as (h' & E2 & Cp & W'); try (rewrite (e_nodes _ _ _ _ Em)); try assumption.
    { exact f_live. } { rewrite (e_parent _ _ _ _ Em). exact Hcf. }
    rewrite E2. eexists h', _. split; [reflexivity|]. split; [exact W'|]. set (phi := image_of _) in *.
    destruct Cp as [Fr Inj Oth Nds Rt Ent Old New Par (more & Lk & Lm & Ln)].
    assert (Oldin : forall y i, In y (h_nodes h) -> in_links h' (y, i) = in_links h1 (y, i)).
    { intros y i Iy. unfold in_links. rewrite Lk, filter_app. rewrite (filter_none _ (map _ _)); [apply app_nil_r|].
      intros l I. apply in_map_iff in I. destruct I as ([[s a] [d j]] & <- & I). apply Lm in I. destruct I as [I T]. unfold move_link. cbn [fst snd] in *. destruct (ep_eqb (phi d, j) (y, i)) eqn:B; [|reflexivity]. exfalso. apply ep_eqb_iff in B. injection B as B ->.
      assert (Nd : ~ inner h1 f d) by (intros X; apply (Fr d X); rewrite B, (e_nodes _ _ _ _ Em); exact Iy). destruct T as [T|T]; [|contradiction]. apply Nd. apply Inn. apply Inn in T.
      rewrite (e_links _ _ _ _ Em) in I. apply in_app_iff in I. destruct I as [I|I].
      - apply filter_In in I. destruct I as [I _]. exact (Hclosed _ _ _ _ I T).
      - exfalso. apply in_map_iff in I. destruct I as ([e1 e2] & X & I). injection X as -> <- <-. apply filter_In in I. destruct I as [I B2]. apply ep_eqb_iff in B2. cbn [snd] in B2. subst e2. exact (c_outer (Hclosed _ _ _ _ I T)). }
    constructor.
    - intros x Ix. apply Inn in Ix. rewrite <- (e_nodes _ _ _ _ Em). exact (Fr x Ix).
    - intros x y Ix Iy. apply Inj; apply Inn; assumption.
    - intros x Nx. apply Oth. rewrite Inn. exact Nx.
    - intros y. rewrite (Nds y), (e_nodes _ _ _ _ Em). split; (intros [I|(x & Ix & E)]; [left; exact I|right; exists x; split; [apply Inn; exact Ix|exact E]]).
    - rewrite Rt. exact (e_root _ _ _ _ Em).
    - rewrite Ent. exact (e_entry _ _ _ _ Em).
    - intros y Iy Ny. destruct (Old y) as (A1 & A2 & A3 & A4 & A5 & A6); [rewrite (e_nodes _ _ _ _ Em); exact Iy|]. rewrite A1, A2, A3, A4, A5, A6, (e_ops _ _ _ _ Em), (e_meta _ _ _ _ Em), (e_in _ _ _ _ Em), (e_out _ _ _ _ Em), (e_parent _ _ _ _ Em), (e_kids _ _ _ _ Em).
      destruct (N.eqb_spec y c); [contradiction|]. rewrite app_nil_r. auto 10.
    - destruct (Old c) as (A1 & A2 & A3 & A4 & A5 & A6); [rewrite (e_nodes _ _ _ _ Em); exact Hc|]. rewrite A1, A2, A3, A4, A5, A6, (e_ops _ _ _ _ Em), (e_meta _ _ _ _ Em), (e_in _ _ _ _ Em), (e_out _ _ _ _ Em), (e_parent _ _ _ _ Em), (e_kids _ _ _ _ Em), N.eqb_refl, Kc. auto 10.
    - intros x Ix. destruct (New x (proj2 (Inn x) Ix)) as (A1 & A2 & A3 & A4 & A5). rewrite A1, A2, A3, A4, A5, (e_ops _ _ _ _ Em), (e_meta _ _ _ _ Em), (e_in _ _ _ _ Em), (e_out _ _ _ _ Em), (e_kids _ _ _ _ Em).
      destruct (N.eqb_spec x c) as [->|]; [exfalso; exact (c_outer Ix)|]. auto.
    - intros x p Ix P. apply Par; [apply Inn; exact Ix|]. rewrite (e_parent _ _ _ _ Em). exact P.
    - intros y i Iy Ny. rewrite (Oldin y i Iy), (in_emptied h1 Em). destruct (N.eqb_spec y c); [contradiction|reflexivity].
    - intros i Li. rewrite (Oldin c i Hc), (in_emptied h1 Em), N.eqb_refl. rewrite (proj2 (Nat.ltb_lt i k) Li). reflexivity.
    - rewrite (Oldin c _ Hc), (in_emptied h1 Em), N.eqb_refl. fold k. rewrite Nat.ltb_irrefl, Nat.eqb_refl. reflexivity.
    - intros x i Ix. rewrite (Ln x i (proj2 (Inn x) Ix)), (in_emptied h1 Em). destruct (N.eqb_spec x c) as [->|]; [exfalso; exact (c_outer Ix)|reflexivity].
  Qed.
End Whole.

(** ** Valid HUGRs *)
Lemma nothing_leaves {M} env defs (h : hugr op M) f nm sg pub : wf h -> valid env defs h -> In f (h_nodes h) -> h_ops h f = OFuncDefn nm sg pub ->
  forall a i b j, In ((a, i), (b, j)) (h_links h) -> inner h f a -> inner h f b.
Proof.
  intros Wh V Hf Of a i b j L [U Ne]. pose proof (valid_tidy env defs h Wh V) as T. inversion U as [|? p ? P Up]; subst; [contradiction|].
  assert (Ub : up (h_parent h) b f).
  { destruct (t_links _ T a i b j p L P) as [B|(Bp & q & Q & B)]; [eapply up_trans; eassumption|]. inversion Up as [|? q' ? Q' Uq]; subst; [rewrite Of in Bp; discriminate|].
    rewrite Q in Q'. injection Q' as <-. eapply up_trans; eassumption. }
  split; [exact Ub|]. intros ->. destruct (wf_links h Wh _ L) as (_ & _ & B). cbn [fst snd] in B. destruct (v_ports _ _ _ V f Hf) as (ki & ko & Pk & _ & Ei & _). rewrite Of in Pk. inversion Pk; subst. rewrite Ei in B. inversion B.
Qed.
Lemma call_ports {M} env defs (h : hugr op M) c sg a i o : valid env defs h -> In c (h_nodes h) -> h_ops h c = OCall sg a (i, o) -> h_in h c = length i + 2.
Proof.
  intros V Hc Oc. destruct (v_ports _ _ _ V c Hc) as (ki & ko & Pk & _ & Ei & _). rewrite Oc in Pk. rewrite Ei, (ports_row _ _ _ Pk). unfold layout_row. rewrite app_length. unfold values. rewrite map_length. cbn. reflexivity.
Qed.
Lemma call_kids {M} env defs (h : hugr op M) c sg a i : wf h -> valid env defs h -> h_ops h c = OCall sg a i -> h_kids h c = [].
Proof.
  intros Wh V Oc. destruct (h_kids h c) as [|x l] eqn:E; [reflexivity|]. exfalso. assert (P : h_parent h x = Some c) by (apply (wf_kids h Wh); rewrite E; left; reflexivity).
  pose proof (v_tree _ _ _ V x c P) as Tr. rewrite Oc in Tr. inversion Tr; subst; match goal with X : region _ _ _ |- _ => inversion X end.
Qed.
