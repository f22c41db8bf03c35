(** Lemmas about dead code elimination. *)
From Coq Require Import List Bool NArith Arith Lia Permutation.
From Verif Require Import TypesModel GraphModel GraphSpec GraphProofs GraphRemove GraphBfs Graphs OpModel DeadModel DeadSpec.
Import ListNotations.

Lemma filter_in_ext : forall A (f g : A -> bool) l, (forall x, In x l -> f x = g x) -> filter f l = filter g l.
Proof.
  intros A f g l. induction l as [|x l IH]; intros E; [reflexivity|]. cbn [filter]. rewrite (E x) by (now left).
  rewrite IH by (intros y I; apply E; now right). reflexivity.
Qed.

Section Dead.
  Context {M : Type}.
  Notation hugr := (hugr op M).

  (** ** Removing several nodes one after the other *)
  Record culled (h0 : hugr) (R : list N) (h : hugr) : Prop := {
    cu_nodes : h_nodes h = filter (fun m => negb (memN m R)) (h_nodes h0);
    cu_ops : forall m, h_ops h m = if memN m R then OModule else h_ops h0 m;
    cu_meta : h_meta h = h_meta h0;
    cu_in : h_in h = h_in h0;
    cu_out : h_out h = h_out h0;
    cu_links : h_links h = filter (fun l => negb (memN (fst (fst l)) R || memN (fst (snd l)) R)) (h_links h0);
    cu_parent : forall m, h_parent h m = if memN m R then None else
                  match h_parent h0 m with Some p => if memN p R then None else Some p | None => None end;
    cu_kids : forall m, h_kids h m = if memN m R then [] else filter (fun c => negb (memN c R)) (h_kids h0 m);
    cu_root : h_root h = h_root h0;
    cu_entry : h_entry h = h_entry h0 }.

  Lemma filter_all : forall A (f : A -> bool) l, (forall x, In x l -> f x = true) -> filter f l = l.
  Proof.
    intros A f l E. rewrite (filter_in_ext _ f (fun _ => true)) by exact E. induction l as [|x l IH]; [reflexivity|]. cbn [filter].
    f_equal. apply IH. intros y I. apply E. now right.
  Qed.

  Lemma culled_none : forall h : hugr, culled h [] h.
  Proof.
    intros h. constructor; auto; cbn [memN existsb orb negb].
    - symmetry. now apply filter_all.
    - symmetry. now apply filter_all.
    - intros m. now destruct (h_parent h m).
    - intros m. symmetry. now apply filter_all.
  Qed.

  Lemma cull_step : forall (h0 h h' : hugr) R x, wf h0 -> culled h0 R h -> ~ In x R -> remove_node OModule h x = Some h' -> culled h0 (x :: R) h'.
  Proof.
    intros h0 h h' R x W C Nx. unfold remove_node. destruct (valid_non_entry h x); [|discriminate]. intros E. injection E as <-.
    apply memN_false in Nx.
    assert (Kx : h_kids (detach h x) x = h_kids h x).
    { unfold detach. rewrite (cu_parent _ _ _ C), Nx. destruct (h_parent h0 x) as [p|] eqn:Ep; [|reflexivity]. destruct (memN p R); [reflexivity|].
      cbn [set_tree h_kids]. apply upd_other. intros ->. apply (no_cycle h0 W p p Ep). constructor. }
    assert (Px : forall m, h_parent (detach h x) m = if N.eqb m x then None else h_parent h m).
    { intros m. rewrite detach_parent. reflexivity. }
    assert (Km : forall m, m <> x -> h_kids (detach h x) m = if memN m R then [] else filter (fun c => negb (memN c (x :: R))) (h_kids h0 m)).
    { intros m Ne. assert (F : memN m R = false -> ~ In x (h_kids h0 m) ->
          h_kids h m = if memN m R then [] else filter (fun c => negb (memN c (x :: R))) (h_kids h0 m)).
      { intros Em Nk. rewrite (cu_kids _ _ _ C), Em. apply filter_in_ext. intros c Ic. rewrite memN_cons.
        destruct (N.eqb_spec c x) as [->|_]; [contradiction|reflexivity]. }
      unfold detach. rewrite (cu_parent _ _ _ C), Nx. destruct (memN m R) eqn:Em.
      - assert (Z : h_kids h m = []) by (rewrite (cu_kids _ _ _ C), Em; reflexivity).
        destruct (h_parent h0 x) as [p|]; [|exact Z]. destruct (memN p R) eqn:Ep; [exact Z|]. cbn [set_tree h_kids]. unfold upd.
        destruct (N.eqb_spec m p) as [->|_]; [congruence|exact Z].
      - destruct (h_parent h0 x) as [p|] eqn:Ep.
        + destruct (memN p R) eqn:Mp.
          * apply F; [reflexivity|]. rewrite (wf_kids h0 W), Ep. intros X. injection X as ->. congruence.
          * cbn [set_tree h_kids]. unfold upd. destruct (N.eqb_spec m p) as [->|Np].
            -- rewrite (cu_kids _ _ _ C), Em. unfold delN. rewrite filter_filter. apply filter_ext. intros c. rewrite memN_cons, negb_orb. apply andb_comm.
            -- apply F; [reflexivity|]. rewrite (wf_kids h0 W), Ep. congruence.
        + apply F; [reflexivity|]. rewrite (wf_kids h0 W), Ep. discriminate. }
    destruct (detach_rest h x) as (R1 & R2 & R3 & R4 & R5 & R6 & R7 & R8).
    constructor; cbn [set_ops graph_remove tree_remove set_links set_nodes set_tree h_nodes h_ops h_meta h_in h_out h_links h_parent h_kids h_root h_entry].
    - rewrite R1, (cu_nodes _ _ _ C). unfold delN. rewrite filter_filter. apply filter_ext. intros m. rewrite memN_cons, negb_orb. apply andb_comm.
    - intros m. rewrite R2. unfold upd. rewrite memN_cons. destruct (N.eqb m x); [reflexivity|apply (cu_ops _ _ _ C)].
    - rewrite R3. apply (cu_meta _ _ _ C).
    - rewrite R4. apply (cu_in _ _ _ C).
    - rewrite R5. apply (cu_out _ _ _ C).
    - rewrite R6, (cu_links _ _ _ C), filter_filter. apply filter_ext. intros [[a i] [b j]]. unfold touches. cbn [fst snd].
      rewrite !memN_cons. destruct (memN a R), (memN b R), (N.eqb a x), (N.eqb b x); reflexivity.
    - intros m. rewrite Kx, Px, (cu_kids _ _ _ C), Nx, memN_cons. destruct (N.eqb_spec m x) as [->|Ne]; cbn [orb].
      + now destruct (memN x (filter _ _)).
      + rewrite (cu_parent _ _ _ C). destruct (memN m R) eqn:Em; [now destruct (memN m (filter _ _))|].
        destruct (h_parent h0 m) as [p|] eqn:Ep.
        * rewrite memN_cons. destruct (N.eqb_spec p x) as [->|Np]; cbn [orb].
          -- replace (memN m (filter _ _)) with true; [reflexivity|]. symmetry. apply memN_iff, filter_In. split; [now apply (wf_kids h0 W)|now rewrite Em].
          -- replace (memN m (filter _ _)) with false; [reflexivity|]. symmetry. apply memN_false. intros X. apply filter_In in X.
             destruct X as [X _]. apply (wf_kids h0 W) in X. congruence.
        * now destruct (memN m (filter _ _)).
    - intros m. unfold upd. rewrite memN_cons. destruct (N.eqb_spec m x) as [->|Ne]; [reflexivity|]. cbn [orb]. now apply Km.
    - rewrite R7. apply (cu_root _ _ _ C).
    - rewrite R8. apply (cu_entry _ _ _ C).
  Qed.

  Lemma remove_nodes_spec : forall (h0 : hugr), wf h0 -> forall ns R h, culled h0 R h -> NoDup ns ->
    (forall n, In n ns -> In n (h_nodes h0) /\ n <> h_entry h0 /\ ~ In n R) ->
    exists h', remove_nodes h ns = Some h' /\ culled h0 (rev ns ++ R) h'.
  Proof.
    intros h0 W. induction ns as [|n ns IH]; intros R h C D A; [exists h; auto|]. cbn [remove_nodes rev].
    destruct (A n (or_introl eq_refl)) as (I & Ne & NR). inversion D as [|? ? Nn D']; subst.
    destruct (proj2 (remove_node_iff OModule h n)) as (h1 & E1).
    { split; [|rewrite (cu_entry _ _ _ C); exact Ne]. rewrite (cu_nodes _ _ _ C). apply filter_In. split; [exact I|]. apply memN_false in NR. now rewrite NR. }
    rewrite E1. pose proof (cull_step h0 h h1 R n W C NR E1) as C1. rewrite <- app_assoc. cbn [app]. apply (IH (n :: R) h1 C1 D').
    intros m Im. destruct (A m (or_intror Im)) as (X & Y & Z). split; [exact X|]. split; [exact Y|]. intros [->|J]; contradiction.
  Qed.

  Lemma culled_dropped : forall (h h' : hugr) R, wf h -> culled h R h' -> dropped (fun n => In n R) h h'.
  Proof.
    intros h h' R W C. constructor.
    - intros m. rewrite (cu_nodes _ _ _ C), filter_In, negb_true_iff, memN_false. reflexivity.
    - intros m N_. rewrite (cu_ops _ _ _ C), (cu_in _ _ _ C), (cu_out _ _ _ C). apply memN_false in N_. now rewrite N_.
    - apply (cu_meta _ _ _ C).
    - intros m p. rewrite (cu_parent _ _ _ C). destruct (memN m R) eqn:Em.
      + apply memN_iff in Em. split; [discriminate|tauto].
      + apply memN_false in Em. destruct (h_parent h m) as [q|]; [|split; [discriminate|intros [X _]; discriminate]].
        destruct (memN q R) eqn:Eq; [apply memN_iff in Eq|apply memN_false in Eq]; (split; [|intros (X & Y & Z)]); try discriminate; try congruence.
        intros X. injection X as <-. auto.
    - intros m N_. exists (fun c => negb (memN c R)). apply memN_false in N_. rewrite (cu_kids _ _ _ C), N_. split; [reflexivity|].
      intros c. now rewrite negb_true_iff, memN_false.
    - exists (fun l => negb (memN (fst (fst l)) R || memN (fst (snd l)) R)). split; [apply (cu_links _ _ _ C)|]. intros l.
      now rewrite negb_orb, andb_true_iff, !negb_true_iff, !memN_false.
    - apply (cu_root _ _ _ C).
    - apply (cu_entry _ _ _ C).
  Qed.

  Lemma culled_wf : forall (h h' : hugr) R, wf h -> culled h R h' -> ~ In (h_root h) R -> ~ In (h_entry h) R ->
    (forall m p, h_parent h m = Some p -> In p R -> In m R) -> wf h'.
  Proof.
    intros h h' R W C NR NE Cl. pose proof (culled_dropped h h' R W C) as D. constructor.
    - rewrite (cu_nodes _ _ _ C). apply NoDup_filter, (wf_nodup h W).
    - rewrite (dr_root _ _ _ D). apply (dr_nodes _ _ _ D). split; [apply (wf_root h W)|exact NR].
    - rewrite (dr_entry _ _ _ D). apply (dr_nodes _ _ _ D). split; [apply (wf_entry h W)|exact NE].
    - rewrite (dr_root _ _ _ D), (cu_parent _ _ _ C), (wf_top h W). now destruct (memN _ R).
    - rewrite (dr_root _ _ _ D). intros n I Nr. apply (dr_nodes _ _ _ D) in I. destruct I as [I NI].
      destruct (wf_parent h W n I Nr) as (p & Ep & Ip). assert (Np : ~ In p R) by (intros X; apply NI; eapply Cl; eassumption).
      exists p. split; [apply (dr_parent _ _ _ D); auto|apply (dr_nodes _ _ _ D); auto].
    - intros p c. rewrite (dr_parent _ _ _ D), (cu_kids _ _ _ C). destruct (memN p R) eqn:Ep.
      + apply memN_iff in Ep. cbn. tauto.
      + apply memN_false in Ep. rewrite filter_In, negb_true_iff, memN_false, (wf_kids h W). tauto.
    - intros p. rewrite (cu_kids _ _ _ C). destruct (memN p R); [constructor|]. apply NoDup_filter, (wf_kids_once h W).
    - intros n Nn. assert (A : In n R \/ ~ In n (h_nodes h)).
      { destruct (in_dec N.eq_dec n R) as [X|X]; [now left|]. right. intros Y. apply Nn. apply (dr_nodes _ _ _ D). auto. }
      rewrite (cu_parent _ _ _ C), (cu_kids _ _ _ C). destruct A as [A|A].
      + apply memN_iff in A. now rewrite A.
      + destruct (wf_unused h W n A) as [X Y]. rewrite X, Y. now destruct (memN n R).
    - intros n I. apply (dr_nodes _ _ _ D) in I. destruct I as [I NI]. rewrite (dr_root _ _ _ D). pose proof (wf_reach h W n I) as U. clear I.
      revert NI. induction U as [n|n p a E U IH]; intros NI; [constructor|]. assert (Np : ~ In p R) by (intros X; apply NI; eapply Cl; eassumption).
      eapply up_next; [|apply IH; auto]. apply (dr_parent _ _ _ D). auto.
    - intros l I. rewrite (cu_links _ _ _ C) in I. apply filter_In in I. destruct I as [I X].
      rewrite negb_orb, andb_true_iff, !negb_true_iff, !memN_false in X. destruct X as [X1 X2].
      destruct (wf_links h W l I) as [[A B] [C' D']]. unfold out_port, in_port. rewrite (cu_in _ _ _ C), (cu_out _ _ _ C), !(dr_nodes _ _ _ D). auto.
  Qed.

  (** ** [must_preserve] *)
  Section Code.
    Variable cb : hugr -> N -> preserve.

    Definition cache_ok (h : hugr) (cache : list (N * bool)) : Prop := forall n b, lookup n cache = Some b -> (b = true <-> kept cb h n).

    Lemma must_preserve_spec : forall (h : hugr), wf h -> forall fuel n cache,
      (forall i m, hops (h_parent h) i m = Some n -> i < fuel) -> cache_ok h cache ->
      (fst (must_preserve cb fuel h cache n) = true <-> kept cb h n) /\ cache_ok h (snd (must_preserve cb fuel h cache n)).
    Proof.
      intros h W. induction fuel as [|fuel IH]; intros n cache B C; [specialize (B 0 n eq_refl); lia|].
      cbn [must_preserve]. destruct (lookup n cache) as [b|] eqn:L; [split; [exact (C n b L)|exact C]|].
      assert (G : forall r cache', (r = true <-> kept cb h n) -> cache_ok h cache' -> (r = true <-> kept cb h n) /\ cache_ok h ((n, r) :: cache')).
      { intros r cache' Hr C'. split; [exact Hr|]. intros m b. cbn [lookup]. destruct (N.eqb_spec n m) as [<-|_]; [|apply C']. intros X. now injection X as <-. }
      destruct (cb h n) eqn:E.
      - apply G; [|exact C]. split; [intros _; now constructor|auto].
      - apply G; [|exact C]. split; [discriminate|]. intros K. inversion K; congruence.
      - set (any := fix any cache cs := match cs with
                 | [] => (false, cache)
                 | c :: cs => let (r, cache) := must_preserve cb fuel h cache c in if r then (true, cache) else any cache cs
                 end).
        assert (A : forall cs cache, (forall c, In c cs -> h_parent h c = Some n) -> cache_ok h cache ->
          (fst (any cache cs) = true <-> exists c, In c cs /\ kept cb h c) /\ cache_ok h (snd (any cache cs))).
        { clear cache C L. induction cs as [|c cs IHc]; intros cache Hc C.
          - cbn. split; [|exact C]. split; [discriminate|intros (c & [] & _)].
          - cbn [any]. destruct (IH c cache) as [X Y]; [|exact C|].
            { intros i m Hi. assert (S i < S fuel); [|lia]. apply (B (S i) m). replace (S i) with (i + 1) by lia.
              rewrite (hops_add _ _ _ _ _ Hi). cbn. now rewrite (Hc c (or_introl eq_refl)). }
            destruct (must_preserve cb fuel h cache c) as [r cache1]. cbn [fst snd] in X, Y. destruct r.
            + cbn. split; [|exact Y]. split; [|auto]. intros _. exists c. split; [now left|now apply X].
            + fold any. destruct (IHc cache1) as [P Q]; [intros x Ix; apply Hc; now right|exact Y|]. split; [|exact Q]. rewrite P. split.
              * intros (x & I & K). exists x. split; [now right|exact K].
              * intros (x & [<-|I] & K); [apply X in K; discriminate|]. eauto. }
        destruct (A (h_kids h n) cache) as [X Y]; [intros c Ic; now apply (wf_kids h W)|exact C|].
        destruct (any cache (h_kids h n)) as [r cache1]. cbn [fst snd] in X, Y. apply G; [|exact Y]. rewrite X. split.
        + intros (c & Ic & K). apply (wf_kids h W) in Ic. eapply kept_below; eassumption.
        + intros K. inversion K as [|? c E' P K']; subst; [congruence|]. exists c. split; [now apply (wf_kids h W)|exact K'].
    Qed.

    Lemma must_preserve_live : forall (h : hugr), wf h -> forall n i m, In n (h_nodes h) -> hops (h_parent h) i m = Some n -> i < length (h_nodes h).
    Proof.
      intros h W n i m I E. destruct i as [|i]; [destruct (h_nodes h); [destruct I|cbn; lia]|].
      assert (Im : In m (h_nodes h)).
      { cbn in E. destruct (h_parent h m) as [p|] eqn:Ep; [|discriminate]. apply (wf_parent_live h W m p Ep). }
      eapply (hops_bound (h_parent h) (h_root h) (h_nodes h) (wf_top h W) (wf_parent h W)); [exact Im|apply (wf_reach h W m Im)|exact E].
    Qed.

    Lemma structural_iff : forall o, structural o = true <-> structure o.
    Proof. intros []; cbn; split; auto; discriminate || contradiction. Qed.

    Lemma needed_kids_spec : forall (h : hugr), wf h -> forall n cs cache, (forall c, In c cs -> h_parent h c = Some n) -> cache_ok h cache ->
      (forall m, In m (fst (needed_kids cb h cache cs)) <-> In m cs /\ (kept cb h m \/ structure (h_ops h m))) /\
      cache_ok h (snd (needed_kids cb h cache cs)) /\ length (fst (needed_kids cb h cache cs)) <= length cs.
    Proof.
      intros h W n. induction cs as [|c cs IH]; intros cache Hc C.
      - cbn. split; [tauto|]. split; [exact C|lia].
      - cbn [needed_kids]. pose proof (Hc c (or_introl eq_refl)) as Pc.
        destruct (must_preserve_spec h W (length (h_nodes h)) c cache) as [X Y]; [|exact C|].
        { intros i m E. eapply must_preserve_live; [exact W| |exact E]. apply (wf_parent_live h W c n Pc). }
        destruct (must_preserve cb _ h cache c) as [r cache1]. cbn [fst snd] in X, Y.
        destruct (IH cache1) as (P & Q & L); [intros x Ix; apply Hc; now right|exact Y|].
        destruct (needed_kids cb h cache1 cs) as [l cache2]. cbn [fst snd] in P, Q, L |- *.
        assert (S : r || structural (h_ops h c) = true <-> kept cb h c \/ structure (h_ops h c)) by (rewrite orb_true_iff, X, structural_iff; reflexivity).
        split; [|split; [exact Q|]].
        + intros m. rewrite in_app_iff, P. destruct (r || structural (h_ops h c)).
          * cbn [In]. split; [|tauto]. intros [[<-|[]]|]; [|tauto]. split; [now left|]. now apply S.
          * cbn [In]. split; [tauto|]. intros [[<-|I] K]; [|tauto]. apply S in K. discriminate.
        + rewrite app_length. cbn [length]. destruct (r || structural (h_ops h c)); cbn [length]; lia.
    Qed.

    Lemma input_neighbours_iff : forall (h : hugr), wf h -> forall n m, In m (input_neighbours h n) <-> exists i j, In ((m, i), (n, j)) (h_links h).
    Proof.
      intros h W n m. unfold input_neighbours. rewrite in_flat_map. split.
      - intros (j & _ & I). apply in_map_iff in I. destruct I as ([m' i] & <- & I). unfold linked_outputs in I. apply in_map_iff in I.
        destruct I as ([e1 e2] & E1 & I). apply filter_In in I. destruct I as [I E]. cbn [fst snd] in *. apply ep_eqb_iff in E. subst. eauto.
      - intros (i & j & I). exists j. split.
        + apply in_seq. destruct (wf_links h W _ I) as [_ [_ X]]. cbn in X. lia.
        + apply in_map_iff. exists (m, i). split; [reflexivity|]. apply in_map_iff. exists ((m, i), (n, j)). split; [reflexivity|].
          apply filter_In. split; [exact I|]. now apply ep_eqb_iff.
    Qed.

    Lemma in_enum : forall A (l : list A) k i x, In (i, x) (combine (seq k (length l)) l) <-> k <= i /\ nth_error l (i - k) = Some x.
    Proof.
      intros A. induction l as [|a l IH]; intros k i x; cbn [length seq combine In].
      - split; [tauto|]. intros [_ E]. now destruct (i - k).
      - rewrite IH. split.
        + intros [E|[L E]]; [injection E as <- <-; split; [lia|now rewrite Nat.sub_diag]|]. split; [lia|]. replace (i - k) with (S (i - S k)) by lia. exact E.
        + intros [L E]. destruct (Nat.eq_dec i k) as [->|Ne].
          * rewrite Nat.sub_diag in E. injection E as <-. now left.
          * right. split; [lia|]. replace (i - k) with (S (i - S k)) in E by lia. exact E.
    Qed.

    Lemma linear_consumers_iff : forall (h : hugr) n m, In m (linear_consumers h n) <->
      exists i j s t, In ((n, i), (m, j)) (h_links h) /\ dataflow_signature (h_ops h n) = Some s /\ nth_error (snd s) i = Some t /\ copyable t = false.
    Proof.
      intros h n m. unfold linear_consumers. destruct (dataflow_signature (h_ops h n)) as [s|]; [|cbn; split; [tauto|intros (i & j & s & t & _ & X & _); discriminate]].
      rewrite in_flat_map. split.
      - intros ([i t] & I & J). apply in_enum in I. destruct I as [_ E]. rewrite Nat.sub_0_r in E. cbn [fst snd] in J.
        destruct (copyable t) eqn:Ct; cbn [negb] in J; [destruct J|]. apply in_map_iff in J. destruct J as ([m' j] & <- & J).
        unfold linked_inputs in J. apply in_map_iff in J. destruct J as ([e1 e2] & E1 & J). apply filter_In in J. destruct J as [J E2].
        cbn [fst snd] in *. apply ep_eqb_iff in E2. subst. exists i, j, s, t. auto.
      - intros (i & j & s' & t & I & Es & Et & Ct). injection Es as <-. exists (i, t). split.
        + apply in_enum. rewrite Nat.sub_0_r. split; [lia|exact Et].
        + cbn [fst snd]. rewrite Ct. cbn [negb]. apply in_map_iff. exists (m, j). split; [reflexivity|]. apply in_map_iff.
          exists ((n, i), (m, j)). split; [reflexivity|]. apply filter_In. split; [exact I|]. now apply ep_eqb_iff.
    Qed.

    (** Everything pushed for a node is what it needs. *)
    Lemma pushes : forall (h : hugr), wf h -> forall n l, (forall m, In m l <-> In m (h_kids h n) /\ (kept cb h m \/ structure (h_ops h m))) ->
      forall m, In m (l ++ input_neighbours h n ++ linear_consumers h n) <-> needs cb h n m.
    Proof.
      intros h W n l Hl m. rewrite !in_app_iff, Hl, (input_neighbours_iff h W), linear_consumers_iff, (wf_kids h W). split.
      - intros [[P [K|S]]|[(i & j & I)|(i & j & s & t & I & Es & Et & C)]].
        + now apply needs_kept.
        + now apply needs_structure.
        + eapply needs_input; eassumption.
        + eapply needs_linear; eassumption.
      - intros N_. destruct N_; eauto 12.
    Qed.

    Lemma needs_live : forall (h : hugr), wf h -> forall n m, needs cb h n m -> In m (h_nodes h).
    Proof.
      intros h W n m N_. destruct N_ as [n m P _|n m P _|n m i j I|n m i j s t I _ _ _].
      - apply (wf_parent_live h W m n P).
      - apply (wf_parent_live h W m n P).
      - apply (wf_links h W _ I).
      - apply (wf_links h W _ I).
    Qed.

    Definition todo (h : hugr) (done : list N) : nat := list_sum (map (degree h) (filter (fun n => negb (memN n done)) (h_nodes h))).

    Lemma todo_step : forall (h : hugr), wf h -> forall n done, In n (h_nodes h) -> ~ In n done -> todo h (n :: done) + degree h n = todo h done.
    Proof.
      intros h W n done I N_. unfold todo. apply memN_false in N_. pose proof (wf_nodup h W) as D. induction (h_nodes h) as [|x l IH]; [destruct I|].
      inversion D as [|? ? Nx D']; subst. cbn [filter]. rewrite memN_cons. destruct (N.eqb_spec x n) as [->|Ne].
      - rewrite N_. cbn [orb negb map]. change (list_sum (degree h n :: ?l)) with (degree h n + list_sum l).
        assert (E : filter (fun m => negb (memN m (n :: done))) l = filter (fun m => negb (memN m done)) l).
        { apply filter_in_ext. intros y Iy. rewrite memN_cons. destruct (N.eqb_spec y n) as [->|_]; [contradiction|reflexivity]. }
        rewrite E. cbn [list_sum fold_right]. lia.
      - destruct I as [->|I]; [contradiction|]. cbn [orb]. specialize (IH I D'). destruct (memN x done); cbn [negb]; [exact IH|].
        cbn [map]. cbn [list_sum fold_right] in *. unfold list_sum in *. cbn [fold_right]. lia.
    Qed.

    Record searching (h : hugr) (entries done q : list N) : Prop := {
      se_needed : forall n, In n done \/ In n q -> needed cb h entries n;
      se_entry : In (h_entry h) done \/ In (h_entry h) q;
      se_points : forall n, In n entries -> In n done \/ In n q;
      se_next : forall n m, In n done -> needs cb h n m -> In m done \/ In m q }.

    Lemma find_loop_spec : forall (h : hugr) entries, wf h -> forall fuel cache done q, cache_ok h cache -> searching h entries done q ->
      (forall n, In n done -> In n (h_nodes h)) -> length q + todo h done <= fuel ->
      match find_loop cb fuel h cache done q with
      | Done l => (forall n, In n l <-> needed cb h entries n) /\ (forall n, In n l -> In n (h_nodes h))
      | NodeNotFound n => In n entries /\ ~ In n (h_nodes h)
      | Stuck => False
      end.
    Proof.
      intros h entries W. induction fuel as [|fuel IH]; intros cache done q C S L F; destruct q as [|n q]; cbn [find_loop].
      - assert (X : forall n, In n done <-> needed cb h entries n).
        { intros n. split; [intros I; apply (se_needed _ _ _ _ S); now left|]. intros X. induction X.
          - destruct (se_entry _ _ _ _ S) as [A|[]]; exact A.
          - destruct (se_points _ _ _ _ S n H) as [A|[]]; exact A.
          - destruct (se_next _ _ _ _ S n m IHX H) as [A|[]]; exact A. }
        split; [exact X|exact L].
      - cbn [length] in F. lia.
      - assert (X : forall n, In n done <-> needed cb h entries n).
        { intros n. split; [intros I; apply (se_needed _ _ _ _ S); now left|]. intros X. induction X.
          - destruct (se_entry _ _ _ _ S) as [A|[]]; exact A.
          - destruct (se_points _ _ _ _ S n H) as [A|[]]; exact A.
          - destruct (se_next _ _ _ _ S n m IHX H) as [A|[]]; exact A. }
        split; [exact X|exact L].
      - cbn [length] in F. destruct (contains h n) eqn:Cn; cbn [negb].
        2:{ apply memN_false in Cn. split; [|exact Cn]. pose proof (se_needed _ _ _ _ S n (or_intror (or_introl eq_refl))) as X.
            inversion X as [E|? I|? ? _ N_]; subst; [|exact I|].
            - exfalso. apply Cn. apply (wf_entry h W).
            - exfalso. apply Cn. eapply needs_live; eassumption. }
        apply memN_iff in Cn. destruct (memN n done) eqn:D.
        + apply memN_iff in D. apply IH; auto; [|lia]. destruct S as [S1 S2 S3 S4]. constructor.
          * intros m [I|I]; apply S1; [now left|right; now right].
          * destruct S2 as [I|[E|I]]; [now left|left; congruence|now right].
          * intros m I. destruct (S3 m I) as [J|[->|J]]; auto.
          * intros a b I N_. destruct (S4 a b I N_) as [J|[->|J]]; auto.
        + apply memN_false in D. destruct (needed_kids_spec h W n (h_kids h n) cache) as (P & Q & B); [intros c Ic; now apply (wf_kids h W)|exact C|].
          destruct (needed_kids cb h cache (h_kids h n)) as [l cache1]. cbn [fst snd] in P, Q, B. pose proof (pushes h W n l P) as Pu.
          apply IH; auto.
          * destruct S as [S1 S2 S3 S4]. constructor.
            -- intros m [[<-|I]|I]; [apply S1; right; now left|apply S1; now left|]. apply in_app_iff in I. destruct I as [I|I]; [apply S1; right; now right|].
               apply Pu in I. eapply needed_next; [|exact I]. apply S1. right. now left.
            -- destruct S2 as [I|[E|I]]; [left; now right|left; now left|right; apply in_app_iff; now left].
            -- intros m I. destruct (S3 m I) as [J|[->|J]]; [left; now right|left; now left|right; apply in_app_iff; now left].
            -- intros a b [<-|I] N_; [right; apply in_app_iff; right; now apply Pu|].
               destruct (S4 a b I N_) as [J|[->|J]]; [left; now right|left; now left|right; apply in_app_iff; now left].
          * intros m [<-|I]; auto.
          * pose proof (todo_step h W n done Cn D) as T. rewrite !app_length. unfold degree in T. lia.
    Qed.

    Lemma find_needed_spec : forall (h : hugr) entries, wf h ->
      match find_needed cb h entries with
      | Done l => (forall n, In n l <-> needed cb h entries n) /\ (forall n, In n l -> In n (h_nodes h))
      | NodeNotFound n => In n entries /\ ~ In n (h_nodes h)
      | Stuck => False
      end.
    Proof.
      intros h entries W. unfold find_needed. apply find_loop_spec; auto.
      - intros n b. discriminate.
      - constructor; cbn [In]; try tauto. intros n [[]|[<-|I]]; [constructor|now constructor].
      - intros n [].
      - unfold todo. cbn [memN existsb negb length]. rewrite filter_all by reflexivity. lia.
    Qed.

    (** ** The pass *)
    Definition unneeded (h : hugr) (entries : list N) (n : N) : Prop := up (h_parent h) n (h_entry h) /\ ~ needed cb h entries n.

    Lemma dce_spec : forall (h : hugr) entries, wf h ->
      match dce cb h entries with
      | None => False
      | Some Stuck => False
      | Some (NodeNotFound n) => In n entries /\ ~ In n (h_nodes h)
      | Some (Done h') => (forall n, needed cb h entries n -> In n (h_nodes h)) /\
          exists R, culled h R h' /\ forall n, In n R <-> unneeded h entries n
      end.
    Proof.
      intros h entries W. unfold dce. pose proof (find_needed_spec h entries W) as F. destruct (find_needed cb h entries) as [l|n|]; auto.
      destruct F as [F L]. destruct (descendants_spec h W (h_entry h) (wf_entry h W)) as (_ & D & X).
      destruct (remove_nodes_spec h W (filter (fun n => negb (memN n l)) (descendants h (h_entry h))) [] h (culled_none h)) as (h' & E & C).
      - now apply NoDup_filter.
      - intros n I. apply filter_In in I. destruct I as [I Nn]. apply X in I. split.
        + inversion I as [z|z p a Ep _]; subst; [apply (wf_entry h W)|apply (wf_parent_live h W n p Ep)].
        + split; [|tauto]. intros ->. rewrite negb_true_iff, memN_false, F in Nn. apply Nn. constructor.
      - rewrite E. cbn [option_map]. split; [intros n I; apply L; now apply F|]. eexists. split; [exact C|]. intros n.
        rewrite app_nil_r, <- in_rev, filter_In, negb_true_iff, memN_false, F, X. reflexivity.
    Qed.
  End Code.
End Dead.
