(** When a subgraph is accepted, and what that is good for. *)
From Coq Require Import List Bool NArith Arith Lia Permutation.
From Verif Require Import TagModel TypesModel TypesProofs GraphModel GraphSpec GraphProofs GraphRemove OpModel OpProofs DeadModel DeadProofs
  InlineModel InlineProofs ReplaceModel ReplaceSpec ReplaceProofs SubgraphModel.
Import ListNotations.

(** What a well-formed subgraph is, after the documentation of [SiblingSubgraph::try_new]: a port is in the
    incoming (outgoing) boundary if and only if it is inside and linked to a node outside. *)
Section Spec.
  Context {M : Type}.
  Notation hugr := (hugr op M).

  Definition crosses_in (h : hugr) (nodes : list N) (e : endpoint) : Prop :=
    In (fst e) nodes /\ exists s, In (s, e) (h_links h) /\ ~ In (fst s) nodes.
  Definition crosses_out (h : hugr) (nodes : list N) (e : endpoint) : Prop :=
    In (fst e) nodes /\ exists t, In (e, t) (h_links h) /\ ~ In (fst t) nodes.
  Definition value_port (h : hugr) (d : dir) (e : endpoint) : Prop :=
    other_port (h_ops h (fst e)) d <> Some (snd e) /\ static_port (h_ops h (fst e)) d <> Some (snd e).

  Record good_subgraph (h : hugr) (nodes : list N) (ins : list (list endpoint)) (outs : list endpoint) (calls : list (list endpoint)) : Prop := {
    gs_some : nodes <> [];
    gs_parent : forall a b, In a nodes -> In b nodes -> get_parent h a = get_parent h b;
    gs_in_value : forall part e, In part ins -> In e part -> value_port h Inc e;
    gs_out_value : forall e, In e outs -> value_port h Out e;
    (** The boundary is where links cross. *)
    gs_in : forall part e, In part ins -> In e part -> crosses_in h nodes e;
    gs_out : forall e, In e outs -> crosses_out h nodes e;
    gs_all_in : forall e, crosses_in h nodes e -> exists part, In part (ins ++ calls) /\ In e part;
    gs_all_out : forall e, crosses_out h nodes e -> In e outs;
    (** Each input is a non-empty set of ports of one source and type; copied only if that is allowed. *)
    gs_once : NoDup (concat ins);
    gs_parts : forall part, In part ins -> part <> [] /\ (exists s, forall e, In e part -> linked_outputs h (fst e) (snd e) = [s]) /\
      exists t, (forall e, In e part -> port_type h Inc e = Some t) /\ (1 < length part -> copyable t = true);
    (** The other ports are static ones, grouped by source. *)
    gs_calls : forall group, In group calls -> (forall e, In e group -> valid_port h (fst e) Inc (snd e) = true /\ static_port (h_ops h (fst e)) Inc = Some (snd e)) /\
      forall e e', In e group -> In e' group -> source_of h e = source_of h e' }.
End Spec.

(** ** Searches *)
Lemma opt_find_none : forall A (f : A -> option bool) l, opt_find f l = Some None <-> forall x, In x l -> f x = Some false.
Proof.
  intros A f. induction l as [|x l IH]; cbn [opt_find]; [split; [intros _ y []|reflexivity]|]. split.
  - destruct (f x) as [[|]|] eqn:E; try discriminate. intros H y [<-|I]; [exact E|]. now apply IH.
  - intros H. rewrite (H x (or_introl eq_refl)). apply IH. intros y I. apply H. now right.
Qed.

Lemma find_none : forall A (f : A -> bool) l, find f l = None <-> forall x, In x l -> f x = false.
Proof.
  intros A f. induction l as [|x l IH]; cbn [find]; [split; [intros _ y []|reflexivity]|]. split.
  - destruct (f x) eqn:E; try discriminate. intros H y [<-|I]; [exact E|]. now apply IH.
  - intros H. rewrite (H x (or_introl eq_refl)). apply IH. intros y I. apply H. now right.
Qed.

Lemma unique_iff : forall l, unique l = true <-> NoDup l.
Proof.
  induction l as [|e l IH]; cbn [unique]; [split; [constructor|reflexivity]|]. rewrite andb_true_iff, negb_true_iff, IH. fold (mem_ep e l). split.
  - intros [A B]. constructor; [|exact B]. rewrite <- mem_ep_iff. congruence.
  - intros N_. inversion N_ as [|? ? A B]; subst. split; [|exact B]. apply not_true_is_false. now rewrite mem_ep_iff.
Qed.

Lemma is_port_iff : forall x i, is_port x i = true <-> x = Some i.
Proof. intros [j|] i; cbn; [rewrite Nat.eqb_eq|]; split; congruence. Qed.

Lemma parent_eqb_iff : forall a b, parent_eqb a b = true <-> a = b.
Proof. intros [a|] [b|]; cbn; rewrite ?N.eqb_eq; split; congruence. Qed.
Lemma ep_opt_eqb_iff : forall a b, ep_opt_eqb a b = true <-> a = b.
Proof. intros [a|] [b|]; cbn; try (split; congruence). rewrite ep_eqb_iff. split; congruence. Qed.

Section Accept.
  Context {M : Type}.
  Notation hugr := (hugr op M).
  Variable h : hugr.
  Hypothesis W : wf h.

  Lemma linked_inputs_iff : forall n k t, In t (linked_inputs h n k) <-> In ((n, k), t) (h_links h).
  Proof.
    intros n k t. unfold linked_inputs. rewrite in_map_iff. split.
    - intros ([a b] & E & I). cbn in E. subst b. apply filter_In in I. destruct I as [I E]. apply ep_eqb_iff in E. cbn in E. now subst a.
    - intros I. exists ((n, k), t). split; [reflexivity|]. apply filter_In. split; [exact I|]. now apply ep_eqb_iff.
  Qed.

  (** The links of a port. *)
  Definition joined (p : port) (m : N) : Prop :=
    match fst p with Inc => exists j, In ((m, j), snd p) (h_links h) | Out => exists j, In (snd p, (m, j)) (h_links h) end.

  Lemma other_ends_spec : forall p l, other_ends h p = Some l -> forall m, In m l <-> joined p m.
  Proof.
    intros [d [n i]] l. unfold other_ends, joined. cbn [fst snd]. destruct (valid_port h n d i); [|discriminate]. intros E. injection E as <-. intros m.
    rewrite in_map_iff. destruct d; split.
    - intros ([a b] & E & I). cbn in E. subst a. apply linked_outputs_iff in I. now exists b.
    - intros (j & I). exists (m, j). split; [reflexivity|]. now apply linked_outputs_iff.
    - intros ([a b] & E & I). cbn in E. subst a. apply linked_inputs_iff in I. now exists b.
    - intros (j & I). exists (m, j). split; [reflexivity|]. now apply linked_inputs_iff.
  Qed.
  Lemma other_ends_valid : forall p, (exists l, other_ends h p = Some l) <-> valid_port h (fst (snd p)) (fst p) (snd (snd p)) = true.
  Proof.
    intros [d [n i]]. unfold other_ends. cbn [fst snd]. destruct (valid_port h n d i); split; try reflexivity; try discriminate; [intros _; eauto|intros (l & E); discriminate].
  Qed.
  Lemma joined_valid : forall p m, joined p m -> valid_port h (fst (snd p)) (fst p) (snd (snd p)) = true.
  Proof.
    intros [[|] [n i]] m; unfold joined; cbn [fst snd]; intros (j & I); destruct (wf_links h W _ I) as [A B]; [now apply valid_port_in|now apply valid_port_out].
  Qed.

  Lemma existsb_outside : forall nodes l, existsb (outside nodes) l = true <-> exists m, In m l /\ ~ In m nodes.
  Proof.
    intros nodes l. rewrite existsb_exists. unfold outside. split; intros (m & I & E); exists m; (split; [exact I|]); [apply negb_true_iff, memN_false in E; exact E|apply negb_true_iff, memN_false; exact E].
  Qed.
  Lemma forallb_inside : forall nodes l, forallb (fun m => memN m nodes) l = false <-> exists m, In m l /\ ~ In m nodes.
  Proof.
    intros nodes l. rewrite <- existsb_outside. induction l as [|m l IH]; [split; discriminate|]. cbn [forallb existsb]. unfold outside at 1. destruct (memN m nodes); cbn [andb negb orb]; [exact IH|tauto].
  Qed.

  Lemma node_ports_iff : forall d n p, In p (node_ports h d n) <-> fst p = d /\ fst (snd p) = n /\ valid_port h n d (snd (snd p)) = true.
  Proof.
    intros d n [d' [m i]]. unfold node_ports, valid_port. cbn [fst snd]. destruct (contains h n); cbn [andb].
    - rewrite in_map_iff, Nat.ltb_lt. split.
      + intros (k & E & I). apply in_seq in I. injection E as <- <- <-. cbn in I. repeat split; lia.
      + intros (-> & -> & L). exists i. split; [reflexivity|]. apply in_seq. lia.
    - split; [intros []|intros (_ & _ & X); discriminate].
  Qed.

  Lemma crosses_joined : forall nodes d e, (match d with Inc => crosses_in h nodes e | Out => crosses_out h nodes e end) <->
    In (fst e) nodes /\ exists m, joined (d, e) m /\ ~ In m nodes.
  Proof.
    intros nodes [|] e; unfold crosses_in, crosses_out, joined; cbn [fst snd].
    - split; intros (A & m & B & C); (split; [exact A|]); [exists (fst m); split; [exists (snd m); now destruct m|exact C]|destruct B as (j & B); exists (m, j); auto].
    - split; intros (A & m & B & C); (split; [exact A|]); [exists (fst m); split; [exists (snd m); now destruct m|exact C]|destruct B as (j & B); exists (m, j); auto].
  Qed.

  (** *** The single checks *)
  Lemma shared_parent_iff : forall nodes, shared_parent h nodes = None <-> nodes <> [] /\ forall a b, In a nodes -> In b nodes -> get_parent h a = get_parent h b.
  Proof.
    intros [|n rest]; cbn [shared_parent]; [split; [discriminate|intros [X _]; congruence]|].
    destruct (forallb (fun m => parent_eqb (get_parent h m) (get_parent h n)) rest) eqn:E.
    - rewrite forallb_forall in E. assert (X : forall a, In a (n :: rest) -> get_parent h a = get_parent h n) by (intros a [<-|I]; [reflexivity|]; now apply parent_eqb_iff, E).
      split; [|reflexivity]. intros _. split; [discriminate|]. intros a b A B. now rewrite (X a A), (X b B).
    - split; [|intros [_ X]; exfalso; apply not_true_iff_false in E; apply E, forallb_forall; intros m I; apply parent_eqb_iff, X; [now right|now left]].
      destruct (get_parent h n) as [p|]; [|discriminate]. destruct (find _ rest) as [m|] eqn:F; [destruct (get_parent h m); discriminate|].
      exfalso. apply not_true_iff_false in E. apply E, forallb_forall. intros m I. rewrite find_none in F. specialize (F m I). now apply negb_false_iff in F.
  Qed.

  Lemma non_value_linked : forall p m, joined p m -> is_non_value_edge h p = Some false <-> value_port h (fst p) (snd p).
  Proof.
    intros [d e] m J. pose proof (joined_valid _ _ J) as V. cbn [fst snd] in *. unfold is_non_value_edge, get_optype. cbn [fst snd].
    assert (L : is_linked h (d, e) = Some true).
    { unfold is_linked. destruct (proj2 (other_ends_valid (d, e)) V) as (l & E). rewrite E. cbn. apply (other_ends_spec _ _ E) in J. destruct l; [destruct J|reflexivity]. }
    unfold valid_port in V. apply andb_true_iff in V. destruct V as [-> _]. rewrite L. unfold value_port.
    pose proof (is_port_iff (other_port (h_ops h (fst e)) d) (snd e)) as P1. pose proof (is_port_iff (static_port (h_ops h (fst e)) d) (snd e)) as P2.
    destruct (is_port (other_port _ _) _), (is_port (static_port _ _) _); cbn [orb]; split; try discriminate; try reflexivity; intros; try (split; intros X; [apply P1 in X|apply P2 in X]; discriminate);
      exfalso; destruct H as [H1 H2]; first [now apply H1, P1|now apply H2, P2].
  Qed.

  Lemma same_source_iff : forall s part, same_source h s part = Some None <-> forall e, In e part -> source_of h e = Some s.
  Proof.
    intros s. induction part as [|e part IH]; cbn [same_source]; [split; [intros _ e []|reflexivity]|]. destruct (source_of h e) as [s'|] eqn:E.
    - destruct (ep_eqb s' s) eqn:X.
      + apply ep_eqb_iff in X. subst s'. rewrite IH. split; [intros H e' [<-|I]; auto|intros H e' I; apply H; now right].
      + split; [discriminate|]. intros H. specialize (H e (or_introl eq_refl)). rewrite E in H. injection H as ->. rewrite (proj2 (ep_eqb_iff s s) eq_refl) in X. discriminate.
    - split; [discriminate|]. intros H. specialize (H e (or_introl eq_refl)). congruence.
  Qed.

  Lemma source_iff : forall e s, source_of h e = Some s <-> linked_outputs h (fst e) (snd e) = [s].
  Proof.
    intros e s. split; [|now apply source_exact]. unfold source_of, single_linked_output. destruct (valid_port h (fst e) Inc (snd e)); [|discriminate].
    destruct (linked_outputs h (fst e) (snd e)) as [|x [|]]; try discriminate. intros E. now injection E as ->.
  Qed.

  Lemma check_partitions_iff : forall ins, check_partitions h ins = Some None <-> forall part, In part ins -> part <> [] /\ exists s, forall e, In e part -> linked_outputs h (fst e) (snd e) = [s].
  Proof.
    induction ins as [|part ins IH]; cbn [check_partitions]; [split; [intros _ p []|reflexivity]|]. destruct part as [|e part].
    - split; [discriminate|]. intros H. now destruct (H [] (or_introl eq_refl)).
    - destruct (source_of h e) as [s|] eqn:E.
      + destruct (same_source h s (e :: part)) as [[err|]|] eqn:S_.
        * split; [discriminate|]. intros H. destruct (H _ (or_introl eq_refl)) as (_ & s' & Y). assert (s' = s) as ->. { specialize (Y e (or_introl eq_refl)). apply source_iff in E. congruence. }
          rewrite (proj2 (same_source_iff s (e :: part))) in S_; [discriminate|]. intros e' I. now apply source_iff, Y.
        * rewrite IH. split.
          -- intros H p [<-|I]; [|now apply H]. split; [discriminate|]. exists s. intros e' I. apply source_iff. now apply (proj1 (same_source_iff s (e :: part)) S_).
          -- intros H p I. apply H. now right.
        * split; [discriminate|]. intros H. destruct (H _ (or_introl eq_refl)) as (_ & s' & Y). assert (s' = s) as ->. { specialize (Y e (or_introl eq_refl)). apply source_iff in E. congruence. }
          rewrite (proj2 (same_source_iff s (e :: part))) in S_; [discriminate|]. intros e' I. now apply source_iff, Y.
      + split; [discriminate|]. intros H. destruct (H _ (or_introl eq_refl)) as (_ & s' & Y). specialize (Y e (or_introl eq_refl)). apply source_iff in Y. congruence.
  Qed.

  Lemma edge_type_iff : forall part t, get_edge_type h part = Some t <-> part <> [] /\ forall e, In e part -> port_type h Inc e = Some t.
  Proof.
    intros [|e part] t; unfold get_edge_type; [split; [discriminate|intros [X _]; congruence]|]. destruct (port_type h Inc e) as [u|] eqn:E.
    - destruct (forallb _ _) eqn:F.
      + rewrite forallb_forall in F. split.
        * intros X. injection X as ->. split; [discriminate|]. intros e' I. specialize (F e' I). destruct (port_type h Inc e') as [v|]; [|discriminate]. apply (proj1 eqb_eq_both) in F. now subst.
        * intros [_ X]. rewrite (X e (or_introl eq_refl)) in E. congruence.
      + split; [discriminate|]. intros [_ X]. exfalso. apply not_true_iff_false in F. apply F, forallb_forall. intros e' I. rewrite (X e' I). rewrite (X e (or_introl eq_refl)) in E. injection E as ->. now apply (proj1 eqb_eq_both).
    - split; [discriminate|]. intros [_ X]. rewrite (X e (or_introl eq_refl)) in E. discriminate.
  Qed.

  Lemma check_types_iff : forall ins i, check_types h i ins = None <-> forall part, In part ins -> part <> [] /\ exists t, (forall e, In e part -> port_type h Inc e = Some t) /\ (1 < length part -> copyable t = true).
  Proof.
    induction ins as [|part ins IH]; intros i; cbn [check_types]; [split; [intros _ p []|reflexivity]|]. destruct (get_edge_type h part) as [t|] eqn:E.
    - apply edge_type_iff in E. destruct E as [E1 E2]. destruct (Nat.ltb 1 (length part) && negb (copyable t)) eqn:C.
      + split; [discriminate|]. intros H. apply andb_true_iff in C. destruct C as [C1 C2]. apply Nat.ltb_lt in C1. apply negb_true_iff in C2. destruct (H part (or_introl eq_refl)) as (_ & u & U1 & U2).
        destruct part as [|e part]; [congruence|]. specialize (U1 e (or_introl eq_refl)). specialize (E2 e (or_introl eq_refl)). specialize (U2 C1). congruence.
      + rewrite IH. split.
        * intros H p [<-|I]; [|now apply H]. split; [exact E1|]. exists t. split; [exact E2|]. intros L. apply Nat.ltb_lt in L. rewrite L in C. now apply negb_false_iff in C.
        * intros H p I. apply H. now right.
    - split; [discriminate|]. intros H. destruct (H part (or_introl eq_refl)) as (A & t & B & _). rewrite (proj2 (edge_type_iff part t)) in E; [discriminate|now split].
  Qed.

  Lemma check_calls_iff : forall calls, check_calls h calls = Some None <-> forall group, In group calls ->
    (forall e, In e group -> valid_port h (fst e) Inc (snd e) = true /\ static_port (h_ops h (fst e)) Inc = Some (snd e)) /\ forall e e', In e group -> In e' group -> source_of h e = source_of h e'.
  Proof.
    induction calls as [|group calls IH]; cbn [check_calls]; [split; [intros _ g []|reflexivity]|].
    destruct (forallb (fun e => valid_port h (fst e) Inc (snd e)) group) eqn:V.
    - rewrite forallb_forall in V. destruct group as [|e group].
      + rewrite IH. split; [intros H g [<-|I]; [split; [intros e []|intros e e' []]|now apply H]|intros H g I; apply H; now right].
      + destruct (forallb _ (e :: group)) eqn:F; cbn [negb].
        * rewrite forallb_forall in F. match goal with |- context [find ?f ?l] => destruct (find f l) as [x|] eqn:S_ end.
          -- split; [discriminate|]. intros H. destruct (H _ (or_introl eq_refl)) as (A & _). apply find_some in S_. destruct S_ as [I X]. apply negb_true_iff in X. rewrite (proj2 (is_port_iff _ _) (proj2 (A x I))) in X. discriminate.
          -- rewrite find_none in S_. rewrite IH. split; [|intros H g I; apply H; now right]. intros H g [<-|I]; [|now apply H]. split.
             ++ intros e' I. split; [now apply V|]. specialize (S_ e' I). apply negb_false_iff in S_. now apply is_port_iff.
             ++ intros a b Ia Ib. apply F in Ia, Ib. apply ep_opt_eqb_iff in Ia, Ib. congruence.
        * split; [discriminate|]. intros H. destruct (H _ (or_introl eq_refl)) as (_ & B). exfalso. apply not_true_iff_false in F. apply F, forallb_forall. intros e' I. apply ep_opt_eqb_iff, B; [exact I|now left].
    - split; [discriminate|]. intros H. destruct (H _ (or_introl eq_refl)) as (A & _). exfalso. apply not_true_iff_false in V. apply V, forallb_forall. intros e I. now apply A.
  Qed.

  Lemma iter_io_iff : forall ins outs p, In p (iter_io ins outs) <-> (fst p = Inc /\ exists part, In part ins /\ In (snd p) part) \/ fst p = Out /\ In (snd p) outs.
  Proof.
    intros ins outs [d e]. unfold iter_io. rewrite in_app_iff, !in_map_iff. cbn [fst snd]. split.
    - intros [(x & E & I)|(x & E & I)]; injection E as <- <-; [left|right]; (split; [reflexivity|]); [apply in_concat in I; destruct I as (q & A & B); eauto|exact I].
    - intros [(-> & q & A & B)|(-> & I)]; [left|right]; exists e; (split; [reflexivity|]); [apply in_concat; eauto|exact I].
  Qed.

  Lemma crossing_search : forall d nodes (b : endpoint -> bool),
    opt_find (fun p : port => option_map (fun l => existsb (outside nodes) l && negb (b (snd p))) (other_ends h p)) (flat_map (node_ports h d) nodes) = Some None <->
    forall e, In (fst e) nodes -> (exists m, joined (d, e) m /\ ~ In m nodes) -> b e = true.
  Proof.
    intros d nodes b. rewrite opt_find_none. split.
    - intros H e I (m & J & Nm). pose proof (joined_valid _ _ J) as V. cbn [fst snd] in V. specialize (H (d, e)). destruct (proj2 (other_ends_valid (d, e)) V) as (l & E). rewrite E in H. cbn [option_map snd] in H.
      assert (X : In (d, e) (flat_map (node_ports h d) nodes)) by (apply in_flat_map; exists (fst e); split; [exact I|]; apply node_ports_iff; auto).
      specialize (H X). injection H as H. assert (Y : existsb (outside nodes) l = true) by (apply existsb_outside; exists m; split; [now apply (other_ends_spec _ _ E)|exact Nm]).
      rewrite Y in H. cbn [andb] in H. now apply negb_false_iff in H.
    - intros H [d' e] I. apply in_flat_map in I. destruct I as (n & In_ & I). apply node_ports_iff in I. cbn [fst snd] in I. destruct I as (-> & E & V). rewrite <- E in V.
      destruct (proj2 (other_ends_valid (d, e)) V) as (l & El). rewrite El. cbn [option_map snd]. f_equal. destruct (existsb (outside nodes) l) eqn:X; [|reflexivity]. cbn [andb].
      apply negb_false_iff, H; [now rewrite E|]. apply existsb_outside in X. destruct X as (m & Im & Nm). exists m. split; [now apply (other_ends_spec _ _ El)|exact Nm].
  Qed.

  Theorem validate_subgraph_iff : forall nodes ins outs calls, validate_subgraph h nodes ins outs calls = Some None <-> good_subgraph h nodes ins outs calls.
  Proof.
    intros nodes ins outs calls. unfold validate_subgraph. split.
    - destruct (shared_parent h nodes) as [e|] eqn:E1; [discriminate|].
      match goal with |- context [opt_find ?f ?l] => destruct (opt_find f l) as [[p|]|] eqn:E2 end; try discriminate.
      match goal with |- context [find ?f ?l] => destruct (find f l) as [p|] eqn:E3 end; [discriminate|].
      match goal with |- context [opt_find ?f (iter_io ins outs)] => destruct (opt_find f (iter_io ins outs)) as [[p|]|] eqn:E4 end; try discriminate.
      match goal with |- context [opt_find ?f (flat_map (node_ports h Inc) nodes)] => destruct (opt_find f (flat_map (node_ports h Inc) nodes)) as [[p|]|] eqn:E5 end; [|  |discriminate];
      match goal with |- context [opt_find ?f (flat_map (node_ports h Out) nodes)] => destruct (opt_find f (flat_map (node_ports h Out) nodes)) as [[p'|]|] eqn:E6 end; try discriminate.
      destruct (unique (concat ins)) eqn:E7; cbn [negb]; [|discriminate]. destruct (check_partitions h ins) as [[e|]|] eqn:E8; try discriminate.
      destruct (check_types h 0 ins) as [e|] eqn:E9; [discriminate|]. intros E10.
      apply shared_parent_iff in E1. destruct E1 as [E1a E1b]. pose proof (proj1 (opt_find_none _ _ _) E2) as F2. pose proof (proj1 (find_none _ _ _) E3) as F3. pose proof (proj1 (opt_find_none _ _ _) E4) as F4.
      pose proof (proj1 (crossing_search Inc nodes (fun e => existsb (existsb (ep_eqb e)) (ins ++ calls))) E5) as F5.
      pose proof (proj1 (crossing_search Out nodes (fun e => existsb (ep_eqb e) outs)) E6) as F6. clear E5 E6.
      assert (Cross : forall d e, In (d, e) (iter_io ins outs) -> In (fst e) nodes /\ exists m, joined (d, e) m /\ ~ In m nodes).
      { intros d e I. specialize (F3 _ I). specialize (F4 _ I). cbn [fst snd] in F3. unfold outside in F3. apply negb_false_iff, memN_iff in F3. split; [exact F3|].
        cbn beta in F4. destruct (other_ends h (d, e)) as [l|] eqn:El; [|discriminate F4]. cbn [option_map] in F4. injection F4 as F4. apply forallb_inside in F4. destruct F4 as (m & Im & Nm). exists m. split; [now apply (other_ends_spec _ _ El)|exact Nm]. }
      assert (II : forall part e, In part ins -> In e part -> In (Inc, e) (iter_io ins outs)) by (intros part e A B; apply iter_io_iff; left; eauto).
      assert (OO : forall e, In e outs -> In (Out, e) (iter_io ins outs)) by (intros e A; apply iter_io_iff; right; auto).
      constructor; auto.
      + intros part e A B. destruct (Cross _ _ (II _ _ A B)) as (_ & m & J & _). apply (non_value_linked (Inc, e) m J). now apply F2, (II part).
      + intros e A. destruct (Cross _ _ (OO _ A)) as (_ & m & J & _). apply (non_value_linked (Out, e) m J). now apply F2, OO.
      + intros part e A B. apply (crosses_joined nodes Inc e). now apply Cross, (II part).
      + intros e A. apply (crosses_joined nodes Out e). now apply Cross, OO.
      + intros e C. apply (crosses_joined nodes Inc e) in C. destruct C as [C1 C2]. specialize (F5 e C1 C2). apply existsb_exists in F5. destruct F5 as (part & A & B). exists part. split; [exact A|]. now apply mem_ep_iff.
      + intros e C. apply (crosses_joined nodes Out e) in C. destruct C as [C1 C2]. apply mem_ep_iff. now apply F6.
      + now apply unique_iff.
      + intros part A. pose proof (proj1 (check_partitions_iff ins) E8 part A) as (B & C). pose proof (proj1 (check_types_iff ins 0) E9 part A) as (_ & D). auto.
      + now apply check_calls_iff.
    - intros [G1 G2 G3 G4 G5 G6 G7 G8 G9 G10 G11]. rewrite (proj2 (shared_parent_iff nodes)) by now split.
      assert (Cross : forall d e, In (d, e) (iter_io ins outs) -> value_port h d e /\ In (fst e) nodes /\ exists m, joined (d, e) m /\ ~ In m nodes).
      { intros d e I. apply iter_io_iff in I. cbn [fst snd] in I. destruct I as [(-> & part & A & B)|(-> & A)].
        - split; [now apply (G3 part)|]. apply (crosses_joined nodes Inc e). now apply (G5 part).
        - split; [now apply G4|]. apply (crosses_joined nodes Out e). now apply G6. }
      rewrite (proj2 (opt_find_none _ (is_non_value_edge h) _)).
      2:{ intros [d e] I. destruct (Cross d e I) as (A & _ & m & J & _). now apply (non_value_linked (d, e) m J). }
      rewrite (proj2 (find_none _ _ _)). 2:{ intros [d e] I. destruct (Cross d e I) as (_ & A & _). cbn [fst snd]. unfold outside. apply negb_false_iff. now apply memN_iff. }
      rewrite (proj2 (opt_find_none _ _ (iter_io ins outs))).
      2:{ intros [d e] I. destruct (Cross d e I) as (_ & _ & m & J & Nm). destruct (proj2 (other_ends_valid (d, e)) (joined_valid _ _ J)) as (l & E). rewrite E. cbn. f_equal. apply forallb_inside. exists m.
          split; [now apply (other_ends_spec _ _ E)|exact Nm]. }
      rewrite (proj2 (crossing_search Inc nodes (fun e => existsb (existsb (ep_eqb e)) (ins ++ calls)))).
      2:{ intros e I J. destruct (G7 e) as (part & A & B); [apply (crosses_joined nodes Inc e); now split|]. apply existsb_exists. exists part. split; [exact A|]. now apply mem_ep_iff. }
      rewrite (proj2 (crossing_search Out nodes (fun e => existsb (ep_eqb e) outs))).
      2:{ intros e I J. apply mem_ep_iff, G8. apply (crosses_joined nodes Out e). now split. }
      rewrite (proj2 (unique_iff _) G9). cbn [negb]. rewrite (proj2 (check_partitions_iff ins)) by (intros part A; destruct (G10 part A) as (X & Y & _); auto).
      rewrite (proj2 (check_types_iff ins 0)) by (intros part A; destruct (G10 part A) as (X & _ & Y); auto). now apply check_calls_iff.
  Qed.
End Accept.
