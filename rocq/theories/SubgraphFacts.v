(** Subgraphs made from nodes. *)
From Coq Require Import List Bool NArith Arith Lia Permutation Relations.
From Verif Require Import TagModel TypesModel TypesProofs GraphModel GraphSpec GraphProofs GraphRemove GraphProps Graphs OpModel OpSpec OpProofs OpProps DeadModel DeadProofs
  ValidModel ValidSpec ValidProofs ValidEdges ValidProps InlineModel InlineSpec InlineProofs InlineFacts ReplaceModel ReplaceSpec ReplaceProofs SubgraphModel SubgraphProofs ReplaceValid.
Import ListNotations.

Lemma dedup_iff : forall l seen n, In n (dedup seen l) <-> In n l /\ ~ In n seen.
Proof.
  induction l as [|a l IH]; intros seen n; cbn [dedup]; [cbn; tauto|]. destruct (memN a seen) eqn:E.
  - apply memN_iff in E. rewrite IH. cbn [In]. split; [tauto|]. intros [[->|I] N_]; [contradiction|]. tauto.
  - assert (N_ : ~ In a seen) by (rewrite <- memN_iff; congruence). cbn [In]. rewrite IH. cbn [In]. destruct (N.eq_dec a n) as [->|Ne]; [tauto|]. split; [|tauto]. intros [X|[X Y]]; [congruence|]. tauto.
Qed.
Lemma dedup_once : forall l seen, NoDup (dedup seen l).
Proof.
  induction l as [|a l IH]; intros seen; cbn [dedup]; [constructor|]. destruct (memN a seen); [apply IH|]. constructor; [|apply IH]. rewrite dedup_iff. cbn. tauto.
Qed.

Definition holds (x : option bool) : bool := match x with Some true => true | _ => false end.
Lemma opt_filter_some : forall A (f : A -> option bool) l r, opt_filter f l = Some r -> r = filter (fun x => holds (f x)) l /\ forall x, In x l -> f x <> None.
Proof.
  intros A f. induction l as [|x l IH]; cbn [opt_filter filter]; intros r E; [injection E as <-; split; [reflexivity|intros x []]|].
  destruct (f x) as [b|] eqn:F; [|discriminate]. destruct (opt_filter f l) as [r'|]; [|discriminate]. injection E as <-. destruct (IH _ eq_refl) as [-> H]. split.
  - now destruct b.
  - intros y [<-|I]; [congruence|auto].
Qed.
Lemma opt_filter_total : forall A (f : A -> option bool) l, (forall x, In x l -> f x <> None) -> exists r, opt_filter f l = Some r.
Proof.
  intros A f. induction l as [|x l IH]; cbn [opt_filter]; intros H; [eauto|]. destruct (f x) as [b|] eqn:F; [|destruct (H x (or_introl eq_refl) F)].
  destruct (IH (fun y I => H y (or_intror I))) as (r & ->). cbn [option_map]. eauto.
Qed.

Lemma once_app : forall A (l k : list A), NoDup l -> NoDup k -> (forall x, In x l -> ~ In x k) -> NoDup (l ++ k).
Proof.
  intros A l k N_ K D. induction N_ as [|x l I N_ IH]; [exact K|]. cbn [app]. constructor.
  - rewrite in_app_iff. intros [J|J]; [contradiction|]. exact (D x (or_introl eq_refl) J).
  - apply IH. intros y J. apply D. now right.
Qed.

Section Made.
  Context {M : Type}.
  Notation hugr := (hugr op M).
  Variable h : hugr.
  Hypothesis W : wf h.

  Lemma is_linked_iff : forall p, is_linked h p = Some true <-> exists m, joined h p m.
  Proof.
    intros p. unfold is_linked. destruct (other_ends h p) as [l|] eqn:E; cbn [option_map].
    - pose proof (other_ends_spec h p l E) as S_. split.
      + destruct l as [|m l]; [discriminate|]. intros _. exists m. apply S_. now left.
      + intros (m & J). apply S_ in J. destruct l; [destruct J|reflexivity].
    - split; [discriminate|]. intros (m & J). apply (joined_valid h W) in J. apply other_ends_valid in J. destruct J as (l & J). congruence.
  Qed.

  Lemma node_ports_once : forall d ns, NoDup ns -> NoDup (flat_map (node_ports h d) ns).
  Proof.
    intros d ns N_. induction N_ as [|n ns I N_ IH]; cbn [flat_map]; [constructor|]. apply once_app; [|exact IH|].
    - unfold node_ports. destruct (contains h n); [|constructor]. apply FinFun.Injective_map_NoDup; [|apply seq_NoDup]. intros a b E. congruence.
    - intros p Ip J. apply (node_ports_iff h) in Ip. apply in_flat_map in J. destruct J as (m & Im & J). apply (node_ports_iff h) in J. destruct Ip as (_ & X & _), J as (_ & Y & _). apply I. rewrite <- X, Y. exact Im.
  Qed.

  (** The boundary of a set of nodes: the ports inside that are linked with the outside, each for itself. *)
  Theorem boundary_exact : forall nodes ns ins outs, boundary_from_nodes h nodes = Some (ns, ins, outs) ->
    (forall n, In n ns <-> In n nodes) /\ NoDup ns /\
    (exists ps, ins = map (fun e => [e]) ps /\ NoDup ps /\ forall e, In e ps <-> crosses_in h ns e) /\
    NoDup outs /\ (forall e, In e outs <-> crosses_out h ns e) /\
    (forall e, In (fst e) ns -> valid_port h (fst e) Inc (snd e) = true -> length (linked_outputs h (fst e) (snd e)) <= 1).
  Proof.
    intros nodes ns ins outs E. unfold boundary_from_nodes in E. cbv zeta in E. set (N0 := dedup [] nodes) in *.
    match type of E with context [opt_filter ?f ?l] => destruct (opt_filter f l) as [a|] eqn:A; [|discriminate] end.
    match type of E with context [opt_filter ?f (flat_map (node_ports h Out) N0)] => destruct (opt_filter f (flat_map (node_ports h Out) N0)) as [b|] eqn:B; [|discriminate] end.
    injection E as <- <- <-.
    apply opt_filter_some in A. destruct A as [-> A]. apply opt_filter_some in B. destruct B as [-> B].
    assert (Nd : NoDup N0) by apply dedup_once.
    assert (Snd : forall d l, NoDup l -> (forall p : port, In p l -> fst p = d) -> NoDup (map snd l)).
    { intros d l N_ H. induction N_ as [|[c e] l I N_ IH]; cbn [map]; constructor.
      - intros J. apply in_map_iff in J. destruct J as ([c' e'] & X & J). cbn in X. subst e'. apply I. pose proof (H _ (or_introl eq_refl)) as X. pose proof (H _ (or_intror J)) as Y. cbn in X, Y. subst c c'. exact J.
      - apply IH. intros p J. apply H. now right. }
    assert (Src : forall e, In (fst e) N0 -> valid_port h (fst e) Inc (snd e) = true -> length (linked_outputs h (fst e) (snd e)) <= 1).
    { intros e I V. assert (Ip : In (Inc, e) (flat_map (node_ports h Inc) N0)) by (apply in_flat_map; exists (fst e); split; [exact I|]; apply node_ports_iff; auto).
      specialize (A _ Ip). cbn [fst snd] in A. destruct (is_linked h (Inc, e)) as [[|]|] eqn:L; [| |congruence].
      - unfold source_of in A. rewrite V in A. unfold single_linked_output in A. destruct (linked_outputs h (fst e) (snd e)) as [|s [|]]; cbn; try lia. congruence.
      - unfold is_linked, other_ends in L. rewrite V in L. destruct (linked_outputs h (fst e) (snd e)); cbn in *; [lia|discriminate]. }
    split; [intros n; unfold N0; rewrite dedup_iff; cbn; tauto|]. split; [exact Nd|]. split; [|split; [|split; [|exact Src]]].
    - eexists. split; [symmetry; apply (map_map snd (fun e : endpoint => [e]))|]. split.
      + apply (Snd Inc); [apply NoDup_filter, node_ports_once, Nd|]. intros p I. apply filter_In in I. destruct I as [I _]. apply in_flat_map in I. destruct I as (n & _ & I). now apply (node_ports_iff h) in I.
      + intros e. rewrite in_map_iff. split.
        * intros ([d e'] & X & I). cbn in X. subst e'. apply filter_In in I. destruct I as [I F]. apply in_flat_map in I. destruct I as (n & In_ & I). apply (node_ports_iff h) in I. cbn [fst snd] in I. destruct I as (-> & <- & V).
          split; [exact In_|]. cbn [fst snd] in F. destruct (is_linked h (Inc, e)) as [[|]|] eqn:L; try discriminate. destruct (source_of h e) as [s|] eqn:S_; [|discriminate]. cbn in F. exists s. split.
          -- apply (source_iff h W) in S_. assert (J : In s (linked_outputs h (fst e) (snd e))) by (rewrite S_; now left). apply linked_outputs_iff in J. now destruct e.
          -- unfold outside in F. destruct (memN (fst s) N0) eqn:Q; [discriminate|]. rewrite <- memN_iff. congruence.
        * intros (I & s & L & O). exists (Inc, e). split; [reflexivity|]. pose proof (wf_links h W _ L) as [_ Vi]. cbn [snd] in Vi.
          assert (V : valid_port h (fst e) Inc (snd e) = true).
          { unfold valid_port, contains. rewrite (proj2 (memN_iff _ _) (proj1 Vi)). apply Nat.ltb_lt. exact (proj2 Vi). }
          apply filter_In. split; [apply in_flat_map; exists (fst e); split; [exact I|]; apply node_ports_iff; auto|]. cbn [fst snd].
          assert (J : is_linked h (Inc, e) = Some true) by (apply is_linked_iff; exists (fst s), (snd s); now destruct s). rewrite J.
          assert (Lo : In s (linked_outputs h (fst e) (snd e))) by (apply linked_outputs_iff; now destruct e). pose proof (Src e I V) as Le.
          unfold source_of. rewrite V. unfold single_linked_output. destruct (linked_outputs h (fst e) (snd e)) as [|s' [|]]; cbn in Le; try lia; [destruct Lo|]. destruct Lo as [->|[]]. cbn. unfold outside.
          destruct (memN (fst s) N0) eqn:Q; [|reflexivity]. apply memN_iff in Q. contradiction.
    - apply (Snd Out); [apply NoDup_filter, node_ports_once, Nd|]. intros p I. apply filter_In in I. destruct I as [I _]. apply in_flat_map in I. destruct I as (n & _ & I). now apply (node_ports_iff h) in I.
    - intros e. rewrite in_map_iff. split.
      + intros ([d e'] & X & I). cbn in X. subst e'. apply filter_In in I. destruct I as [I F]. apply in_flat_map in I. destruct I as (n & In_ & I). apply (node_ports_iff h) in I. cbn [fst snd] in I. destruct I as (-> & <- & V).
        split; [exact In_|]. destruct (other_ends h (Out, e)) as [l|] eqn:L; [|discriminate]. cbn in F. destruct (existsb (outside N0) l) eqn:X; [|discriminate]. apply existsb_outside in X.
        destruct X as (m & Im & O). apply (other_ends_spec h _ _ L) in Im. destruct Im as (j & Il). exists (m, j). auto.
      + intros (I & t & L & O). exists (Out, e). split; [reflexivity|]. pose proof (wf_links h W _ L) as [Vo _]. cbn [fst] in Vo.
        assert (V : valid_port h (fst e) Out (snd e) = true).
        { unfold valid_port, contains. rewrite (proj2 (memN_iff _ _) (proj1 Vo)). apply Nat.ltb_lt. exact (proj2 Vo). }
        apply filter_In. split; [apply in_flat_map; exists (fst e); split; [exact I|]; apply node_ports_iff; auto|].
        destruct (proj2 (other_ends_valid h (Out, e)) V) as (l & El). rewrite El. cbn. assert (X : existsb (outside N0) l = true); [|now rewrite X].
        apply existsb_outside. exists (fst t). split; [|exact O]. apply (other_ends_spec h _ _ El). exists (snd t). now destruct t.
  Qed.

  (** Together with the nodes it is accepted, if they are siblings and only values cross. *)
  Theorem boundary_accepted : forall nodes ns ins outs, boundary_from_nodes h nodes = Some (ns, ins, outs) -> nodes <> [] ->
    (forall a b, In a nodes -> In b nodes -> get_parent h a = get_parent h b) ->
    (forall e, crosses_in h nodes e -> value_port h Inc e /\ exists t, port_type h Inc e = Some t) ->
    (forall e, crosses_out h nodes e -> value_port h Out e) ->
    validate_subgraph h ns ins outs [] = Some None.
  Proof.
    intros nodes ns ins outs E Ne P I O. destruct (boundary_exact _ _ _ _ E) as (A & B & (ps & -> & C & D) & F & G & S_).
    assert (Ci : forall e, crosses_in h ns e -> crosses_in h nodes e).
    { intros e (X & s & L & Y). split; [now apply A|]. exists s. split; [exact L|]. now rewrite <- A. }
    assert (Co : forall e, crosses_out h ns e -> crosses_out h nodes e).
    { intros e (X & s & L & Y). split; [now apply A|]. exists s. split; [exact L|]. now rewrite <- A. }
    assert (Part : forall part e, In part (map (fun e => [e]) ps) -> In e part -> In e ps /\ part = [e]).
    { intros part e J K. apply in_map_iff in J. destruct J as (x & <- & J). destruct K as [<-|[]]. auto. }
    apply (validate_subgraph_iff h W). constructor.
    - intros ->. destruct nodes as [|n nodes]; [congruence|]. destruct (proj2 (A n) (or_introl eq_refl)).
    - intros a b Ia Ib. apply P; now apply A.
    - intros part e J K. destruct (Part part e J K) as [X _]. apply I, Ci, D, X.
    - intros e J. apply O, Co, G, J.
    - intros part e J K. destruct (Part part e J K) as [X _]. now apply D.
    - intros e J. now apply G.
    - intros e X. exists [e]. rewrite app_nil_r. split; [|now left]. apply in_map_iff. exists e. split; [reflexivity|]. now apply D.
    - intros e X. now apply G.
    - replace (concat (map (fun e => [e]) ps)) with ps; [exact C|]. clear. induction ps as [|e ps IH]; [reflexivity|]. cbn. now f_equal.
    - intros part J. apply in_map_iff in J. destruct J as (e & <- & J). pose proof (proj1 (D e) J) as X. split; [discriminate|]. split.
      + destruct X as (X & s & L & Y). exists s. intros e' [<-|[]]. assert (V : valid_port h (fst e) Inc (snd e) = true) by (apply valid_port_in; exact (proj2 (wf_links h W _ L))).
        pose proof (S_ e X V) as Le. assert (K : In s (linked_outputs h (fst e) (snd e))) by (apply linked_outputs_iff; now destruct e).
        destruct (linked_outputs h (fst e) (snd e)) as [|s' [|]]; cbn in Le; try lia; [destruct K|]. destruct K as [->|[]]. reflexivity.
      + destruct (I e (Ci e X)) as (_ & t & T). exists t. split; [intros e' [<-|[]]; exact T|]. cbn. lia.
    - intros group [].
  Qed.

  (** Changing the outputs: exactly outputs of the subgraph may be listed, those of linear types at most once. *)
  Theorem set_outgoing_iff : forall sg ports sg', set_outgoing_ports h sg ports = SetOk sg' <->
    incl ports (sg_out sg) /\ NoDup (filter (fun e => match port_kind (h_ops h (fst e)) Out (snd e) with Some k => k_linear k | None => false end) ports) /\
    sg' = {| sg_nodes := sg_nodes sg; sg_in := sg_in sg; sg_out := ports |}.
  Proof.
    intros sg ports sg'. unfold set_outgoing_ports. destruct (find _ ports) as [e|] eqn:F.
    - apply find_some in F. destruct F as [I E]. apply negb_true_iff in E. split; [discriminate|]. intros (X & _). apply X in I. fold (mem_ep e (sg_out sg)) in E.
      apply mem_ep_iff in I. congruence.
    - assert (X : incl ports (sg_out sg)).
      { intros e I. pose proof (proj1 (find_none _ _ _) F e I) as E. apply negb_false_iff in E. now apply mem_ep_iff. }
      unfold unique_linear. match goal with |- context [unique ?l] => destruct (unique l) eqn:U end.
      + apply unique_iff in U. split; [intros E; injection E as <-; auto|]. intros (_ & _ & ->). reflexivity.
      + split; [discriminate|]. intros (_ & Y & _). apply unique_iff in Y. congruence.
  Qed.
End Made.

(** ** Single nodes *)
Lemma function_input : forall o ks f, ports o Inc ks -> In (EFunction f) ks -> is_function (static_port_kind o Inc) = true.
Proof.
  intros o ks f Pk Ek. assert (Vn : forall r g, ~ In (EFunction g) (values r)) by (intros r g Z; apply in_map_iff in Z; destruct Z as (t & Z & _); discriminate).
  inversion Pk; subst; cbn; try reflexivity; exfalso; cbn in Ek;
    repeat (rewrite ?in_app_iff in Ek; cbn in Ek; match type of Ek with _ \/ _ => destruct Ek as [Ek|Ek] | False => destruct Ek | _ = _ => discriminate | In _ _ => exact (Vn _ _ Ek) end).
Qed.

Section Single.
  Context {M : Type}.
  Notation hugr := (hugr op M).
  Variable env : N -> N -> option typedef.
  Variable defs : N -> N -> opsig.
  Variable h : hugr.
  Hypothesis W : wf h.
  Hypothesis V : valid env defs h.
  Variables n parent : N.
  Hypothesis P : h_parent h n = Some parent.
  Hypothesis F : flow_parent (h_ops h parent) = true.
  Hypothesis K : h_kids h n = [].
  Hypothesis Ne : n <> h_entry h.

  Lemma no_loop : forall a b, ~ In ((n, a), (n, b)) (h_links h).
  Proof.
    intros a b L. destruct (proj1 (proj2 (op_tag_region (h_ops h parent) [] [])) F) as (x & y & R). destruct (wf_parent_live h W n parent P) as (_ & Ip & _).
    destruct (v_region _ _ _ V parent Ip x y R) as [_ A]. apply (A n). apply t_step. split; [exact P|]. split; [exact P|]. eauto.
  Qed.

  Lemma live : In n (h_nodes h).
  Proof. exact (proj1 (wf_parent_live h W n parent P)). Qed.

  Lemma order_none : forall d, order_linked h n d = Some false -> forall i, other_port (h_ops h n) d = Some i -> forall m, ~ joined h (d, (n, i)) m.
  Proof.
    intros d E i Ei m J. unfold order_linked in E. rewrite Ei in E. destruct (valid_port h n d i); [|discriminate]. injection E as E. apply not_true_iff_false in E. apply E, existsb_exists.
    unfold joined in J. cbn [fst snd] in J. destruct d; destruct J as (j & J); eexists; (split; [exact J|]); unfold at_port; cbn [fst snd]; now apply ep_eqb_iff.
  Qed.

  Lemma node_kind : forall d i k, kind_at h n d i k -> k <> EControl.
  Proof.
    intros d i k (ks & Pk & E) ->. apply nth_error_In in E. pose proof (v_tree _ _ _ V n parent P) as T. destruct (proj1 (proj2 (op_tag_region (h_ops h parent) [] [])) F) as (x & y & R).
    assert (Vn : forall r, ~ In EControl (values r)) by (intros r X; apply in_map_iff in X; destruct X as (t & X & _); discriminate).
    inversion T; subst; try (match goal with X : _ = h_ops h parent |- _ => rewrite <- X in R; inversion R end; fail);
      repeat match goal with X : in_dataflow _ |- _ => inversion X; clear X end; 
      match goal with X : _ = h_ops h n |- _ => rewrite <- X in Pk end; inversion Pk; subst; cbn in E;
      repeat (rewrite ?in_app_iff in E; cbn in E; match type of E with _ \/ _ => destruct E as [E|E] | False => destruct E | _ = _ => discriminate | In _ _ => exact (Vn _ E) end).
  Qed.

  (** What is linked at the node, if there are no orders. *)
  Lemma linked_kind : forall d i m, order_linked h n d = Some false -> joined h (d, (n, i)) m -> exists k, kind_at h n d i k /\ (k_value k = true \/ k_static k = true).
  Proof.
    intros d i m O J. assert (X : exists k, kind_at h n d i k).
    { unfold joined in J. cbn [fst snd] in J. destruct d; destruct J as (j & J); destruct (v_links _ _ _ V _ _ _ _ J) as (k & A & B & _); eauto. }
    destruct X as (k & X). exists k. split; [exact X|]. destruct k; try (now left); try (now right); [destruct (node_kind _ _ _ X eq_refl)|].
    exfalso. destruct (flow_port env defs h V n d i _ live X Logic.I) as (q & Q & _ & _ & U). rewrite (U i X) in *. exact (order_none d O q Q m J).
  Qed.

  Theorem from_node_ok : forall sg, from_node h n = Some sg -> subgraph_ok h sg parent /\ sg_nodes sg = [n].
  Proof.
    intros sg E. unfold from_node in E. destruct (get_optype h n) as [op_|] eqn:G; [|discriminate].
    destruct (opt_filter (is_linked h) (node_ports h Inc n)) as [ins|] eqn:A; [|discriminate].
    match type of E with context [opt_filter ?f (node_ports h Out n)] => destruct (opt_filter f (node_ports h Out n)) as [outs|] eqn:B; [|discriminate] end.
    destruct (forallb _ _); [|discriminate]. destruct (order_linked h n Out) as [[|]|] eqn:Oo; try discriminate. destruct (order_linked h n Inc) as [[|]|] eqn:Oi; try discriminate.
    injection E as <-. apply opt_filter_some in A. destruct A as [-> _]. apply opt_filter_some in B. destruct B as [-> _]. split; [|reflexivity].
    match goal with |- subgraph_ok h ?s parent => set (sg := s) end.
    assert (In_ : forall p part, nth_error (sg_in sg) p = Some part -> exists i k, part = [(n, i)] /\ kind_at h n Inc i k /\ exists s, linked_outputs h n i = [s] /\ fst s <> n).
    { intros p part X. apply nth_error_In in X. apply in_map_iff in X. destruct X as ([d [n' i]] & <- & X). apply filter_In in X. destruct X as [X C]. apply filter_In in X. destruct X as [X L].
      apply (node_ports_iff h) in X. cbn [fst snd] in X. destruct X as (-> & -> & Vp). assert (L' : is_linked h (Inc, (n, i)) = Some true) by (unfold holds in L; match type of L with context [match ?x with _ => _ end] => destruct x as [[|]|] eqn:LL end; [exact LL|discriminate|discriminate]).
      apply (is_linked_iff h W) in L'. destruct L' as (m & J). destruct (linked_kind Inc i m Oi J) as (k & Kk & Kv). exists i, k. split; [reflexivity|]. split; [exact Kk|].
      assert (One : length (in_links h (n, i)) = 1).
      { pose proof (v_inputs _ _ _ V n i k live Kk) as Y. destruct k; try (destruct Kv; discriminate); try exact Y. exfalso.
        apply negb_true_iff in C. unfold call_port in C. cbn [fst snd] in C. destruct Kk as (ks & Pk & Ek).
        rewrite (proj2 (is_port_iff _ _) (proj2 (op_static_port _ _ _ Pk i) (ex_intro _ _ (conj Ek eq_refl)))) in C. cbn [andb] in C.
        apply nth_error_In in Ek. rewrite (function_input _ _ _ Pk Ek) in C. discriminate. }
      assert (El : linked_outputs h n i = map fst (in_links h (n, i))) by reflexivity. rewrite El. destruct (in_links h (n, i)) as [|l [|]] eqn:Q; try discriminate. exists (fst l). split; [reflexivity|].
      assert (Il : In l (in_links h (n, i))) by (rewrite Q; now left). apply filter_In in Il. destruct Il as [Il Ee]. apply ep_eqb_iff in Ee. destruct l as [[a b] t]. cbn [fst snd] in *. subst t. intros ->. exact (no_loop _ _ Il). }
    assert (Out_ : forall e, In e (sg_out sg) -> fst e = n /\ valid_port h n Out (snd e) = true).
    { intros e X. apply in_map_iff in X. destruct X as ([d e'] & <- & X). apply filter_In in X. destruct X as [X _]. apply (node_ports_iff h) in X. cbn [fst snd] in *. tauto. }
    constructor.
    - exact F.
    - discriminate.
    - constructor; [intros []|constructor].
    - intros x [<-|[]]. auto.
    - intros p part X. destruct (In_ p part X) as (i & k & -> & Kk & s & L & N_). split; [discriminate|]. exists s. split; [intros [Y|[]]; congruence|].
      intros e [a b] [<-|[]] Il Eb. cbn [fst snd] in *. subst b. apply linked_outputs_iff in Il. rewrite L in Il. destruct Il as [<-|[]]. reflexivity.
    - intros p part e X I. destruct (In_ p part X) as (i & k & -> & Kk & s & L & N_). destruct I as [<-|[]]. split; [now left|]. cbn [fst snd]. now rewrite L.
    - cbn [sg_out sg]. pose proof (node_ports_once h Out [n] ltac:(constructor; [intros []|constructor])) as N_. cbn [flat_map] in N_. rewrite app_nil_r in N_.
      match goal with |- NoDup (map snd (filter ?f ?l)) => assert (Z : forall p : port, In p (filter f l) -> fst p = Out) by (intros p X; apply filter_In in X; destruct X as [X _]; now apply (node_ports_iff h) in X);
        apply (NoDup_filter f) in N_; revert N_ Z; generalize (filter f l) end.
      intros l N_ Z. induction N_ as [|[c e] l I N_ IH]; cbn [map]; constructor.
      + intros J. apply in_map_iff in J. destruct J as ([c' e'] & X & J). cbn in X. subst e'. apply I. pose proof (Z _ (or_introl eq_refl)) as X. pose proof (Z _ (or_intror J)) as Y. cbn in X, Y. subst c c'. exact J.
      + apply IH. intros p J. apply Z. now right.
    - intros e X. destruct (Out_ e X) as [E1 E2]. split; [now left|]. destruct e as [a b]. cbn [fst snd] in *. subst a. split; [exact live|]. unfold valid_port in E2. apply andb_true_iff in E2. destruct E2 as [_ E2]. apply Nat.ltb_lt in E2. exact E2.
    - intros [[a b] t] L [X|[]] N_. cbn [fst snd] in *. subst a. cbn [sg_out sg]. apply in_map_iff. exists (Out, (n, b)). split; [reflexivity|]. apply filter_In. split.
      + apply node_ports_iff. cbn [fst snd]. split; [reflexivity|]. split; [reflexivity|]. apply valid_port_out. exact (proj1 (wf_links h W _ L)).
      + assert (J : is_linked h (Out, (n, b)) = Some true) by (apply (is_linked_iff h W); exists (fst t), (snd t); now destruct t). now rewrite J.
  Qed.

  (** The signature of the subgraph is that of the node, unless the node loads a constant. *)
  Lemma value_index : forall s d i k, dataflow_signature (h_ops h n) = Some s -> kind_at h n d i k ->
    (i < length (side d s) -> k_value k = true) /\ (length (side d s) <= i -> k_value k = false).
  Proof.
    intros s d i k S_ (ks & Pk & E). rewrite <- (layout_ports _ _ _ Pk) in E. unfold layout in E. rewrite nth_values in E. unfold sig_of in E. rewrite S_ in E.
    destruct (Nat.ltb_spec i (length (side d s))) as [L|L]; (split; [|]); try lia; intros _.
    - destruct (nth_error (side d s) i); [|discriminate]. injection E as <-. reflexivity.
    - apply nth_error_In in E. apply in_app_iff in E. destruct E as [E|E].
      + destruct d, (h_ops h n); cbn in E; try destruct E as [<-|[]]; try reflexivity; destruct E.
      + destruct (other_port_kind (h_ops h n) d) as [k'|] eqn:O; [|destruct E]. apply repeat_spec in E. subst k'. destruct d, (h_ops h n); cbn in O; try discriminate; injection O as <-; reflexivity.
  Qed.

  Lemma filter_seq : forall (f : port -> bool) d v w, (forall i, i < v -> f (d, (n, i)) = true) -> (forall i, v <= i -> i < v + w -> f (d, (n, i)) = false) ->
    filter f (map (fun i => ((d, (n, i)) : port)) (seq 0 (v + w))) = map (fun i => ((d, (n, i)) : port)) (seq 0 v).
  Proof.
    intros f d v w A B. rewrite seq_app, map_app, filter_app. cbn [Nat.add].
    assert (X : filter f (map (fun i => ((d, (n, i)) : port)) (seq 0 v)) = map (fun i => ((d, (n, i)) : port)) (seq 0 v)).
    { assert (Y : forall i, In i (seq 0 v) -> f (d, (n, i)) = true) by (intros i I; apply in_seq in I; apply A; lia). revert Y. generalize (seq 0 v). induction l as [|i l IH]; intros Y; [reflexivity|].
      cbn [map filter]. rewrite (Y i (or_introl eq_refl)). f_equal. apply IH. intros j J. apply Y. now right. }
    assert (Z : filter f (map (fun i => ((d, (n, i)) : port)) (seq v w)) = []).
    { assert (Y : forall i, In i (seq v w) -> f (d, (n, i)) = false) by (intros i I; apply in_seq in I; apply B; lia). revert Y. generalize (seq v w). induction l as [|i l IH]; intros Y; [reflexivity|].
      cbn [map filter]. rewrite (Y i (or_introl eq_refl)). apply IH. intros j J. apply Y. now right. }
    transitivity (map (fun i => ((d, (n, i)) : port)) (seq 0 v) ++ []); [|apply app_nil_r]. f_equal; assumption.
  Qed.

  Lemma ports_split : forall s d, dataflow_signature (h_ops h n) = Some s -> exists w, num_ports h n d = length (side d s) + w.
  Proof.
    intros s d S_. destruct (v_ports _ _ _ V n live) as (ki & ko & Pi & Po & Ei & Eo). exists (num_ports h n d - length (side d s)).
    assert (L : length (side d s) <= num_ports h n d); [|lia].
    assert (X : forall ks, ports (h_ops h n) d ks -> length (side d s) <= length ks).
    { intros ks Pk. rewrite <- (layout_ports _ _ _ Pk). unfold layout, sig_of, values. rewrite S_, app_length, map_length. lia. }
    destruct d; cbn [num_ports]; [rewrite Ei; now apply X|rewrite Eo; now apply X].
  Qed.

  Lemma kind_exists : forall d i, i < num_ports h n d -> exists k, kind_at h n d i k.
  Proof.
    intros d i L. destruct (v_ports _ _ _ V n live) as (ki & ko & Pi & Po & Ei & Eo). destruct d; cbn [num_ports] in L.
    - rewrite Ei in L. destruct (nth_error ki i) as [k|] eqn:E; [|apply nth_error_None in E; lia]. exists k, ki. auto.
    - rewrite Eo in L. destruct (nth_error ko i) as [k|] eqn:E; [|apply nth_error_None in E; lia]. exists k, ko. auto.
  Qed.

  Lemma all_some_seq : forall A (r : list A) (f : nat -> option A), (forall i, i < length r -> f i = nth_error r i) -> all_some (map f (seq 0 (length r))) = Some r.
  Proof.
    intros A r. assert (X : forall (r : list A) k f, (forall i, i < length r -> f (k + i) = nth_error r i) -> all_some (map f (seq k (length r))) = Some r).
    { clear. induction r as [|x r IH]; intros k f H; [reflexivity|]. cbn [length seq map all_some]. specialize (IH (Datatypes.S k) f).
      pose proof (H 0 ltac:(cbn; lia)) as Y. rewrite Nat.add_0_r in Y. rewrite Y. cbn [nth_error]. unfold all_some in *. cbn [fold_right]. rewrite IH; [reflexivity|]. intros i L. specialize (H (Datatypes.S i) ltac:(cbn; lia)). cbn [nth_error] in H. rewrite <- H. f_equal. lia. }
    intros f H. apply X. exact H.
  Qed.

  Theorem from_node_signature : forall sg s, from_node h n = Some sg -> dataflow_signature (h_ops h n) = Some s -> (forall t, h_ops h n <> OLoadConstant t) ->
    sg_in sg = map (fun i => [(n, i)]) (seq 0 (length (fst s))) /\ sg_out sg = map (fun i => (n, i)) (seq 0 (length (snd s))) /\ sg_signature h sg = Some s.
  Proof.
    intros sg s E S_ Nl. assert (X : sg_in sg = map (fun i => [(n, i)]) (seq 0 (length (fst s))) /\ sg_out sg = map (fun i => (n, i)) (seq 0 (length (snd s)))).
    { unfold from_node in E. destruct (get_optype h n) as [op_|] eqn:G; [|discriminate].
      destruct (opt_filter (is_linked h) (node_ports h Inc n)) as [ins|] eqn:A; [|discriminate].
      match type of E with context [opt_filter ?f (node_ports h Out n)] => destruct (opt_filter f (node_ports h Out n)) as [outs|] eqn:B; [|discriminate] end.
      destruct (forallb _ _); [|discriminate]. destruct (order_linked h n Out) as [[|]|] eqn:Oo; try discriminate. destruct (order_linked h n Inc) as [[|]|] eqn:Oi; try discriminate.
      injection E as <-. apply opt_filter_some in A. destruct A as [-> _]. apply opt_filter_some in B. destruct B as [-> _]. cbn [sg_in sg_out].
      unfold node_ports. rewrite (proj2 (contains_iff h n) live). destruct (ports_split s Inc S_) as (wi & Wi). destruct (ports_split s Out S_) as (wo & Wo). rewrite Wi, Wo. cbn [side]. split.
      - rewrite filter_filter.
        match goal with |- map _ (filter ?f _) = _ => rewrite (filter_seq f) end; [rewrite map_map; reflexivity| |].
        + intros i L. destruct (kind_exists Inc i) as (k & Kk); [rewrite Wi; cbn [side]; lia|]. pose proof (proj1 (value_index s Inc i k S_ Kk) L) as Kv.
          assert (J : is_linked h (Inc, (n, i)) = Some true).
          { pose proof (v_inputs _ _ _ V n i k live Kk) as Y. destruct k; try discriminate. apply (is_linked_iff h W). destruct (in_links h (n, i)) as [|l [|]] eqn:Q; try discriminate.
            assert (Il : In l (in_links h (n, i))) by (rewrite Q; now left). apply filter_In in Il. destruct Il as [Il Ee]. apply ep_eqb_iff in Ee. destruct l as [[a0 b0] t0]. cbn [fst snd] in *. subst t0. exists a0, b0. exact Il. }
          rewrite J. cbn [holds andb]. unfold call_port. cbn [fst snd]. unfold static_port, value_port_count, sig_of. rewrite S_. destruct (static_port_kind (h_ops h n) Inc); [|reflexivity]. cbn [is_port side].
          destruct (Nat.eqb_spec (length (fst s)) i); [lia|reflexivity].
        + intros i L _. destruct (holds (is_linked h (Inc, (n, i)))) eqn:Q; [|reflexivity]. cbn [andb]. apply negb_false_iff.
          assert (J : is_linked h (Inc, (n, i)) = Some true) by (unfold holds in Q; match type of Q with context [match ?x with _ => _ end] => destruct x as [[|]|] eqn:LL end; [reflexivity|discriminate|discriminate]).
          apply (is_linked_iff h W) in J. destruct J as (m & J). destruct (linked_kind Inc i m Oi J) as (k & Kk & Kv). rewrite (proj2 (value_index s Inc i k S_ Kk) L) in Kv. destruct Kv as [Kv|Kv]; [discriminate|].
          destruct Kk as (ks & Pk & Ek). unfold call_port. cbn [fst snd]. rewrite (proj2 (is_port_iff _ _) (proj2 (op_static_port _ _ _ Pk i) (ex_intro _ _ (conj Ek Kv)))). cbn [andb].
          apply nth_error_In in Ek. destruct k; try discriminate; [|exact (function_input _ _ _ Pk Ek)]. exfalso.
          assert (Vn : forall r g, ~ In (EConst g) (values r)) by (intros r g Z; apply in_map_iff in Z; destruct Z as (t' & Z & _); discriminate).
          inversion Pk; subst; cbn in Ek; try (match goal with Y : OLoadConstant ?t = _ |- _ => exact (Nl t (eq_sym Y)) end);
            repeat (rewrite ?in_app_iff in Ek; cbn in Ek; match type of Ek with _ \/ _ => destruct Ek as [Ek|Ek] | False => destruct Ek | _ = _ => discriminate | In _ _ => exact (Vn _ _ Ek) end).
      - match goal with |- map _ (filter ?f _) = _ => rewrite (filter_seq f) end; [rewrite map_map; reflexivity| |].
        + intros i L. cbn [fst snd]. destruct (proj2 (other_ends_valid h (Out, (n, i)))) as (l & El).
          { cbn [fst snd]. unfold valid_port. rewrite (proj2 (contains_iff h n) live). apply Nat.ltb_lt. rewrite Wo. cbn [side]. lia. }
          unfold is_linked. rewrite El. cbn [option_map]. unfold port_kind, value_port_count, sig_of. rewrite S_. cbn [side]. destruct (Nat.ltb_spec i (length (snd s))) as [_|X]; [|lia].
          destruct (nth_error (snd s) i) as [t|] eqn:T; [|apply nth_error_None in T; lia]. cbn [option_map k_value]. now rewrite orb_true_r.
        + intros i L L'. cbn [fst snd]. destruct (kind_exists Out i) as (k & Kk); [rewrite Wo; cbn [side]; exact L'|]. pose proof (proj2 (value_index s Out i k S_ Kk) L) as Kv.
          destruct (is_linked h (Out, (n, i))) as [[|]|] eqn:J; cbn [option_map orb holds]; [| |reflexivity].
          * exfalso. apply (is_linked_iff h W) in J. destruct J as (m & J). destruct (linked_kind Out i m Oo J) as (k' & Kk' & Kv'). rewrite (kind_unique h _ _ _ _ _ Kk' Kk) in Kv'. rewrite Kv in Kv'. destruct Kv' as [Kv'|Kv']; [discriminate|].
            destruct Kk as (ks & Pk & Ek). apply nth_error_In in Ek. rewrite <- (layout_ports _ _ _ Pk) in Ek. unfold layout in Ek. rewrite !in_app_iff in Ek. unfold sig_of in Ek. rewrite S_ in Ek.
            destruct Ek as [Ek|[Ek|Ek]]; [apply in_map_iff in Ek; destruct Ek as (t & <- & _); discriminate| |].
            -- destruct (h_ops h n); cbn in Ek, S_; try destruct Ek; discriminate.
            -- destruct (other_port_kind (h_ops h n) Out) as [k''|] eqn:O; [|destruct Ek]. apply repeat_spec in Ek. subst k''. destruct (h_ops h n); cbn in O; try discriminate; injection O as <-; discriminate.
          * unfold port_kind, value_port_count, sig_of. rewrite S_. cbn [side]. destruct (Nat.ltb_spec i (length (snd s))) as [X|_]; [lia|].
            assert (Z : static_port_kind (h_ops h n) Out = None) by (destruct (h_ops h n); cbn in S_ |- *; congruence). rewrite Z.
            replace (if Nat.eqb i (length (snd s)) then None else None) with (@None ekind) by (now destruct (Nat.eqb i (length (snd s)))).
            destruct (h_ops h n); cbn; try reflexivity; discriminate. }
    destruct X as [Xi Xo]. split; [exact Xi|]. split; [exact Xo|]. unfold sg_signature. rewrite Xi, Xo, !map_map.
    rewrite (all_some_seq _ (fst s)), (all_some_seq _ (snd s)); [now destruct s| |]; intros i L; unfold port_type; cbn [fst snd]; now rewrite S_.
  Qed.
End Single.
