(** Accepted subgraphs and valid replacements. *)
From Coq Require Import List Bool NArith Arith Lia Permutation Relations.
From Verif Require Import TagModel TypesModel TypesProofs GraphModel GraphSpec GraphProofs GraphRemove GraphProps Graphs OpModel OpSpec OpProofs OpProps DeadModel DeadProofs
  ValidModel ValidSpec ValidProofs ValidEdges ValidProps InlineModel InlineSpec InlineProofs InlineFacts ReplaceModel ReplaceSpec ReplaceProofs SubgraphModel SubgraphProofs.
Import ListNotations.

Section Accepted.
  Context {M : Type}.
  Notation hugr := (hugr op M).

  Lemma valid_rewrite_iff : forall (h : hugr) sg, wf h -> (is_valid_rewrite h sg = Some None <-> exists parent, sg_parent h sg = Some parent /\
    flow_parent (h_ops h parent) = true /\ forall n, In n (sg_nodes sg) -> h_parent h n = Some parent /\ h_kids h n = []).
  Proof.
    intros h sg W. unfold is_valid_rewrite. destruct (sg_parent h sg) as [parent|] eqn:E.
    - assert (G : forall n p, get_parent h n = Some p <-> h_parent h n = Some p).
      { intros n p. unfold get_parent, contains. split.
        - destruct (memN n (h_nodes h) && negb (N.eqb n (h_root h))); [auto|discriminate].
        - intros P. destruct (wf_parent_live h W n p P) as (I & _ & R). apply memN_iff in I. rewrite I. destruct (N.eqb_spec n (h_root h)) as [->|_]; [contradiction|exact P]. }
      destruct (flow_parent (h_ops h parent)) eqn:F; cbn [negb].
      + match goal with |- context [forallb ?f ?l] => destruct (forallb f l) eqn:X end.
        * rewrite forallb_forall in X. split; [|reflexivity]. intros _. exists parent. split; [reflexivity|]. split; [exact F|]. intros n I. specialize (X n I). apply andb_true_iff in X. destruct X as [X Y].
          destruct (get_parent h n) as [p|] eqn:P; [|discriminate]. apply N.eqb_eq in X. subst p. split; [now apply G|]. destruct (h_kids h n); [reflexivity|discriminate].
        * split; [discriminate|]. intros (p & Ep & _ & H). injection Ep as <-. exfalso. apply not_true_iff_false in X. apply X, forallb_forall. intros n I. destruct (H n I) as [P K].
          rewrite (proj2 (G n parent) P), N.eqb_refl, K. reflexivity.
      + split; [discriminate|]. intros (p & Ep & F' & _). congruence.
    - split; [discriminate|]. intros (p & Ep & _). discriminate.
  Qed.

  Theorem accepted_subgraph_ok : forall (h : hugr) sg calls, wf h ->
    validate_subgraph h (sg_nodes sg) (sg_in sg) (sg_out sg) calls = Some None -> is_valid_rewrite h sg = Some None ->
    NoDup (sg_nodes sg) -> NoDup (sg_out sg) -> ~ In (h_entry h) (sg_nodes sg) ->
    exists parent, sg_parent h sg = Some parent /\ subgraph_ok h sg parent.
  Proof.
    intros h sg calls W A R Dn Do Ne. apply (validate_subgraph_iff h W) in A. destruct A as [G1 G2 G3 G4 G5 G6 G7 G8 G9 G10 G11].
    apply (valid_rewrite_iff h sg W) in R. destruct R as (parent & E & F & H). exists parent. split; [exact E|]. constructor; auto.
    - intros n G. destruct (H n G) as [P K]. split; [exact P|]. split; [exact K|]. intros ->. contradiction.
    - intros p part Ep. apply nth_error_In in Ep. destruct (G10 part Ep) as (B & (s & C) & _). split; [exact B|]. exists s. split.
      + destruct part as [|e part]; [congruence|]. destruct (G5 _ e Ep (or_introl eq_refl)) as (_ & s' & L & N_). specialize (C e (or_introl eq_refl)).
        assert (X : In s' (linked_outputs h (fst e) (snd e))) by (apply linked_outputs_iff; now destruct e). rewrite C in X. destruct X as [<-|[]]. exact N_.
      + intros e [a b] I L X. cbn in X. subst b. specialize (C e I). assert (X : In a (linked_outputs h (fst e) (snd e))) by (apply linked_outputs_iff; now destruct e).
        rewrite C in X. destruct X as [<-|[]]. reflexivity.
    - intros p part e Ep I. apply nth_error_In in Ep. destruct (G10 part Ep) as (_ & (s & C) & _). destruct (G5 part e Ep I) as (B & _). split; [exact B|]. now rewrite (C e I).
    - intros e I. destruct (G6 e I) as (B & t & L & _). split; [exact B|]. exact (proj1 (wf_links h W _ L)).
    - intros [a b] L G N_. cbn [fst snd] in *. apply G8. split; [exact G|]. exists b. auto.
  Qed.
End Accepted.

Section Replacement.
  Context {M : Type}.
  Notation hugr := (hugr op M).
  Variable env : N -> N -> option typedef.
  Variable defs : N -> N -> opsig.
  Variable repl : hugr.
  Hypothesis W : wf repl.
  Hypothesis V : valid env defs repl.
  Notation e := (h_entry repl).

  (** The links of the boundary nodes stay in the region. *)
  Definition own_boundary (i o : N) : Prop := forall l, In l (h_links repl) ->
    (fst (fst l) = i -> below repl (fst (snd l)) e /\ fst (snd l) <> e) /\ (fst (snd l) = o -> below repl (fst (fst l)) e /\ fst (fst l) <> e).

  Theorem valid_replacement_ok : forall ins outs sg, inner_signature (h_ops repl e) = Some (ins, outs) ->
    length (sg_in sg) = length ins -> length (sg_out sg) = length outs ->
    exists i o, get_io repl e = Some (i, o) /\ h_ops repl i = OInput ins /\ h_ops repl o = OOutput outs /\ (own_boundary i o -> replacement_ok repl sg i o).
  Proof.
    intros ins outs sg S_ Li Lo. pose proof (proj1 (proj1 (op_tag_region (h_ops repl e) ins outs)) S_) as R.
    assert (F : flow_parent (h_ops repl e) = true) by (apply (proj2 (op_tag_region (h_ops repl e) ins outs)); eauto).
    destruct (v_region _ _ _ V e (wf_entry repl W) ins outs R) as [(i & o & rest & K & Oi & Oo & Nb) _]. exists i, o. unfold get_io. rewrite F, K. do 3 (split; [auto|]). intros Own.
    assert (Pi : h_parent repl i = Some e) by (apply (wf_kids repl W); rewrite K; now left).
    assert (Po : h_parent repl o = Some e) by (apply (wf_kids repl W); rewrite K; right; now left).
    destruct (wf_parent_live repl W i e Pi) as (Ii & _). destruct (wf_parent_live repl W o e Po) as (Io & _).
    assert (PI : ports (h_ops repl i) Out (values ins ++ [EOrder])) by (rewrite Oi; constructor).
    assert (PO : ports (h_ops repl o) Inc (values outs ++ [EOrder])) by (rewrite Oo; constructor).
    assert (LV : forall r, length (values r) = length r) by (intros r; apply map_length).
    assert (KV : forall c d r p, ports (h_ops repl c) d (values r ++ [EOrder]) -> forall k, kind_at repl c d p k -> (p < length r <-> exists t, k = EValue t)).
    { intros c d r p P k (ks & P' & E). rewrite (ports_unique _ _ _ _ P' P) in E. destruct (Nat.lt_ge_cases p (length r)) as [L|L].
      - rewrite nth_error_app1 in E by (rewrite LV; lia). apply values_nth in E. tauto.
      - rewrite nth_error_app2 in E by (rewrite LV; lia). split; [lia|]. intros (t & ->). destruct (p - length (values r)) as [|[|]]; discriminate. }
    assert (Leaf : forall c, boundary (h_ops repl c) -> h_kids repl c = []).
    { intros c B. destruct (h_kids repl c) as [|x xs] eqn:X; [reflexivity|]. assert (P : h_parent repl x = Some c) by (apply (wf_kids repl W); rewrite X; now left).
      pose proof (v_tree _ _ _ V x c P) as T. destruct (h_ops repl c); try contradiction; inversion T; match goal with H : region _ _ _ |- _ => inversion H end. }
    assert (NoIn : forall s j, ~ In (s, (i, j)) (h_links repl)).
    { intros [s a] j L. destruct (v_links _ _ _ V s a i j L) as (k & _ & (ks & P & E) & _). rewrite Oi in P. inversion P; subst. destruct j; discriminate. }
    assert (NoOut : forall t a, ~ In ((o, a), t) (h_links repl)).
    { intros [t b] a L. destruct (v_links _ _ _ V o a t b L) as (k & (ks & P & E) & _). rewrite Oo in P. inversion P; subst. destruct a; discriminate. }
    constructor.
    - exact F.
    - eauto.
    - split; apply Leaf; [rewrite Oi|rewrite Oo]; exact Logic.I.
    - intros p L. split; [exact Ii|]. cbn [fst snd]. change (p < num_ports repl i Out). rewrite (port_number env defs repl V _ _ _ Ii PI), app_length, LV. cbn. lia.
    - intros q L. rewrite Lo in L. destruct (list_flow outs q L) as (t & Et). assert (Kq : kind_at repl o Inc q (EValue t)) by (exists (values outs ++ [EOrder]); auto).
      pose proof (v_inputs _ _ _ V o q _ Io Kq) as One. cbn beta iota in One.
      unfold linked_outputs. change (filter (fun l => ep_eqb (snd l) (o, q)) (h_links repl)) with (in_links repl (o, q)). destruct (in_links repl (o, q)) as [|l [|]] eqn:X; try discriminate.
      exists (fst l). split; [reflexivity|]. assert (Il : In l (h_links repl) /\ snd l = (o, q)).
      { assert (Y : In l (in_links repl (o, q))) by (rewrite X; now left). apply filter_In in Y. destruct Y as [Y Z]. apply ep_eqb_iff in Z. auto. }
      destruct l as [[s a] [d j]]. cbn [fst snd] in *. destruct Il as [Il E]. injection E as -> ->. destruct (Own _ Il) as [_ B]. destruct (B eq_refl) as [B1 B2]. cbn [fst snd] in B1, B2.
      destruct (N.eq_dec s i) as [->|Ns].
      + right. split; [reflexivity|]. rewrite Li. destruct (v_links _ _ _ V i a o q Il) as (k & Ks & Kd & _). apply (KV _ _ _ _ PI k Ks). exists t. apply (kind_unique repl _ _ _ _ _ Kd Kq).
      + left. split; [exact B1|]. split; [exact B2|]. split; [exact Ns|]. intros ->. exact (NoOut _ _ Il).
    - intros p [d j] Il L. cbn [fst snd]. destruct (Own _ Il) as [B _]. destruct (B eq_refl) as [B1 B2]. cbn [fst snd] in B1, B2. destruct (N.eq_dec d o) as [->|Nd].
      + right. split; [reflexivity|]. rewrite Lo. destruct (v_links _ _ _ V i p o j Il) as (k & Ks & Kd & _). apply (KV _ _ _ _ PO k Kd). rewrite Li in L. now apply (KV _ _ _ _ PI k Ks).
      + left. split; [exact B1|]. split; [exact B2|]. split; [|exact Nd]. intros ->. exact (NoIn _ _ Il).
  Qed.
End Replacement.
