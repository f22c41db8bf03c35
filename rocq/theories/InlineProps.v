(** Theorems about inlining dataflow graphs (C34). *)
From Coq Require Import List Bool NArith Arith Lia Permutation Relations.
From Verif Require Import TypesModel GraphModel GraphSpec GraphProofs GraphRemove Graphs OpModel OpSpec OpProofs
  DeadModel DeadProofs DeadProps ValidModel ValidSpec ValidProofs ValidEdges ValidProps InlineModel InlineSpec InlineProofs InlineFacts InlineTree.
Import ListNotations.

(** In a valid graph a node other than the root is inlined exactly if it is a dataflow graph and not the entrypoint; then the
    result is again a consistent graph, without the three nodes, and every link and order edge is as specified. *)
Theorem inline_dfg_spec : forall {M} env defs (h : hugr op M) n, wf h -> valid env defs h -> In n (h_nodes h) -> n <> h_root h ->
  match h_ops h n with
  | ODfg _ =>
    if N.eqb n (h_entry h) then inline_dfg h n = CantInlineEntrypoint n
    else exists parent i o rest h', dfg h n parent i o rest /\ inline_dfg h n = Inlined h' [n; i; o] /\ wf h' /\ inlines h n parent i o rest h'
  | _ => inline_dfg h n = NotDFG n
  end.
Proof.
  intros M env defs h n W V I Nr. destruct (h_ops h n) eqn:Op;
    try (unfold inline_dfg; rewrite (proj2 (contains_iff h n) I), Op; reflexivity).
  match type of Op with _ = ODfg ?s => destruct s as [ins outs] end.
  destruct (N.eqb_spec n (h_entry h)) as [E|Ne].
  - unfold inline_dfg. rewrite (proj2 (contains_iff h n) I), Op, (proj2 (N.eqb_eq n (h_entry h)) E). reflexivity.
  - destruct (wf_parent h W n I Nr) as (parent & P & _).
    destruct (v_region _ _ _ V n I ins outs) as [(i & o & rest & K & _) _]; [rewrite Op; constructor|].
    assert (D : dfg h n parent i o rest) by (constructor; eauto).
    destruct (inline_result env defs h W V n parent i o rest ins outs D Op Ne) as (h' & E & W' & R). exists parent, i, o, rest, h'. auto.
Qed.
Print Assumptions inline_dfg_spec.

Section Wires.
  Context {M : Type}.
  Variable env : N -> N -> option typedef.
  Variable defs : N -> N -> opsig.
  Variable h : hugr op M.
  Hypothesis W : wf h.
  Hypothesis V : valid env defs h.
  Variables n parent i o : N.
  Variable rest : list N.
  Hypothesis D : dfg h n parent i o rest.

  (** The source of a value is determined. *)
  Theorem resolves_unique : forall e e1 y, resolves h n i o e e1 -> kind_at h (fst e) Out (snd e) (EValue y) ->
    kind_at h (fst e1) Out (snd e1) (EValue y) /\ forall e2, resolves h n i o e e2 -> e2 = e1.
  Proof.
    destruct (dfg_op _ _ _ _ _ _ D) as ([ins outs] & Op). pose proof (dfg_distinct h W n parent i o rest D) as (D1 & D2 & D3).
    pose proof (dfg_live h W n parent i o rest D) as Ln. pose proof (dfg_inner_live h W n parent i o rest D) as (Li & Lo).
    assert (Src : forall t p y e e2, In t (h_nodes h) -> kind_at h t Inc p (EValue y) -> In (e, (t, p)) (h_links h) -> In (e2, (t, p)) (h_links h) -> e2 = e).
    { intros t p y e e2 It K A B. pose proof (one_source env defs h V t p y It K) as E.
      assert (X : forall x, In (x, (t, p)) (h_links h) -> x = source h t p).
      { intros x Ix. assert (Z : In (x, (t, p)) (filter (into (t, p)) (h_links h))) by (apply filter_In; split; [exact Ix|now apply into_iff]). rewrite E in Z. destruct Z as [Z|[]]. congruence. }
      rewrite (X e A), (X e2 B). reflexivity. }
    assert (Kin : forall t p y e, kind_at h t Inc p (EValue y) -> In (e, (t, p)) (h_links h) -> kind_at h (fst e) Out (snd e) (EValue y)).
    { intros t p y [s a] K L. destruct (v_links _ _ _ V s a t p L) as (k & Ks & Kt & _). cbn [fst snd]. now rewrite (kind_unique h _ _ _ _ _ Kt K) in Ks. }
    intros e e1 y R. induction R as [e A B|p e e1 L R IH|p e e1 L R IH]; intros K.
    - split; [exact K|]. intros e2 R2. inversion R2; subst; [reflexivity| |]; cbn [fst] in *; congruence.
    - cbn [fst snd] in K. assert (Kn : kind_at h n Inc p (EValue y)).
      { destruct K as (ks & P & E). rewrite (ports_unique _ _ _ _ P (i_out_ports env defs h W V n parent i o rest ins outs D Op)) in E. exists (values ins ++ [EOrder]). split; [exact (n_in_ports h n ins outs Op)|exact E]. }
      destruct (IH (Kin _ _ _ _ Kn L)) as [K1 U]. split; [exact K1|]. intros e2 R2. inversion R2; subst; cbn [fst] in *; try congruence.
      apply U. match goal with X : In (?x, (n, p)) (h_links h) |- _ => rewrite <- (Src n p y e x Ln Kn L X); assumption end.
    - cbn [fst snd] in K. assert (Kn : kind_at h o Inc p (EValue y)).
      { destruct K as (ks & P & E). rewrite (ports_unique _ _ _ _ P (n_out_ports h n ins outs Op)) in E. exists (values outs ++ [EOrder]). split; [exact (o_in_ports env defs h W V n parent i o rest ins outs D Op)|exact E]. }
      destruct (IH (Kin _ _ _ _ Kn L)) as [K1 U]. split; [exact K1|]. intros e2 R2. inversion R2; subst; cbn [fst] in *; try congruence.
      apply U. match goal with X : In (?x, (o, p)) (h_links h) |- _ => rewrite <- (Src o p y e x Lo Kn L X); assumption end.
  Qed.

  (** Every value input that is left has exactly one source: the one that provided its value before. *)
  Theorem inline_sources : forall h', inlines h n parent i o rest h' -> forall t b y, In t (h_nodes h') -> kind_at h t Inc b (EValue y) ->
    exists e e', in_links h (t, b) = [(e, (t, b))] /\ in_links h' (t, b) = [(e', (t, b))] /\ resolves h n i o e e' /\
      (~ In (fst e) [n; i] -> e' = e) /\ ~ In (fst e') [n; i; o].
  Proof.
    destruct (dfg_op _ _ _ _ _ _ D) as ([ins outs] & Op).
    intros h' R t b y It K. apply (in_nodes _ _ _ _ _ _ _ R) in It. destruct It as [It Nt].
    pose proof (one_source env defs h V t b y It K) as One. set (e := source h t b) in *.
    destruct (in_wires _ _ _ _ _ _ _ R) as (f & kept & orders & Hf & P & FA & Ho).
    assert (Le : In (e, (t, b)) (h_links h)).
    { assert (X : In (e, (t, b)) (filter (into (t, b)) (h_links h))) by (rewrite One; now left). now apply filter_In in X. }
    assert (Fe : f (e, (t, b)) = true).
    { apply Hf; [exact Le|]. split; [exact Nt|]. intros [_ X]. destruct e as [s a]. cbn [fst snd] in X. destruct (v_links _ _ _ V s a t b Le) as (k & Ks & Kt & _).
      rewrite (kind_unique h _ _ _ _ _ Kt K) in Ks. pose proof (kind_unique h _ _ _ _ _ Ks X). discriminate. }
    assert (FL : filter (into (t, b)) (filter f (h_links h)) = [(e, (t, b))]).
    { rewrite filter_filter. transitivity (filter f (filter (into (t, b)) (h_links h))); [rewrite filter_filter; apply filter_ext; intros l; apply andb_comm|].
      rewrite One. cbn [filter]. now rewrite Fe. }
    assert (G : forall ls ks : list link, Forall2 (fun l l' => snd l' = snd l /\ resolves h n i o (fst l) (fst l')) ls ks ->
      Forall2 (fun l l' => snd l' = snd l /\ resolves h n i o (fst l) (fst l')) (filter (into (t, b)) ls) (filter (into (t, b)) ks)).
    { intros ls ks FF. induction FF as [|l l' ls ks [A B] FF IH]; [constructor|]. cbn [filter]. replace (into (t, b) l') with (into (t, b) l) by (unfold into; now rewrite A).
      destruct (into (t, b) l); [constructor; auto|exact IH]. }
    apply G in FA. rewrite FL in FA. inversion FA as [|? l' ? ks' [A B] FA' E1 E2]; subst. inversion FA'; subst. clear FA FA' G.
    destruct l' as [e' t']. cbn [fst snd] in A, B. subst t'.
    assert (Oz : filter (into (t, b)) orders = []).
    { apply filter_none. intros l Il. apply into_false. intros X. apply Ho in Il. destruct Il as (s & t' & _ & a & b' & -> & _ & Kb). cbn [snd] in X. injection X as -> ->.
      pose proof (kind_unique h _ _ _ _ _ Kb K). discriminate. }
    exists e, e'. split; [exact One|]. split.
    { change (filter (into (t, b)) (h_links h') = [(e', (t, b))]). apply single_perm. symmetry. etransitivity; [apply filter_perm; exact P|].
      rewrite filter_app, Oz, app_nil_r. rewrite <- E2. apply Permutation_refl. }
    split; [exact B|]. split.
    - intros Ni. inversion B as [? C1 C2|p e0 e1 C1 C2 X|p e0 e1 C1 C2 X]; subst; [reflexivity| |]; exfalso; apply Ni; rewrite <- X; cbn; auto.
    - assert (No : forall s, In (s, (t, b)) (h_links h) -> fst s <> o).
      { intros [s a] L. cbn [fst]. intros ->. exact (from_o env defs h W V n parent i o rest ins outs D Op _ _ _ L). }
      assert (Z : forall x x', resolves h n i o x x' -> fst x <> o -> ~ In (fst x') [n; i; o]).
      { intros x x' RR. induction RR as [x A1 A2|p x x' L RR IH|p x x' L RR IH]; intros Nx.
        - intros [X|[X|[X|[]]]]; congruence.
        - apply IH. destruct x as [s a]. cbn [fst]. intros ->. exact (from_o env defs h W V n parent i o rest ins outs D Op _ _ _ L).
        - apply IH. destruct x as [s a]. cbn [fst]. intros ->. exact (from_o env defs h W V n parent i o rest ins outs D Op _ _ _ L). }
      apply (Z e e' B). now apply No.
  Qed.
End Wires.
Print Assumptions resolves_unique.
Print Assumptions inline_sources.

(** ** Examples *)
Definition inlined_graph {M} (x : inlined (M := M)) (d : hugr op M) : hugr op M := match x with Inlined h _ => h | _ => d end.

(** Inlining node 7 of the example of validation, which uses a value from outside, a constant and a function. *)
Example inline_nonvacuous : let h := graph_of (make rich_acts) in
  dfg h 7%N 4%N 8%N 9%N [10%N; 12%N; 13%N] /\ wf h /\ valid no_types simple_ops h /\
  (exists h', inline_dfg h 7%N = Inlined h' [7%N; 8%N; 9%N] /\ validate no_types simple_ops h' = VOk /\
     in_links h' (15%N, 1) = [((13%N, 0), (15%N, 1))] /\ h_parent h' 13%N = Some 4%N) /\
  inline_dfg h 4%N = NotDFG 4%N.
Proof.
  cbn zeta. split; [|split; [exact rich_wf|split; [exact rich_valid|split]]].
  - constructor; [exists ([], [bit])| |]; vm_compute; reflexivity.
  - destruct (inline_dfg (graph_of (make rich_acts)) 7%N) as [| |h' rem|] eqn:E; try (exfalso; vm_compute in E; discriminate).
    exists h'. assert (H : inlined_graph (inline_dfg (graph_of (make rich_acts)) 7%N) (graph_of None) = h') by (rewrite E; reflexivity).
    assert (Hr : match inline_dfg (graph_of (make rich_acts)) 7%N with Inlined _ r => r | _ => [] end = rem) by (rewrite E; reflexivity).
    assert (R : rem = [7%N; 8%N; 9%N]) by (rewrite <- Hr; vm_compute; reflexivity). rewrite R. split; [reflexivity|]. rewrite <- H. clear. vm_compute. auto.
  - vm_compute. reflexivity.
Qed.

(** ** What is not preserved *)
(** The new order edges may cross the border of a region: if something runs before the graph and the input of the graph is
    used in a nested region, or if a value from outside feeds the graph and something in it waits for the input, or
    if a value of the graph is used in a nested region and its output waits for something.  The result is invalid. *)
Definition deep_use : option (hugr op N) :=
  make [AddChild 1%N 0%N (fn 0); AddChild 2%N 1%N (OInput [bit]); AddChild 3%N 1%N (OOutput [bit]); AddChild 4%N 1%N (bit_op 0); Connect 2%N 0 4%N 0;
        AddChild 5%N 1%N (ODfg ([bit], [bit])); AddChild 6%N 5%N (OInput [bit]); AddChild 7%N 5%N (OOutput [bit]);
        AddChild 8%N 5%N (ODfg ([], [bit])); AddChild 9%N 8%N (OInput []); AddChild 10%N 8%N (OOutput [bit]); AddChild 11%N 8%N (bit_op 1);
        Connect 2%N 0 5%N 0; Connect 4%N 1 5%N 1; Connect 6%N 0 11%N 0; Connect 6%N 1 8%N 0; Connect 11%N 0 10%N 0; Connect 8%N 0 7%N 0; Connect 5%N 0 3%N 0].
Definition deep_source : option (hugr op N) :=
  make [AddChild 1%N 0%N (fn 0); AddChild 2%N 1%N (OInput [bit]); AddChild 3%N 1%N (OOutput [bit]);
        AddChild 4%N 1%N (ODfg ([], [bit])); AddChild 5%N 4%N (OInput []); AddChild 6%N 4%N (OOutput [bit]);
        AddChild 7%N 4%N (ODfg ([bit], [bit])); AddChild 8%N 7%N (OInput [bit]); AddChild 9%N 7%N (OOutput [bit]); AddChild 10%N 7%N (bit_op 0);
        Connect 2%N 1 4%N 0; Connect 2%N 0 7%N 0; Connect 8%N 0 10%N 0; Connect 8%N 1 10%N 1; Connect 10%N 0 9%N 0; Connect 7%N 0 6%N 0; Connect 4%N 0 3%N 0].
Definition deep_target : option (hugr op N) :=
  make [AddChild 1%N 0%N (fn 0); AddChild 2%N 1%N (OInput [bit]); AddChild 3%N 1%N (OOutput [bit]);
        AddChild 4%N 1%N (ODfg ([bit], [bit])); AddChild 5%N 4%N (OInput [bit]); AddChild 6%N 4%N (OOutput [bit]); AddChild 7%N 4%N (bit_op 0);
        Connect 2%N 0 4%N 0; Connect 5%N 0 7%N 0; Connect 5%N 0 6%N 0; Connect 7%N 1 6%N 1;
        AddChild 8%N 1%N (ODfg ([], [bit])); AddChild 9%N 8%N (OInput []); AddChild 10%N 8%N (OOutput [bit]); AddChild 11%N 8%N (bit_op 1);
        Connect 4%N 0 11%N 0; Connect 4%N 1 8%N 0; Connect 11%N 0 10%N 0; Connect 8%N 0 3%N 0].

Theorem inline_valid_refuted : exists (a b c : hugr op N) n m k,
  (wf a /\ validate no_types simple_ops a = VOk /\ validate no_types simple_ops (inlined_graph (inline_dfg a n) a) = VErr (NonCopyableData (4%N, 1) (11%N, 1))) /\
  (wf b /\ validate no_types simple_ops b = VOk /\ validate no_types simple_ops (inlined_graph (inline_dfg b m) b) = VErr (NonCopyableData (2%N, 1) (10%N, 1))) /\
  (wf c /\ validate no_types simple_ops c = VOk /\ validate no_types simple_ops (inlined_graph (inline_dfg c k) c) = VErr (NonCopyableData (7%N, 1) (11%N, 1))).
Proof.
  exists (graph_of deep_use), (graph_of deep_source), (graph_of deep_target), 5%N, 7%N, 4%N.
  split; [|split]; (split; [apply built_wf; vm_compute; tauto|vm_compute; auto]).
Qed.
Print Assumptions inline_valid_refuted.

(** A graph in which nothing happens still separates what comes before it from what comes after it; inlining it forgets
    that order. *)
Definition fence : option (hugr op N) :=
  make [AddChild 1%N 0%N (fn 0); AddChild 2%N 1%N (OInput [bit]); AddChild 3%N 1%N (OOutput [bit]); AddChild 4%N 1%N (bit_op 0); AddChild 5%N 1%N (bit_op 1);
        AddChild 6%N 1%N (ODfg ([], [])); AddChild 7%N 6%N (OInput []); AddChild 8%N 6%N (OOutput []);
        Connect 2%N 0 4%N 0; Connect 2%N 0 5%N 0; Connect 5%N 0 3%N 0; Connect 4%N 1 6%N 0; Connect 6%N 0 5%N 1].
Definition unfenced : hugr op N := inlined_graph (inline_dfg (graph_of fence) 6%N) (graph_of None).

Theorem inline_order_refuted : exists (h h' : hugr op N) n p i o rest a c, wf h /\ validate no_types simple_ops h = VOk /\ dfg h n p i o rest /\
  inline_dfg h n = Inlined h' [n; i; o] /\ ~ In a [n; i; o] /\ ~ In c [n; i; o] /\
  path (sibling_edge h p) a c /\ ~ path (sibling_edge h' p) a c.
Proof.
  exists (graph_of fence), unfenced, 6%N, 1%N, 7%N, 8%N, [], 4%N, 5%N.
  split; [apply built_wf; vm_compute; tauto|]. split; [vm_compute; reflexivity|].
  split; [constructor; [exists ([], [])| |]; vm_compute; reflexivity|]. split; [vm_compute; reflexivity|].
  split; [intros [X|[X|[X|[]]]]; discriminate|]. split; [intros [X|[X|[X|[]]]]; discriminate|]. split.
  - apply t_trans with 6%N; constructor; (split; [vm_compute; reflexivity|split; [vm_compute; reflexivity|]]); [exists 1, 0|exists 0, 1]; vm_compute; tauto.
  - assert (X : forallb (fun l => negb (N.eqb (fst (fst l)) 4)) (h_links unfenced) = true) by (vm_compute; reflexivity).
    revert X. generalize unfenced. intros h X P. rewrite forallb_forall in X.
    assert (Y : forall a c, path (sibling_edge h 1%N) a c -> exists x, sibling_edge h 1%N a x).
    { intros a c Q. induction Q as [a c E|a b c Q1 IH1 Q2 IH2]; eauto. }
    destruct (Y _ _ P) as (x & _ & _ & a & b & L). apply X in L. discriminate.
Qed.
Print Assumptions inline_order_refuted.
