(** C33: the classes of the edges of a control-flow graph, and the regions between them. *)
From Coq Require Import List Bool Arith NArith Lia Relations.
From Verif Require Import NestModel NestSpec NestProofs NestDfs.
Import ListNotations.
Open Scope N_scope.

(** * Regions *)

(** [region_blocks] always answers, and its answer says what it should: the blocks of the region
    are those that control reaches from the entry edge without taking the exit edge, and each error
    is returned in exactly the cases it names.  (The cases exclude each other, so that they are
    exact.) *)
Theorem region_blocks_spec g en ex : cfg_wf g -> In (snd en) (blocks g) ->
  exists r, region_blocks g en ex = Some r /\ region_post g en ex r.
Proof. apply region_blocks_post. Qed.

(** When [region_blocks] accepts, the exact conditions. *)
Theorem region_blocks_accepts g en ex : cfg_wf g -> In (snd en) (blocks g) ->
  (exists l, region_blocks g en ex = Some (Ok l)) <->
  (within g ex (snd en) (fst ex) -> edge g ex) /\ edge g en /\ ~ within g ex (snd en) (fst en)
  /\ (forall p, edge g (p, snd en) -> p = fst en \/ within g ex (snd en) p).
Proof.
  intros W I. destruct (region_blocks_post g en ex W I) as (r & E & P). split.
  - intros (l & E'). rewrite E in E'. injection E' as ->. cbn in P. tauto.
  - intros (A & B & C & D). destruct r as [l|e]; [eauto|]. exfalso. destruct e; cbn in P.
    + tauto.
    + tauto.
    + destruct P as (_ & _ & P). tauto.
    + destruct P as (_ & _ & _ & NE & P). destruct l as [|p l]; [easy|].
      destruct (proj1 (P p) (or_introl eq_refl)) as (X & Y & Z). destruct (D p X); easy.
Qed.

(** The region has a single way out: every other edge of a block in it stays inside. *)
Theorem region_single_exit g en ex l : cfg_wf g -> In (snd en) (blocks g) ->
  region_blocks g en ex = Some (Ok l) ->
  forall a b, In a l -> edge g (a, b) -> (a, b) = ex \/ In b l.
Proof.
  intros W I E a b A EA. destruct (region_blocks_post g en ex W I) as (r & E' & P).
  rewrite E in E'. injection E' as <-. cbn in P. destruct P as (_ & _ & _ & _ & _ & R).
  destruct (N.eq_dec a (fst ex)) as [->|NA]; [destruct (N.eq_dec b (snd ex)) as [->|NB]|].
  - left. now destruct ex.
  - right. apply R. apply R in A. eapply rt_trans; [exact A|]. apply rt_step. split; [easy|]. destruct ex. cbn in *. congruence.
  - right. apply R. apply R in A. eapply rt_trans; [exact A|]. apply rt_step. split; [easy|]. destruct ex. cbn in *. congruence.
Qed.

(** * The undirected depth-first search *)

(** If control can go from the entry to the exit, the search makes a tree: it numbers exactly the
    blocks from which the exit can be reached, each block but the entry hangs on an edge to a block
    with a smaller number, and every edge between numbered blocks joins a block with one of its
    ancestors.  Otherwise it panics. *)
Theorem dfs_makes_tree g : cfg_wf g ->
  (leads g (entry g) (exit g) -> exists t, undirected_dfs g = Some t /\ dfs_tree g t)
  /\ (~ leads g (entry g) (exit g) -> undirected_dfs g = None).
Proof. intros W. split; [now apply dfs_tree_made|now apply dfs_tree_panics]. Qed.

(** * Examples *)
Definition of_edges (n : nat) (l : list (N * N)) : cfg :=
  Cfg (map N.of_nat (seq 0 n)) (fun a => map snd (filter (fun e => fst e =? a) l))
      (fun a => map fst (filter (fun e => snd e =? a) l)) 0 (N.of_nat n - 1).

Definition edges_ok (n : nat) (l : list (N * N)) : bool :=
  forallb (fun e => mem (fst e) (map N.of_nat (seq 0 n)) && mem (snd e) (map N.of_nat (seq 0 n))
                    && negb (fst e =? N.of_nat n - 1)) l
  && mem 0 (map N.of_nat (seq 0 n)) && mem (N.of_nat n - 1) (map N.of_nat (seq 0 n)).
Lemma of_edges_wf n l : edges_ok n l = true -> cfg_wf (of_edges n l).
Proof.
  unfold edges_ok. rewrite !andb_true_iff, forallb_forall. intros [[F A] B].
  assert (EI : forall a b, In b (map snd (filter (fun e => fst e =? a) l)) <-> In (a, b) l).
  { intros a b. rewrite in_map_iff. split.
    - intros ([x y] & <- & I). apply filter_In in I as [I E]. cbn in E. apply N.eqb_eq in E. now subst.
    - intros I. exists (a, b). split; [easy|]. apply filter_In. split; [easy|]. apply N.eqb_refl. }
  constructor; cbn [succ pred blocks entry exit of_edges].
  - intros a b. rewrite EI, in_map_iff. split.
    + intros I. exists (a, b). split; [easy|]. apply filter_In. split; [easy|]. apply N.eqb_refl.
    + intros ([x y] & <- & I). apply filter_In in I as [I E]. cbn in E. apply N.eqb_eq in E. now subst.
  - intros a b I. apply EI in I. specialize (F _ I). rewrite !andb_true_iff in F. destruct F as [[X Y] _].
    split; now apply mem_In.
  - now apply mem_In.
  - now apply mem_In.
  - destruct (map snd _) as [|x m] eqn:E; [easy|]. assert (I : In (N.of_nat n - 1, x) l).
    { apply EI. rewrite E. now left. }
    specialize (F _ I). rewrite !andb_true_iff in F. destruct F as [_ F]. cbn in F. now rewrite N.eqb_refl in F.
Qed.

(** Entry, a conditional (blocks 1 to 4) and a loop (5, 6): the first test of nest_cfgs.rs (602-675). *)
Definition cond_then_loop : list (N * N) := [(0,1); (1,2); (1,3); (2,4); (3,4); (6,5); (5,6); (4,5); (6,7)].
(** A loop around a conditional (test 718-775). *)
Definition cond_in_loop : list (N * N) := [(2,3); (2,4); (3,5); (4,5); (1,2); (6,1); (5,6); (0,1); (6,7)].

Definition same_class (cs : list ((N * N) * class)) (e f : N * N) : bool :=
  match get_edge e cs, get_edge f cs with Some a, Some b => class_eqb a b | _, _ => false end.
(** The classes as groups of edges. *)
Definition groups (g : cfg) : option (list (list (N * N))) :=
  option_map (fun cs =>
    let es := map fst cs in
    fold_right (fun e acc =>
      if existsb (fun gr => match gr with f :: _ => same_class cs e f | [] => false end) acc
      then map (fun gr => match gr with f :: _ => if same_class cs e f then e :: gr else gr | [] => gr end) acc
      else acc ++ [[e]]) [] es) (edge_classes g).

(** The model gives the classes that the tests of the code expect. *)
Example classes_cond_then_loop : groups (of_edges 8 cond_then_loop) =
  Some [[(0, 1); (4, 5); (6, 7)]; [(6, 5)]; [(5, 6)]; [(2, 4); (1, 2)]; [(1, 3); (3, 4)]].
Proof. vm_compute. reflexivity. Qed.
Example classes_cond_in_loop : groups (of_edges 8 cond_in_loop) =
  Some [[(0, 1); (6, 7)]; [(2, 3); (3, 5)]; [(4, 5); (2, 4)]; [(5, 6); (1, 2)]; [(6, 1)]].
Proof. vm_compute. reflexivity. Qed.

Example region_example :
  cfg_wf (of_edges 8 cond_then_loop)
  /\ region_blocks (of_edges 8 cond_then_loop) (0, 1) (4, 5) = Some (Ok [4; 3; 2; 1])
  /\ region_blocks (of_edges 8 cond_then_loop) (4, 5) (6, 7) = Some (Ok [6; 5])
  /\ region_blocks (of_edges 8 cond_then_loop) (0, 1) (4, 6) = Some (Err (ExitEdgeNotPresent 4 6))
  /\ region_blocks (of_edges 8 cond_then_loop) (6, 5) (6, 7) = Some (Err (EntryEdgeSourceInRegion 6))
  /\ region_blocks (of_edges 8 cond_then_loop) (1, 5) (6, 7) = Some (Err (EntryEdgeNotPresent 1 5))
  /\ region_blocks (of_edges 8 cond_then_loop) (2, 4) (6, 7) = Some (Err (UnexpectedEntryEdges [3])).
Proof. split; [now apply of_edges_wf|]. vm_compute. repeat split. Qed.

Example dfs_example : undirected_dfs (of_edges 8 cond_then_loop)
  = Some (Dfs [(7, 7%nat); (6, 6%nat); (5, 5%nat); (2, 4%nat); (4, 3%nat); (3, 2%nat); (1, 1%nat); (0, 0%nat)]
              [(7, Bwd 6); (6, Fwd 5); (5, Bwd 4); (2, Fwd 4); (4, Bwd 3); (3, Bwd 1); (1, Bwd 0)]).
Proof. vm_compute. reflexivity. Qed.

(** * Where the code falls short *)

(** Two loops one after the other: 0 -> 1 <-> 2 -> 3 <-> 4 -> 5. *)
Definition two_loops : cfg := of_edges 6 [(0,1); (1,2); (2,1); (2,3); (3,4); (4,3); (4,5)].

(** Edges of different classes are not kept apart: the back edges of two consecutive loops get one
    class, although a cycle (the first loop) has one of them only.  The tag takes the front of the
    list (nest_cfgs.rs:424), but new brackets are pushed at the back (line 456): it is the oldest
    bracket and not, as the method needs, the newest. *)
Theorem edge_classes_equivalent_refuted : exists g cs e f,
  cfg_wf g /\ leads g (entry g) (exit g) /\ edge_classes g = Some cs
  /\ edge g e /\ edge g f /\ e <> f
  /\ get_edge e cs <> None /\ get_edge e cs = get_edge f cs
  /\ ~ cycle_equivalent g e f.
Proof.
  destruct (edge_classes two_loops) as [cs|] eqn:E; [|vm_compute in E; discriminate].
  exists two_loops, cs, (2, 1), (4, 3).
  vm_compute in E. injection E as <-.
  split; [now apply of_edges_wf|]. split.
  { apply clos_rt1n_rt. eapply Relation_Operators.rt1n_trans with (y := 1); [vm_compute; tauto|].
    eapply Relation_Operators.rt1n_trans with (y := 2); [vm_compute; tauto|].
    eapply Relation_Operators.rt1n_trans with (y := 3); [vm_compute; tauto|].
    eapply Relation_Operators.rt1n_trans with (y := 4); [vm_compute; tauto|].
    eapply Relation_Operators.rt1n_trans with (y := 5); [vm_compute; tauto|]. constructor. }
  split; [vm_compute; reflexivity|]. split; [vm_compute; tauto|]. split; [vm_compute; tauto|].
  split; [easy|]. split; [easy|]. split; [reflexivity|].
  intros C. destruct (C [(1, 2); (2, 1)]) as [X _].
  - exists 1. split; [easy|]. split; [|repeat constructor; cbn; intuition congruence].
    cbn. repeat split; left; vm_compute; tauto.
  - destruct X as [X|[X|[]]]; [right; now left|easy|easy].
Qed.

(** As a consequence the nesting of such a graph panics, whatever [nest_sese_region] does: the
    search from the first back edge for the next edge of its class meets an edge that it has
    dealt with already (the [assert] of nest_cfgs.rs:124). *)
Theorem transform_two_loops_refuted (V : Type) (nest : V -> N * N -> N * N -> option (V * N)) v :
  transform V (fun _ => succ two_loops) nest 100 two_loops v = Panic.
Proof. vm_compute. reflexivity. Qed.

(** With no loop at all: entry 0 branches to 1 and 2, and 1 to 2 and the exit 3. *)
Definition skips : cfg := of_edges 4 [(0,1); (0,2); (1,2); (1,3); (2,3)].
Theorem transform_acyclic_refuted (V : Type) (nest : V -> N * N -> N * N -> option (V * N)) v :
  cfg_wf skips
  /\ transform V (fun _ => succ skips) nest 100 skips v = Panic.
Proof. split; [now apply of_edges_wf|]. vm_compute. reflexivity. Qed.

(** A block that is its own successor makes the classification panic: the edge is met twice, both
    times as one that ends here, and its bracket is deleted twice (the [assert] of line 447). *)
Theorem self_loop_refuted : exists g,
  cfg_wf g /\ leads g (entry g) (exit g) /\ (forall b, In b (blocks g) -> leads g (entry g) b /\ leads g b (exit g))
  /\ edge_classes g = None.
Proof.
  exists (of_edges 3 [(0,1); (1,1); (1,2)]).
  assert (L01 : leads (of_edges 3 [(0,1); (1,1); (1,2)]) 0 1) by (apply rt_step; vm_compute; tauto).
  assert (L12 : leads (of_edges 3 [(0,1); (1,1); (1,2)]) 1 2) by (apply rt_step; vm_compute; tauto).
  assert (L02 : leads (of_edges 3 [(0,1); (1,1); (1,2)]) 0 2) by (eapply rt_trans; eassumption).
  split; [now apply of_edges_wf|]. split; [exact L02|]. split; [|vm_compute; reflexivity].
  intros b I. vm_compute in I. change (entry (of_edges 3 [(0,1); (1,1); (1,2)])) with 0.
  change (exit (of_edges 3 [(0,1); (1,1); (1,2)])) with 2.
  destruct I as [<-|[<-|[<-|[]]]]; split; (exact L01 || exact L12 || exact L02 || apply rt_refl).
Qed.

(** [region_blocks] does not look for edges into the middle of the region (as its last comment
    says): the accepted region may have a second entry. *)
Theorem region_single_entry_refuted : exists g en ex l a b,
  cfg_wf g /\ region_blocks g en ex = Some (Ok l)
  /\ edge g (a, b) /\ (a, b) <> en /\ ~ In a l /\ In b l.
Proof.
  exists (of_edges 4 [(0,1); (0,2); (1,2); (2,3)]), (0,1), (2,3), [2;1], 0, 2.
  split; [now apply of_edges_wf|]. split; [vm_compute; reflexivity|]. split; [vm_compute; tauto|].
  split; [easy|]. cbn. intuition congruence.
Qed.

Print Assumptions region_blocks_spec.
Print Assumptions region_blocks_accepts.
Print Assumptions region_single_exit.
Print Assumptions dfs_makes_tree.
Print Assumptions edge_classes_equivalent_refuted.
Print Assumptions transform_two_loops_refuted.
Print Assumptions transform_acyclic_refuted.
Print Assumptions self_loop_refuted.
Print Assumptions region_single_entry_refuted.
