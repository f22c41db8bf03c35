(** What wiring up promises: a wire that is accepted may lie where it does, and linear values are used once. *)
From Coq Require Import List Bool NArith Arith.
From Verif Require Import TypesModel GraphModel GraphSpec Graphs OpModel OpSpec ValidModel ValidSpec.
Import ListNotations.

Section Spec.
  Context {M : Type}.
  Notation hugr := (hugr op M).

  (** The children of nodes are of the right sort, and nodes have the ports of their operation. *)
  Definition tree_ok (h : hugr) : Prop := forall n p, h_parent h n = Some p -> allowed (h_ops h p) (h_ops h n).
  Definition ports_ok (h : hugr) : Prop := forall n, In n (h_nodes h) -> exists ki ko,
    ports (h_ops h n) Inc ki /\ ports (h_ops h n) Out ko /\ h_in h n = length ki /\ h_out h n = length ko.

  (** Where a wire of type [t] from [s] to [d] may lie, except that in a control flow graph the block of
      the source need not dominate that of the target. *)
  Inductive placed (h : hugr) (t : ty) (s d : N) : Prop :=
  | pl_sibling p : h_parent h s = Some p -> h_parent h d = Some p -> placed h t s d
  | pl_external p a : lub t = Copyable -> h_parent h s = Some p -> h_parent h a = Some p -> below h d a -> d <> a ->
      (exists i j, kind_at h s Out i EOrder /\ In ((s, i), (a, j)) (h_links h)) -> placed h t s d
  | pl_block b c g x : lub t = Copyable -> h_parent h s = Some b -> h_parent h b = Some c -> h_ops h c = OCfg g ->
      h_parent h x = Some c -> below h d x -> d <> x -> b <> x -> placed h t s d.

  (** The values of node [s] may be used in region [p]: [s] is in it or in one around it, or in a block of a
      control flow graph around it. *)
  Definition visible (h : hugr) (p s : N) : Prop := exists b, h_parent h s = Some b /\
    (below h p b \/ exists c g, h_parent h b = Some c /\ h_ops h c = OCfg g /\ below h p c /\ p <> c).

  (** What is assumed of the graph that is built. *)
  Record sane (h : hugr) : Prop := {
    sane_wf : wf h;
    sane_tree : tree_ok h;
    sane_ports : ports_ok h;
    sane_root : h_ops h (h_root h) = OModule }.

  (** Linear values are used at most once. *)
  Definition single_use (h : hugr) : Prop := forall n i t, In n (h_nodes h) -> kind_at h n Out i (EValue t) -> lub t = Linear ->
    length (out_links h (n, i)) <= 1.

  (** All wires with values lie where they may. *)
  Definition all_placed (h : hugr) : Prop := forall s i d j t, In ((s, i), (d, j)) (h_links h) -> kind_at h s Out i (EValue t) -> placed h t s d.

  (** [h'] is [h] with more links. *)
  Definition more_links (h h' : hugr) (ls : list link) : Prop :=
    h_nodes h' = h_nodes h /\ h_ops h' = h_ops h /\ h_parent h' = h_parent h /\ h_kids h' = h_kids h /\ h_in h' = h_in h /\ h_out h' = h_out h /\
    h_root h' = h_root h /\ h_entry h' = h_entry h /\ h_meta h' = h_meta h /\ h_links h' = h_links h ++ ls.
End Spec.
