(** Forcing an order on the nodes of dataflow regions.

    Source: hugr-passes/src/force_order.rs.

    One dataflow region is modelled: its children are [Input], [Output] and the inner nodes; the
    edges are those between children ([region_portgraph], with repetitions).  Ranks are in any
    totally ordered type.  [force_order_by_key] does this for every dataflow parent under the
    root, and the edges it adds join children of that parent only. *)
From Coq Require Import List Bool Arith.
From Verif Require Import BMap.
Import ListNotations.

Definition memb (x : nat) (l : list nat) : bool := existsb (Nat.eqb x) l.

Section Order.
  Context {K : Type} (cmp : K -> K -> comparison) (rank : nat -> K).

  (** The order of the heap entries [(Reverse(rank), node)]: the entry that is popped first has
      the least rank and, among equals, the largest node. *)
  Definition pops_first (a b : nat) : bool :=
    match cmp (rank a) (rank b) with Lt => true | Gt => false | Eq => Nat.leb b a end.

  (** [BinaryHeap::pop]. *)
  Fixpoint pop (heap : list nat) : option (nat * list nat) :=
    match heap with
    | [] => None
    | x :: t =>
      match pop t with
      | None => Some (x, t)
      | Some (y, t') => if pops_first x y then Some (x, t) else Some (y, x :: t')
      end
    end.

  Section Walk.
    (** The graph walked: nodes and edges, as seen through [NodeFiltered]. *)
    Variables (nodes : list nat) (edges : list (nat * nat)).

    (** [neighbors] and [Reversed(g).neighbors], with repetitions. *)
    Definition succs (n : nat) : list nat :=
      map snd (filter (fun e => Nat.eqb (fst e) n) edges).
    Definition preds (n : nat) : list nat :=
      map fst (filter (fun e => Nat.eqb (snd e) n) edges).

    (** force_order.rs:138-147 [extend_with_initials]. *)
    Definition initials : list nat :=
      filter (fun n => match preds n with [] => true | _ => false end) nodes.

    (** force_order.rs:154-187 [next], repeated until it gives [None]; [fuel] bounds the pops. *)
    Fixpoint walk (fuel : nat) (heap visited : list nat) : list nat :=
      match fuel with
      | 0 => []
      | S fuel' =>
        match pop heap with
        | None => []
        | Some (x, heap') =>
          if memb x visited then walk fuel' heap' visited
          else
            let visited' := x :: visited in
            let new := filter (fun n => forallb (fun b => memb b visited') (preds n)) (succs x) in
            x :: walk fuel' (heap' ++ new) visited'
        end
      end.

    (** Every node and every edge cause at most one push. *)
    Definition force_order_walk : list nat :=
      walk (S (length nodes + length edges)) initials [].
  End Walk.

  (** A dataflow region.  [oin]/[oout]: [other_input()]/[other_output()] is [StateOrder]. *)
  Record region := {
    r_in : nat;
    r_out : nat;
    r_inner : list nat;
    r_edges : list (nat * nat);
    r_oin : nat -> bool;
    r_oout : nat -> bool
  }.

  (** force_order.rs:62 the [NodeFiltered] view. *)
  Definition inner_edges (r : region) : list (nat * nat) :=
    filter (fun e => negb (Nat.eqb (fst e) (r_in r) || Nat.eqb (fst e) (r_out r)
                           || Nat.eqb (snd e) (r_in r) || Nat.eqb (snd e) (r_out r)))
           (r_edges r).

  (** force_order.rs:65-80 the filter on order ports; [None] is the failed assertion. *)
  Fixpoint order_nodes (r : region) (l : list nat) : option (list nat) :=
    match l with
    | [] => Some []
    | x :: t =>
      if r_oin r x || r_oout r x then
        if Bool.eqb (r_oin r x) (r_oout r x) then
          match order_nodes r t with Some t' => Some (x :: t') | None => None end
        else None
      else order_nodes r t
    end.

  (** force_order.rs:86-100 connect neighbours in the list unless an edge is already there. *)
  Fixpoint connect_windows (l : list nat) (edges : list (nat * nat)) : list (nat * nat) :=
    match l with
    | a :: ((b :: _) as t) =>
      connect_windows t
        (if memb b (succs edges a) then edges else edges ++ [(a, b)])
    | _ => edges
    end.

  (** force_order.rs:56-101, for one region: the new edges. *)
  Definition force_order_region (r : region) : option (list (nat * nat)) :=
    match order_nodes r (force_order_walk (r_inner r) (inner_edges r)) with
    | None => None
    | Some l => Some (connect_windows (r_in r :: l ++ [r_out r]) (r_edges r))
    end.
End Order.
