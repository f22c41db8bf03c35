(** C31, stated without the heap. *)
From Coq Require Import List Arith.
From Verif Require Import Graphs OrderModel.
Import ListNotations.

Section Spec.
  Context {K : Type} (cmp : K -> K -> comparison) (rank : nat -> K).

  (** A node that may come next when [done] have been emitted. *)
  Definition ready (nodes : list nat) (edges : list (nat * nat)) (done : list nat) (n : nat) : Prop :=
    In n nodes /\ ~ In n done /\ forall p, In (p, n) edges -> In p done.

  (** [x] goes before [y] by rank; equal ranks go by decreasing node index. *)
  Definition rank_first (x y : nat) : Prop :=
    cmp (rank x) (rank y) = Lt \/ (cmp (rank x) (rank y) = Eq /\ y <= x).

  (** At every moment the first of the ready nodes, and no ready node is left at the end. *)
  Definition greedy_order (nodes : list nat) (edges : list (nat * nat)) (l : list nat) : Prop :=
    (forall l1 x l2, l = l1 ++ x :: l2 ->
       ready nodes edges l1 x /\ forall y, ready nodes edges l1 y -> rank_first x y) /\
    (forall y, ~ ready nodes edges l y).

  (** A region as validated: distinct children, edges between children, nothing into [Input] or
      out of [Output], no cycle. *)
  Record good_region (r : region) : Prop := {
    gr_nodup : NoDup (r_in r :: r_inner r ++ [r_out r]);
    gr_closed : forall a b, In (a, b) (r_edges r) ->
      (a = r_in r \/ In a (r_inner r)) /\ (b = r_out r \/ In b (r_inner r));
    gr_acyclic : acyclic (edge_rel (r_edges r))
  }.
End Spec.
