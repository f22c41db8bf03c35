(** Specification: two graphs that are the same up to the numbering of nodes. *)
From Coq Require Import List NArith Permutation.
From Verif Require Import GraphModel GraphSpec InsertSpec.
Import ListNotations.

(** [h'] is [h] with every node [n] called [f n] and every operation [o] replaced by [g o]. *)
Record same_graph {O M} (f : N -> N) (g : O -> O) (h h' : hugr O M) : Prop := {
  sg_inj : forall a b, In a (h_nodes h) -> In b (h_nodes h) -> f a = f b -> a = b;
  sg_nodes : forall m, In m (h_nodes h') <-> exists n, In n (h_nodes h) /\ m = f n;
  sg_count : length (h_nodes h') = length (h_nodes h);
  sg_ops : forall n, In n (h_nodes h) -> h_ops h' (f n) = g (h_ops h n);
  sg_meta : forall n, In n (h_nodes h) -> h_meta h' (f n) = h_meta h n;
  sg_in : forall n, In n (h_nodes h) -> h_in h' (f n) = h_in h n;
  sg_out : forall n, In n (h_nodes h) -> h_out h' (f n) = h_out h n;
  sg_parent : forall n, In n (h_nodes h) -> h_parent h' (f n) = option_map f (h_parent h n);
  sg_kids : forall n, In n (h_nodes h) -> h_kids h' (f n) = map f (h_kids h n);
  sg_root : h_root h' = f (h_root h);
  sg_entry : h_entry h' = f (h_entry h);
  sg_links : Permutation (h_links h') (map (move_link f) (h_links h)) }.

(** Every node has as many ports as its operation asks for. *)
Definition ports_match_by {O M} (i o : O -> nat) (h : hugr O M) : Prop :=
  forall n, In n (h_nodes h) -> h_in h n = i (h_ops h n) /\ h_out h n = o (h_ops h n).
