(** What inserting nodes of one HUGR into another should do, independent of the code. *)
From Coq Require Import List Bool NArith Permutation.
From Verif Require Import GraphModel GraphSpec.
Import ListNotations.

(** A link moved along a node map. *)
Definition move_link (f : N -> N) (l : link) : link :=
  ((f (fst (fst l)), snd (fst l)), (f (fst (snd l)), snd (snd l))).

(** Both ends of a link are in a list of nodes. *)
Definition inside (nodes : list N) (l : link) : bool := memN (fst (fst l)) nodes && memN (fst (snd l)) nodes.

Definition is_root (roots : list (N * N)) (n : N) : bool := memN n (map fst roots).
Definition has_parent {O M} (h : hugr O M) (p c : N) : bool :=
  match h_parent h c with Some q => N.eqb q p | None => false end.

(** [h'] is [h] with copies of [nodes] of [other]: [f] maps nodes to their copies, and [roots] lists
    the nodes whose copies get a parent in [h].  Nothing is said about operations and metadata of
    the copies. *)
Record grafted {O M} (h other : hugr O M) (nodes : list N) (roots : list (N * N)) (f : N -> N) (h' : hugr O M) : Prop := {
  gr_fresh : forall x, In x nodes -> ~ In (f x) (h_nodes h);
  gr_inj : forall x y, In x nodes -> In y nodes -> f x = f y -> x = y;
  gr_nodes : forall y, In y (h_nodes h') <-> In y (h_nodes h) \/ exists x, In x nodes /\ y = f x;
  gr_host : forall y, In y (h_nodes h) ->
    h_ops h' y = h_ops h y /\ h_meta h' y = h_meta h y /\ h_in h' y = h_in h y /\ h_out h' y = h_out h y /\
    h_parent h' y = h_parent h y /\
    h_kids h' y = h_kids h y ++ map f (map fst (filter (fun r => N.eqb (snd r) y) roots));
  gr_ports : forall x, In x nodes -> h_in h' (f x) = h_in other x /\ h_out h' (f x) = h_out other x;
  gr_root_parent : forall r p, In (r, p) roots -> h_parent h' (f r) = Some p;
  gr_parent : forall x, In x nodes -> is_root roots x = false -> h_parent h' (f x) = option_map f (h_parent other x);
  gr_kids : forall x, In x nodes ->
    h_kids h' (f x) = map f (filter (fun c => negb (is_root roots c) && has_parent other x c) nodes);
  gr_links : Permutation (h_links h') (h_links h ++ map (move_link f) (filter (inside nodes) (h_links other)));
  gr_root : h_root h' = h_root h;
  gr_entry : h_entry h' = h_entry h }.

(** No region is strictly inside another one. *)
Definition disjoint_regions {O M} (other : hugr O M) (roots : list (N * N)) : Prop :=
  forall r s, In r (map fst roots) -> In s (map fst roots) -> up (h_parent other) r s -> r = s.

(** The regions of a forest: every node below a root. *)
Definition in_forest {O M} (other : hugr O M) (roots : list (N * N)) (n : N) : Prop :=
  exists r, In r (map fst roots) /\ up (h_parent other) n r.
