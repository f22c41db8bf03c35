(** What the inlining of a call should do to the graph. *)
From Coq Require Import List Bool NArith Arith.
From Verif Require Import TypesModel GraphModel GraphSpec OpModel ValidSpec InsertSpec.
Import ListNotations.

(** Strictly below a node. *)
Definition inner {O M} (h : hugr O M) (f x : N) : Prop := up (h_parent h) x f /\ x <> f.

(** [h'] is [h] with copies, given by [phi], of all nodes strictly below [f], put below [c]: links between
    copied nodes, and links from other nodes to copied ones, are copied too. *)
Record copied {M} (h : hugr op M) (f c : N) (phi : N -> N) (h' : hugr op M) : Prop := {
  cp_fresh : forall x, inner h f x -> ~ In (phi x) (h_nodes h);
  cp_inj : forall x y, inner h f x -> inner h f y -> phi x = phi y -> x = y;
  cp_other : forall x, ~ inner h f x -> phi x = x;
  cp_nodes : forall y, In y (h_nodes h') <-> In y (h_nodes h) \/ exists x, inner h f x /\ y = phi x;
  cp_root : h_root h' = h_root h;
  cp_entry : h_entry h' = h_entry h;
  cp_old : forall y, In y (h_nodes h) -> h_ops h' y = h_ops h y /\ h_meta h' y = h_meta h y /\ h_in h' y = h_in h y /\ h_out h' y = h_out h y /\
    h_parent h' y = h_parent h y /\ h_kids h' y = h_kids h y ++ (if N.eqb y c then map phi (h_kids h f) else []);
  cp_new : forall x, inner h f x -> h_ops h' (phi x) = h_ops h x /\ h_meta h' (phi x) = h_meta h x /\ h_in h' (phi x) = h_in h x /\ h_out h' (phi x) = h_out h x /\
    h_kids h' (phi x) = map phi (h_kids h x);
  cp_parent : forall x p, inner h f x -> h_parent h x = Some p -> h_parent h' (phi x) = Some (if N.eqb p f then c else phi p);
  cp_links : exists more, h_links h' = h_links h ++ map (move_link phi) more /\
    (forall l, In l more <-> In l (h_links h) /\ (inner h f (fst (fst l)) \/ inner h f (fst (snd l)))) /\
    (forall x i, inner h f x -> in_links h' (phi x, i) = map (move_link phi) (in_links h (x, i))) }.

(** [h'] is [h] with the call [c] of the function [f], whose signature is [sg], replaced by a dataflow graph that holds a copy, given by
    [phi], of what is below [f]; nothing else changes. *)
Record call_inlined {M} (h : hugr op M) (f c : N) (sg : poly) (phi : N -> N) (h' : hugr op M) : Prop := {
  ci_fresh : forall x, inner h f x -> ~ In (phi x) (h_nodes h);
  ci_inj : forall x y, inner h f x -> inner h f y -> phi x = phi y -> x = y;
  ci_other : forall x, ~ inner h f x -> phi x = x;
  ci_nodes : forall y, In y (h_nodes h') <-> In y (h_nodes h) \/ exists x, inner h f x /\ y = phi x;
  ci_root : h_root h' = h_root h;
  ci_entry : h_entry h' = h_entry h;
  ci_old : forall y, In y (h_nodes h) -> y <> c -> h_ops h' y = h_ops h y /\ h_meta h' y = h_meta h y /\ h_in h' y = h_in h y /\ h_out h' y = h_out h y /\
    h_parent h' y = h_parent h y /\ h_kids h' y = h_kids h y;
  ci_call : h_ops h' c = ODfg (p_ins sg, p_outs sg) /\ h_meta h' c = h_meta h c /\ h_in h' c = S (length (p_ins sg)) /\ h_out h' c = h_out h c /\
    h_parent h' c = h_parent h c /\ h_kids h' c = map phi (h_kids h f);
  ci_new : forall x, inner h f x -> h_ops h' (phi x) = h_ops h x /\ h_meta h' (phi x) = h_meta h x /\ h_in h' (phi x) = h_in h x /\ h_out h' (phi x) = h_out h x /\
    h_kids h' (phi x) = map phi (h_kids h x);
  ci_parent : forall x p, inner h f x -> h_parent h x = Some p -> h_parent h' (phi x) = Some (if N.eqb p f then c else phi p);
  ci_in_old : forall y i, In y (h_nodes h) -> y <> c -> in_links h' (y, i) = in_links h (y, i);
  ci_in_call : forall i, i < length (p_ins sg) -> in_links h' (c, i) = in_links h (c, i);
  ci_in_order : in_links h' (c, length (p_ins sg)) = map (fun l => (fst l, (c, length (p_ins sg)))) (in_links h (c, S (length (p_ins sg))));
  ci_in_new : forall x i, inner h f x -> in_links h' (phi x, i) = map (move_link phi) (in_links h (x, i)) }.
