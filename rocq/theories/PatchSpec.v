(** What the small patches do. *)
From Coq Require Import List Bool NArith Arith Permutation.
From Verif Require Import TypesModel GraphModel GraphSpec OpModel OpSpec ValidSpec.
Import ListNotations.

(** The node [x] with operation [o], the last child of [p], lies on the wire from the output [s] to the input [d]; nothing else has changed. *)
Record on_wire {M} (h : hugr op M) (s d : endpoint) (p x : N) (o : op) (h' : hugr op M) : Prop := {
  ow_new : ~ In x (h_nodes h);
  ow_nodes : forall m, In m (h_nodes h') <-> m = x \/ In m (h_nodes h);
  ow_root : h_root h' = h_root h;
  ow_entry : h_entry h' = h_entry h;
  ow_op : h_ops h' x = o;
  ow_place : h_parent h' x = Some p;
  ow_last : h_kids h' p = h_kids h p ++ [x];
  ow_kids : forall m, m <> p -> m <> x -> h_kids h' m = h_kids h m;
  ow_none : h_kids h' x = [];
  ow_ports : h_in h' x = 2 /\ h_out h' x = 2;
  ow_old : forall m, m <> x -> h_ops h' m = h_ops h m /\ h_parent h' m = h_parent h m /\ h_in h' m = h_in h m /\ h_out h' m = h_out h m;
  ow_links : h_links h' = filter (fun l => negb (ep_eqb (snd l) d)) (h_links h) ++ [(s, (x, 0)); ((x, 0), d)] }.

(** The node [n] is gone, with all its links; nothing else has changed. *)
Record without {M} (h : hugr op M) (n : N) (h' : hugr op M) : Prop := {
  wo_nodes : forall m, In m (h_nodes h') <-> In m (h_nodes h) /\ m <> n;
  wo_root : h_root h' = h_root h;
  wo_entry : h_entry h' = h_entry h;
  wo_gone : h_parent h' n = None;
  wo_old : forall m, m <> n -> h_ops h' m = h_ops h m /\ h_parent h' m = h_parent h m /\ h_in h' m = h_in h m /\ h_out h' m = h_out h m;
  wo_kids : forall m, m <> n -> h_kids h' m = filter (fun c => negb (N.eqb c n)) (h_kids h m);
  wo_links : h_links h' = filter (fun l : link => negb (N.eqb (fst (fst l)) n || N.eqb (fst (snd l)) n)) (h_links h) }.
