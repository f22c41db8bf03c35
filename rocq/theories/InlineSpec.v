(** What inlining a dataflow graph should do, independently of the code. *)
From Coq Require Import List Bool NArith Arith Permutation.
From Verif Require Import TypesModel GraphModel GraphSpec OpModel OpSpec ValidSpec.
Import ListNotations.

Section Spec.
  Context {M : Type}.
  Notation hugr := (hugr op M).

  (** [n] is a dataflow graph inside [parent], with boundary nodes [i] and [o]. *)
  Record dfg (h : hugr) (n parent i o : N) (rest : list N) : Prop := {
    dfg_op : exists s, h_ops h n = ODfg s;
    dfg_parent : h_parent h n = Some parent;
    dfg_kids : h_kids h n = i :: o :: rest }.

  Definition linked (h : hugr) (s t : N) : Prop := exists a b, In ((s, a), (t, b)) (h_links h).
  Definition order_link (h : hugr) (s t : N) : Prop := exists a b, In ((s, a), (t, b)) (h_links h) /\ kind_at h s Out a EOrder.
  Definition value_link (h : hugr) (s t : N) : Prop := exists a b y, In ((s, a), (t, b)) (h_links h) /\ kind_at h s Out a (EValue y).

  (** The output port outside the boundary that provides the value of an output port: the inputs of the inner graph are those
      of the node, the outputs of the node are those of the inner graph. *)
  Inductive resolves (h : hugr) (n i o : N) : endpoint -> endpoint -> Prop :=
  | rs_here e : fst e <> n -> fst e <> i -> resolves h n i o e e
  | rs_input p e e' : In (e, (n, p)) (h_links h) -> resolves h n i o e e' -> resolves h n i o (i, p) e'
  | rs_output p e e' : In (e, (o, p)) (h_links h) -> resolves h n i o e e' -> resolves h n i o (n, p) e'.

  (** The links that are kept, perhaps with another source. *)
  Definition stays (h : hugr) (n i o : N) (l : link) : Prop :=
    ~ In (fst (snd l)) [n; i; o] /\ ~ (In (fst (fst l)) [n; i] /\ kind_at h (fst (fst l)) Out (snd (fst l)) EOrder).

  (** Nodes that come before the output of the inner graph. *)
  Inductive last (h : hugr) (n i o s : N) : Prop :=
  | last_order : s <> i -> order_link h s o -> last h n i o s
  | last_enter : linked h i o -> order_link h s n -> last h n i o s
  | last_feed : order_link h i o -> value_link h s n -> last h n i o s.
  Inductive ends (h : hugr) (n i o s : N) : Prop :=
  | ends_link : s <> i -> linked h s o -> ends h n i o s
  | ends_through p q a y : In ((i, p), (o, q)) (h_links h) -> In ((s, a), (n, p)) (h_links h) -> kind_at h s Out a (EValue y) -> ends h n i o s
  | ends_last : last h n i o s -> ends h n i o s.

  (** The new order edges. *)
  Inductive ordered (h : hugr) (n i o : N) : N -> N -> Prop :=
  | or_enter s t : order_link h s n -> linked h i t -> t <> o -> ordered h n i o s t
  | or_feed s t : value_link h s n -> order_link h i t -> t <> o -> ordered h n i o s t
  | or_leave s t : order_link h n t -> ends h n i o s -> ordered h n i o s t
  | or_use s t : value_link h n t -> last h n i o s -> ordered h n i o s t.

  Definition order_edge (h : hugr) (s t : N) (l : link) : Prop :=
    exists a b, l = ((s, a), (t, b)) /\ kind_at h s Out a EOrder /\ kind_at h t Inc b EOrder.

  Record inlines (h : hugr) (n parent i o : N) (rest : list N) (h' : hugr) : Prop := {
    in_nodes : forall m, In m (h_nodes h') <-> In m (h_nodes h) /\ ~ In m [n; i; o];
    in_same : forall m, In m (h_nodes h') -> h_ops h' m = h_ops h m /\ h_meta h' m = h_meta h m /\ h_in h' m = h_in h m /\ h_out h' m = h_out h m;
    in_moved : forall m, In m rest -> h_parent h' m = Some parent;
    in_parent : forall m, In m (h_nodes h') -> ~ In m rest -> h_parent h' m = h_parent h m;
    in_kids : h_kids h' parent = delN n (h_kids h parent) ++ rest;
    in_others : forall m, In m (h_nodes h') -> m <> parent -> h_kids h' m = h_kids h m;
    in_root : h_root h' = h_root h;
    in_entry : h_entry h' = h_entry h;
    in_wires : exists f kept orders, (forall l, In l (h_links h) -> f l = true <-> stays h n i o l) /\
      Permutation (h_links h') (kept ++ orders) /\
      Forall2 (fun l l' => snd l' = snd l /\ resolves h n i o (fst l) (fst l')) (filter f (h_links h)) kept /\
      forall l, In l orders <-> exists s t, ordered h n i o s t /\ order_edge h s t l }.
End Spec.
