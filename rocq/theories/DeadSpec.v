(** Specification of dead code and dead functions. *)
From Coq Require Import List Bool NArith Arith.
From Verif Require Import TypesModel GraphModel GraphSpec OpModel DeadModel.
Import ListNotations.

Section Spec.
  Context {M : Type}.
  Notation hugr := (hugr op M).

  (** Operations that belong to the structure of their parent. *)
  Definition structure (o : op) : Prop :=
    match o with
    | OInput _ | OOutput _ | OCase _ | OBlock _ _ _ | OExit _ | OAliasDecl _ _ | OAliasDefn _ _ => True
    | _ => False
    end.

  Section Code.
    Variable cb : hugr -> N -> preserve.

    (** A node that must be kept: the callback says so, of the node or of a descendant to which it defers. *)
    Inductive kept (h : hugr) : N -> Prop :=
    | kept_here n : cb h n = MustKeep -> kept h n
    | kept_below n c : cb h n = DeferToChildren -> h_parent h c = Some n -> kept h c -> kept h n.

    (** [n] needs [m]: a child that must be kept or belongs to the structure of its parent, the source of
        any link to [n], or the user of a linear value produced by [n]. *)
    Inductive needs (h : hugr) : N -> N -> Prop :=
    | needs_kept n m : h_parent h m = Some n -> kept h m -> needs h n m
    | needs_structure n m : h_parent h m = Some n -> structure (h_ops h m) -> needs h n m
    | needs_input n m i j : In ((m, i), (n, j)) (h_links h) -> needs h n m
    | needs_linear n m i j s t : In ((n, i), (m, j)) (h_links h) -> dataflow_signature (h_ops h n) = Some s ->
        nth_error (snd s) i = Some t -> copyable t = false -> needs h n m.

    Inductive needed (h : hugr) (entries : list N) : N -> Prop :=
    | needed_entry : needed h entries (h_entry h)
    | needed_point n : In n entries -> needed h entries n
    | needed_next n m : needed h entries n -> needs h n m -> needed h entries m.
  End Code.

  (** What a graph is after the nodes [R] have been dropped. *)
  Record dropped (R : N -> Prop) (h h' : hugr) : Prop := {
    dr_nodes : forall m, In m (h_nodes h') <-> In m (h_nodes h) /\ ~ R m;
    dr_same : forall m, ~ R m -> h_ops h' m = h_ops h m /\ h_in h' m = h_in h m /\ h_out h' m = h_out h m;
    dr_meta : h_meta h' = h_meta h;
    dr_parent : forall m p, h_parent h' m = Some p <-> h_parent h m = Some p /\ ~ R m /\ ~ R p;
    dr_kids : forall m, ~ R m -> exists f, h_kids h' m = filter f (h_kids h m) /\ forall c, f c = true <-> ~ R c;
    dr_links : exists f, h_links h' = filter f (h_links h) /\ forall l, f l = true <-> ~ R (fst (fst l)) /\ ~ R (fst (snd l));
    dr_root : h_root h' = h_root h;
    dr_entry : h_entry h' = h_entry h }.

  (** The source of the first static input of a node. *)
  Definition static_link (h : hugr) (n t : N) : Prop :=
    exists i j, static_port (h_ops h n) Inc = Some i /\ hd_error (linked_outputs h n i) = Some (t, j).

  Definition static_user (o : op) : Prop :=
    match o with OCall _ _ _ | OLoadFunction _ _ _ | OLoadConstant _ => True | _ => False end.

  (** [f] contains a use of the module item [g]. *)
  Definition uses (h : hugr) (f g : N) : Prop :=
    exists n, n <> f /\ up (h_parent h) n f /\ static_user (h_ops h n) /\ static_link h n g /\ h_parent h g = Some (h_root h).

  Inductive reachable (h : hugr) (entries : list N) : N -> Prop :=
  | reach_point n : In n entries -> reachable h entries n
  | reach_entry : h_entry h <> h_root h -> reachable h entries (h_entry h)
  | reach_next f g : reachable h entries f -> uses h f g -> reachable h entries g.

  Definition is_function (o : op) : Prop := match o with OFuncDefn _ _ _ | OFuncDecl _ _ _ => True | _ => False end.
End Spec.
