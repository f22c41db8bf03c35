(** What replacing a subgraph should do, independently of the code. *)
From Coq Require Import List Bool NArith Arith Permutation.
From Verif Require Import TagModel TypesModel GraphModel GraphSpec OpModel ReplaceModel.
Import ListNotations.

Section Spec.
  Context {M : Type}.
  Notation hugr := (hugr op M).
  Variables h repl : hugr.
  Variable sg : subgraph.
  (** The boundary nodes of the replacement. *)
  Variables i o : N.

  Definition gone (n : N) : Prop := In n (sg_nodes sg).
  Definition left (n : N) : Prop := ~ gone n.
  (** The nodes of the replacement that are copied. *)
  Definition interior (x : N) : Prop := below repl x (h_entry repl) /\ x <> h_entry repl /\ x <> i /\ x <> o.

  (** The output port that provides the value of an output port: the inputs of the replacement are
      those of the subgraph, the outputs of the subgraph are those of the replacement. *)
  Inductive provides : bport -> bport -> Prop :=
  | pr_host e : left (fst e) -> provides (Host e) (Host e)
  | pr_repl e : interior (fst e) -> provides (Repl e) (Repl e)
  | pr_input p part e s d : nth_error (sg_in sg) p = Some part -> In e part -> In (s, e) (h_links h) ->
      provides (Host s) d -> provides (Repl (i, p)) d
  | pr_output q e s d : nth_error (sg_out sg) q = Some e -> In (s, (o, q)) (h_links repl) ->
      provides (Repl s) d -> provides (Host e) d.

  (** A subgraph of the host: leaves in one dataflow region.  All ports of an input have the same
      source, outside; the outputs are distinct and cover all links that leave. *)
  Record subgraph_ok (parent : N) : Prop := {
    so_parent : flow_parent (h_ops h parent) = true;
    so_some : sg_nodes sg <> [];
    so_once : NoDup (sg_nodes sg);
    so_children : forall n, gone n -> h_parent h n = Some parent /\ h_kids h n = [] /\ n <> h_entry h;
    so_in : forall p part, nth_error (sg_in sg) p = Some part -> part <> [] /\
            exists s, left (fst s) /\ forall e l, In e part -> In l (h_links h) -> snd l = e -> fst l = s;
    so_in_linked : forall p part e, nth_error (sg_in sg) p = Some part -> In e part -> gone (fst e) /\
            length (linked_outputs h (fst e) (snd e)) = 1;
    so_out_once : NoDup (sg_out sg);
    so_out : forall e, In e (sg_out sg) -> gone (fst e) /\ out_port h e;
    so_cover : forall l, In l (h_links h) -> gone (fst (fst l)) -> left (fst (snd l)) -> In (fst l) (sg_out sg) }.

  (** A replacement with as many inputs and outputs. *)
  Record replacement_ok : Prop := {
    ro_flow : flow_parent (h_ops repl (h_entry repl)) = true;
    ro_kids : exists rest, h_kids repl (h_entry repl) = i :: o :: rest;
    ro_leaves : h_kids repl i = [] /\ h_kids repl o = [];
    ro_in : forall p, p < length (sg_in sg) -> out_port repl (i, p);
    ro_out : forall q, q < length (sg_out sg) -> exists s, linked_outputs repl o q = [s] /\
             (interior (fst s) \/ fst s = i /\ snd s < length (sg_in sg));
    ro_from_in : forall p t, In ((i, p), t) (h_links repl) -> p < length (sg_in sg) ->
             interior (fst t) \/ fst t = o /\ snd t < length (sg_out sg) }.

  (** The links of the replacement that are copied: those into interior nodes, from interior nodes or from
      the inputs that correspond to inputs of the subgraph. *)
  Definition copied (l : link) : Prop :=
    interior (fst (snd l)) /\ (interior (fst (fst l)) \/ fst (fst l) = i /\ snd (fst l) < length (sg_in sg)).

  Definition place (f : N -> N) (b : bport) : endpoint := match b with Host e => e | Repl e => (f (fst e), snd e) end.

  Record replaces (parent : N) (f : N -> N) (h' : hugr) : Prop := {
    rp_fresh : forall x, interior x -> ~ In (f x) (h_nodes h);
    rp_inj : forall x y, interior x -> interior y -> f x = f y -> x = y;
    rp_nodes : forall y, In y (h_nodes h') <-> In y (h_nodes h) /\ left y \/ exists x, interior x /\ y = f x;
    (** Copies *)
    rp_copies : forall x, interior x -> h_ops h' (f x) = h_ops repl x /\ h_meta h' (f x) = h_meta repl x /\
      h_in h' (f x) = h_in repl x /\ h_out h' (f x) = h_out repl x /\ h_kids h' (f x) = map f (h_kids repl x) /\
      h_parent h' (f x) = option_map (fun p => if N.eqb p (h_entry repl) then parent else f p) (h_parent repl x);
    (** The host *)
    rp_host : forall y, In y (h_nodes h) -> left y -> same_node h h' y /\ (y <> parent -> h_kids h' y = h_kids h y);
    rp_kids : h_kids h' parent =
      filter (fun n => negb (memN n (sg_nodes sg))) (h_kids h parent) ++ map f (skipn 2 (h_kids repl (h_entry repl)));
    rp_root : h_root h' = h_root h;
    rp_entry : h_entry h' = h_entry h;
    (** Every link to a node that is left, and every copied link, stays one link: to the same port, from the port
        that provides its value.  There are no other links. *)
    rp_links : exists stays copies hl rl, Permutation (h_links h') (hl ++ rl) /\
      (forall l, In l (h_links h) -> stays l = true <-> left (fst (snd l))) /\
      (forall l, In l (h_links repl) -> copies l = true <-> copied l) /\
      Forall2 (fun l l' => snd l' = snd l /\ exists d, provides (Host (fst l)) d /\ fst l' = place f d) (filter stays (h_links h)) hl /\
      Forall2 (fun l l' => snd l' = place f (Repl (snd l)) /\ exists d, provides (Repl (fst l)) d /\ fst l' = place f d)
              (filter copies (h_links repl)) rl }.
End Spec.
