(** Model of the HUGR data structure and of its mutators.
    Source: hugr-core/src/hugr.rs:42-65 [Hugr], hugr-core/src/hugr/internal.rs, hugr-core/src/hugr/hugrmut.rs,
    hugr-core/src/hugr/views.rs.

    The port graph and the hierarchy are values of the external crate [portgraph] (not part of the
    repository); they are modelled by what their documentation promises:
    - the multi port graph is a set of nodes with numbers of ports and a list of links (the same two
      ports may be linked several times); the allocator may hand out any index that is not in use,
      so functions that allocate take the index as an argument and fail if it is in use;
    - the hierarchy gives every index an optional parent and a list of children.
    [UnmanagedDenseMap]s are total functions.  A panic is [None].  The set of used extensions is
    not modelled.  Operations and metadata are abstract: only the number of ports of an operation
    and whether metadata is empty matter here. *)
From Coq Require Import List Bool NArith Arith.
Import ListNotations.

Definition memN (n : N) (l : list N) : bool := existsb (N.eqb n) l.
Definition delN (n : N) (l : list N) : list N := filter (fun m => negb (N.eqb m n)) l.
Definition upd {A} (f : N -> A) (n : N) (v : A) : N -> A := fun m => if N.eqb m n then v else f m.

(** Output port, input port. *)
Definition endpoint : Type := N * nat.
Definition link : Type := endpoint * endpoint.
Definition ep_eqb (a b : endpoint) : bool := N.eqb (fst a) (fst b) && Nat.eqb (snd a) (snd b).

Inductive dir := Inc | Out.

Record hugr (O M : Type) := mkHugr {
  h_nodes : list N;
  h_ops : N -> O;
  h_meta : N -> option M;
  h_in : N -> nat;
  h_out : N -> nat;
  h_links : list link;
  h_parent : N -> option N;
  h_kids : N -> list N;
  h_root : N;
  h_entry : N }.
Arguments mkHugr {O M}. Arguments h_nodes {O M}. Arguments h_ops {O M}. Arguments h_meta {O M}.
Arguments h_in {O M}. Arguments h_out {O M}. Arguments h_links {O M}. Arguments h_parent {O M}.
Arguments h_kids {O M}. Arguments h_root {O M}. Arguments h_entry {O M}.

Section Graph.
  Context {O M : Type}.
  (** [OpType::default] (ops.rs: the module operation) and [input_count]/[output_count]. *)
  Variable o_default : O.
  Variable o_in o_out : O -> nat.
  Notation hugr := (hugr O M).

  (** ** Field updates *)
  Definition set_nodes (h : hugr) (x : list N) : hugr := mkHugr x (h_ops h) (h_meta h) (h_in h) (h_out h) (h_links h)
    (h_parent h) (h_kids h) (h_root h) (h_entry h).
  Definition set_ops (h : hugr) (x : N -> O) : hugr := mkHugr (h_nodes h) x (h_meta h) (h_in h) (h_out h) (h_links h)
    (h_parent h) (h_kids h) (h_root h) (h_entry h).
  Definition set_meta (h : hugr) (x : N -> option M) : hugr := mkHugr (h_nodes h) (h_ops h) x (h_in h) (h_out h) (h_links h)
    (h_parent h) (h_kids h) (h_root h) (h_entry h).
  Definition set_ports (h : hugr) (x y : N -> nat) : hugr := mkHugr (h_nodes h) (h_ops h) (h_meta h) x y (h_links h)
    (h_parent h) (h_kids h) (h_root h) (h_entry h).
  Definition set_links (h : hugr) (x : list link) : hugr := mkHugr (h_nodes h) (h_ops h) (h_meta h) (h_in h) (h_out h) x
    (h_parent h) (h_kids h) (h_root h) (h_entry h).
  Definition set_tree (h : hugr) (x : N -> option N) (y : N -> list N) : hugr := mkHugr (h_nodes h) (h_ops h) (h_meta h) (h_in h) (h_out h)
    (h_links h) x y (h_root h) (h_entry h).
  Definition set_root (h : hugr) (x : N) : hugr := mkHugr (h_nodes h) (h_ops h) (h_meta h) (h_in h) (h_out h)
    (h_links h) (h_parent h) (h_kids h) x (h_entry h).
  Definition set_entry (h : hugr) (x : N) : hugr := mkHugr (h_nodes h) (h_ops h) (h_meta h) (h_in h) (h_out h)
    (h_links h) (h_parent h) (h_kids h) (h_root h) x.

  (** ** Views *)
  (** views.rs:579-581 [contains_node] *)
  Definition contains (h : hugr) (n : N) : bool := memN n (h_nodes h).

  (** views.rs:584-589 [get_parent], :833-835 [check_valid_non_root] *)
  Definition get_parent (h : hugr) (n : N) : option N :=
    if contains h n && negb (N.eqb n (h_root h)) then h_parent h n else None.

  (** views.rs:592-595 [get_optype] *)
  Definition get_optype (h : hugr) (n : N) : option O := if contains h n then Some (h_ops h n) else None.

  Definition num_ports (h : hugr) (n : N) (d : dir) : nat := match d with Inc => h_in h n | Out => h_out h n end.

  (** views.rs:854-863 [panic_invalid_port] *)
  Definition valid_port (h : hugr) (n : N) (d : dir) (i : nat) : bool :=
    contains h n && Nat.ltb i (num_ports h n d).

  (** views.rs:632-649 [linked_ports] *)
  Definition linked_inputs (h : hugr) (n : N) (i : nat) : list endpoint :=
    map snd (filter (fun l => ep_eqb (fst l) (n, i)) (h_links h)).
  Definition linked_outputs (h : hugr) (n : N) (i : nat) : list endpoint :=
    map fst (filter (fun l => ep_eqb (snd l) (n, i)) (h_links h)).

  (** views.rs:828-830 [check_valid_non_entrypoint] *)
  Definition valid_non_entry (h : hugr) (n : N) : bool := contains h n && negb (N.eqb n (h_entry h)).

  (** ** The hierarchy (portgraph) *)
  (** Is [a] the node [n] or one of its ancestors?  The fuel is the number of nodes. *)
  Fixpoint climbs (parent : N -> option N) (fuel : nat) (n a : N) : bool :=
    N.eqb n a ||
    match fuel with
    | 0 => false
    | S fuel => match parent n with Some p => climbs parent fuel p a | None => false end
    end.

  Definition detach (h : hugr) (n : N) : hugr :=
    match h_parent h n with
    | None => h
    | Some p => set_tree h (upd (h_parent h) n None) (upd (h_kids h) p (delN n (h_kids h p)))
    end.

  (** Fails if the node is attached already or would become its own ancestor. *)
  Definition push_child (h : hugr) (n p : N) : option hugr :=
    match h_parent h n with
    | Some _ => None
    | None =>
      if climbs (h_parent h) (length (h_nodes h)) p n then None
      else Some (set_tree h (upd (h_parent h) n (Some p)) (upd (h_kids h) p (h_kids h p ++ [n])))
    end.

  Fixpoint insert_at (after : bool) (n s : N) (l : list N) : list N :=
    match l with
    | [] => []
    | m :: l => if N.eqb m s then (if after then m :: n :: l else n :: m :: l) else m :: insert_at after n s l
    end.

  (** [insert_before], [insert_after]: also fails if the sibling has no parent. *)
  Definition insert_sibling (after : bool) (h : hugr) (n s : N) : option hugr :=
    match h_parent h n, h_parent h s with
    | None, Some p =>
      if climbs (h_parent h) (length (h_nodes h)) p n then None
      else Some (set_tree h (upd (h_parent h) n (Some p)) (upd (h_kids h) p (insert_at after n s (h_kids h p))))
    | _, _ => None
    end.

  (** [Hierarchy::remove]: the children become roots. *)
  Definition tree_remove (h : hugr) (n : N) : hugr :=
    let h := detach h n in
    set_tree h (fun m => if memN m (h_kids h n) then None else h_parent h m) (upd (h_kids h) n []).

  (** ** Mutators *)
  (** hugr.rs:320-326 [add_node]; the metadata is not touched. *)
  Definition add_node (h : hugr) (n : N) (o : O) : option hugr :=
    if contains h n then None
    else Some (set_ops (set_ports (set_nodes h (n :: h_nodes h)) (upd (h_in h) n (o_in o)) (upd (h_out h) n (o_out o)))
                       (upd (h_ops h) n o)).

  (** hugrmut.rs:461-483 [add_node_with_parent], [add_node_before], [add_node_after] *)
  Definition add_node_with_parent (h : hugr) (n p : N) (o : O) : option hugr :=
    match add_node h n o with Some h => push_child h n p | None => None end.
  Definition add_node_beside (after : bool) (h : hugr) (n s : N) (o : O) : option hugr :=
    match add_node h n o with Some h => insert_sibling after h n s | None => None end.

  Definition touches (n : N) (l : link) : bool := N.eqb (fst (fst l)) n || N.eqb (fst (snd l)) n.

  (** portgraph [remove_node] *)
  Definition graph_remove (h : hugr) (n : N) : hugr :=
    set_links (set_nodes h (delN n (h_nodes h))) (filter (fun l => negb (touches n l)) (h_links h)).

  (** hugrmut.rs:485-490 [remove_node] *)
  Definition remove_node (h : hugr) (n : N) : option hugr :=
    if valid_non_entry h n then
      let h := graph_remove (tree_remove h n) n in
      Some (set_ops h (upd (h_ops h) n o_default))
    else None.

  (** hugrmut.rs:492-500 [remove_subtree]: the children of a node are queued before it is removed. *)
  Fixpoint remove_all (fuel : nat) (h : hugr) (queue : list N) : option hugr :=
    match queue with
    | [] => Some h
    | n :: queue =>
      match fuel with
      | 0 => None
      | S fuel =>
        match remove_node h n with
        | None => None
        | Some h' => remove_all fuel h' (queue ++ h_kids h n)
        end
      end
    end.
  Definition remove_subtree (h : hugr) (n : N) : option hugr :=
    if valid_non_entry h n then remove_all (length (h_nodes h)) h [n] else None.

  (** hugrmut.rs:502-521 [connect] *)
  Definition connect (h : hugr) (s : N) (i : nat) (d : N) (j : nat) : option hugr :=
    if valid_port h s Out i && valid_port h d Inc j
    then Some (set_links h (h_links h ++ [((s, i), (d, j))])) else None.

  Definition at_port (n : N) (d : dir) (i : nat) (l : link) : bool :=
    ep_eqb (match d with Inc => snd l | Out => fst l end) (n, i).

  (** hugrmut.rs:523-532 [disconnect] *)
  Definition disconnect (h : hugr) (n : N) (d : dir) (i : nat) : option hugr :=
    if valid_port h n d i
    then Some (set_links h (filter (fun l => negb (at_port n d i l)) (h_links h))) else None.

  (** hugrmut.rs:433-436 [set_entrypoint] *)
  Definition set_entrypoint (h : hugr) (n : N) : option hugr :=
    if contains h n then Some (set_entry h n) else None.

  (** internal.rs:275-280 [set_module_root] *)
  Definition set_module_root (h : hugr) (n : N) : option hugr :=
    if contains h n then Some (set_root (detach h n) n) else None.

  (** internal.rs:283-287 [set_num_ports]: links of dropped ports disappear. *)
  Definition set_num_ports (h : hugr) (n : N) (i o : nat) : option hugr :=
    if contains h n then
      let keeps (l : link) := negb (N.eqb (fst (fst l)) n && Nat.leb o (snd (fst l))) &&
                              negb (N.eqb (fst (snd l)) n && Nat.leb i (snd (snd l))) in
      Some (set_links (set_ports h (upd (h_in h) n i) (upd (h_out h) n o)) (filter keeps (h_links h)))
    else None.

  (** internal.rs:289-306 [add_ports]; the amount is a difference, given as (add, drop). *)
  Definition add_ports (h : hugr) (n : N) (d : dir) (add drop : nat) : option hugr :=
    match d with
    | Inc => set_num_ports h n (h_in h n + add - drop) (h_out h n)
    | Out => set_num_ports h n (h_in h n) (h_out h n + add - drop)
    end.

  (** Relinking the port [from] to the port [to] of the same node: internal.rs:321-338, the body of
      the loop of [insert_ports]. *)
  Definition move_port (n : N) (d : dir) (from to : nat) (ls : list link) : list link :=
    filter (fun l => negb (at_port n d from l)) ls ++
    map (fun l => match d with Inc => (fst l, (n, to)) | Out => ((n, to), snd l) end)
        (filter (at_port n d from) ls).

  (** internal.rs:308-341 [insert_ports]: ports from the last down to [index] move up. *)
  Definition insert_ports (h : hugr) (n : N) (d : dir) (index amount : nat) : option hugr :=
    if contains h n then
      let old := num_ports h n d in
      match add_ports h n d amount 0 with
      | None => None
      | Some h =>
        Some (set_links h (fold_left (fun ls p => move_port n d p (p + amount) ls)
                                     (rev (seq index (old - index))) (h_links h)))
      end
    else None.

  (** internal.rs:343-350 [set_parent] *)
  Definition set_parent (h : hugr) (n p : N) : option hugr :=
    if contains h p && contains h n then push_child (detach h n) n p else None.

  (** internal.rs:352-368 [move_after_sibling], [move_before_sibling] *)
  Definition move_sibling (after : bool) (h : hugr) (n s : N) : option hugr :=
    if valid_non_entry h n && valid_non_entry h s then insert_sibling after (detach h n) n s else None.

  (** internal.rs:370-379 [replace_op], [optype_mut] *)
  Definition replace_op (h : hugr) (n : N) (o : O) : option hugr :=
    if contains h n then Some (set_ops h (upd (h_ops h) n o)) else None.

  (** hugrmut.rs:438-459 [get_metadata_mut], [set_metadata], [remove_metadata], as replacing the map of the node *)
  Definition write_meta (h : hugr) (n : N) (m : M) : option hugr :=
    if contains h n then Some (set_meta h (upd (h_meta h) n (Some m))) else None.

  (** hugr.rs:97-99 [Hugr::new], :446-537 [make_module_hugr] for a module operation *)
  Definition new_hugr (r : N) : hugr :=
    mkHugr [r] (fun _ => o_default) (fun _ => None) (fun _ => 0) (fun _ => 0) []
           (fun _ => None) (fun _ => []) r r.

  (** ** Traversal *)
  (** hugr.rs:335-345 [canonical_order]: breadth first; also portgraph's [descendants]. *)
  Fixpoint bfs (kids : N -> list N) (fuel : nat) (queue : list N) : list N :=
    match fuel, queue with
    | S fuel, n :: queue => n :: bfs kids fuel (queue ++ kids n)
    | _, _ => []
    end.
  Definition descendants (h : hugr) (n : N) : list N := bfs (h_kids h) (length (h_nodes h)) [n].

  (** ** Histories of public mutations *)
  Inductive act :=
  | AddChild (n p : N) (o : O)
  | AddBeside (after : bool) (n s : N) (o : O)
  | RemoveNode (n : N)
  | RemoveSubtree (n : N)
  | Connect (s : N) (i : nat) (d : N) (j : nat)
  | Disconnect (n : N) (d : dir) (i : nat)
  | SetEntry (n : N)
  | SetParent (n p : N)
  | MoveBeside (after : bool) (n s : N)
  | SetNumPorts (n : N) (i o : nat)
  | InsertPorts (n : N) (d : dir) (index amount : nat)
  | ReplaceOp (n : N) (o : O)
  | WriteMeta (n : N) (m : M).

  Definition step (h : hugr) (a : act) : option hugr :=
    match a with
    | AddChild n p o => add_node_with_parent h n p o
    | AddBeside after n s o => add_node_beside after h n s o
    | RemoveNode n => remove_node h n
    | RemoveSubtree n => remove_subtree h n
    | Connect s i d j => connect h s i d j
    | Disconnect n d i => disconnect h n d i
    | SetEntry n => set_entrypoint h n
    | SetParent n p => set_parent h n p
    | MoveBeside after n s => move_sibling after h n s
    | SetNumPorts n i o => set_num_ports h n i o
    | InsertPorts n d index amount => insert_ports h n d index amount
    | ReplaceOp n o => replace_op h n o
    | WriteMeta n m => write_meta h n m
    end.

  Fixpoint run (h : hugr) (acts : list act) : option hugr :=
    match acts with
    | [] => Some h
    | a :: acts => match step h a with Some h => run h acts | None => None end
    end.
End Graph.
