(** Model of the checks on subgraphs of siblings.
    Source: hugr-core/src/hugr/views/sibling_subgraph.rs.

    [None] is a panic.  Searches stop at the first hit, as the iterators do.  The convexity check of the
    portgraph crate and the search for the nodes between two boundaries ([make_pg_subgraph]) are not modelled. *)
From Coq Require Import List Bool NArith Arith.
From Verif Require Import TagModel TypesModel GraphModel OpModel DeadModel InlineModel ReplaceModel.
Import ListNotations.

Fixpoint opt_find {A} (f : A -> option bool) (l : list A) : option (option A) :=
  match l with
  | [] => Some None
  | x :: l => match f x with None => None | Some true => Some (Some x) | Some false => opt_find f l end
  end.

Definition opt_and (a b : option bool) : option bool := match a with Some true => b | _ => a end.

Section Subgraph.
  Context {M : Type}.
  Notation hugr := (hugr op M).
  Definition port := (dir * endpoint)%type.

  (** views.rs:632-649 [linked_ports]: the nodes at the other ends *)
  Definition other_ends (h : hugr) (p : port) : option (list N) :=
    let (d, e) := p in
    if valid_port h (fst e) d (snd e)
    then Some (map fst (match d with Inc => linked_outputs h (fst e) (snd e) | Out => linked_inputs h (fst e) (snd e) end))
    else None.
  (** views.rs:287-289 [is_linked] *)
  Definition is_linked (h : hugr) (p : port) : option bool :=
    option_map (fun l => match l with [] => false | _ => true end) (other_ends h p).

  Definition is_port (x : option nat) (i : nat) : bool := match x with Some j => Nat.eqb j i | None => false end.

  (** sibling_subgraph.rs:1375-1380 [is_non_value_edge] *)
  Definition is_non_value_edge (h : hugr) (p : port) : option bool :=
    match get_optype h (fst (snd p)) with
    | None => None
    | Some o =>
      match (if is_port (other_port o (fst p)) (snd (snd p)) then is_linked h p else Some false),
            (if is_port (static_port o (fst p)) (snd (snd p)) then is_linked h p else Some false) with
      | Some a, Some b => Some (a || b)
      | _, _ => None
      end
    end.

  (** sibling_subgraph.rs:887-910 [iter_incoming], [iter_outgoing], [iter_io] *)
  Definition iter_io (inputs : list (list endpoint)) (outputs : list endpoint) : list port :=
    map (pair Inc) (concat inputs) ++ map (pair Out) outputs.

  (** views.rs:144-174 [node_inputs], [node_outputs] *)
  Definition node_ports (h : hugr) (d : dir) (n : N) : list port :=
    if contains h n then map (fun i => (d, (n, i))) (seq 0 (num_ports h n d)) else [].

  Inductive sg_error :=
  | EmptySubgraph | OrphanNode (n : N) | NoSharedParent (a b : N) | UnsupportedEdgeKind (p : port)
  | PortNodeNotInSet (p : port) | DisconnectedBoundaryPort (p : port) | NotConvex | NonUniqueInput | EmptyPartition
  | MismatchedOutputPort (p : endpoint) | MismatchedTypes (i : nat).

  (** sibling_subgraph.rs:1158-1172 [get_edge_type] *)
  Definition get_edge_type (h : hugr) (ports : list endpoint) : option ty :=
    match ports with
    | [] => None
    | e :: _ =>
      match port_type h Inc e with
      | None => None
      | Some t => if forallb (fun e => match port_type h Inc e with Some u => ty_eqb u t | None => false end) ports then Some t else None
      end
    end.

  Definition ep_opt_eqb (a b : option endpoint) : bool :=
    match a, b with Some x, Some y => ep_eqb x y | None, None => true | _, _ => false end.
  Definition parent_eqb (a b : option N) : bool :=
    match a, b with Some x, Some y => N.eqb x y | None, None => true | _, _ => false end.

  Fixpoint unique (l : list endpoint) : bool :=
    match l with [] => true | e :: l => negb (existsb (ep_eqb e) l) && unique l end.

  (** The check of an input: sibling_subgraph.rs:1263-1284 *)
  Fixpoint same_source (h : hugr) (s : endpoint) (part : list endpoint) : option (option sg_error) :=
    match part with
    | [] => Some None
    | e :: part => match source_of h e with
                   | None => None
                   | Some s' => if ep_eqb s' s then same_source h s part else Some (Some (MismatchedOutputPort e))
                   end
    end.
  Fixpoint check_partitions (h : hugr) (inputs : list (list endpoint)) : option (option sg_error) :=
    match inputs with
    | [] => Some None
    | [] :: _ => Some (Some EmptyPartition)
    | (e :: part) :: inputs =>
      match source_of h e with
      | None => None
      | Some s => match same_source h s (e :: part) with Some None => check_partitions h inputs | r => r end
      end
    end.

  (** sibling_subgraph.rs:1288-1296 *)
  Fixpoint check_types (h : hugr) (i : nat) (inputs : list (list endpoint)) : option sg_error :=
    match inputs with
    | [] => None
    | part :: inputs =>
      match get_edge_type h part with
      | None => Some (MismatchedTypes i)
      | Some t => if Nat.ltb 1 (length part) && negb (copyable t) then Some (MismatchedTypes i) else check_types h (S i) inputs
      end
    end.

  (** sibling_subgraph.rs:1301-1318 *)
  Fixpoint check_calls (h : hugr) (calls : list (list endpoint)) : option (option sg_error) :=
    match calls with
    | [] => Some None
    | group :: calls =>
      if forallb (fun e => valid_port h (fst e) Inc (snd e)) group then
        match group with
        | [] => check_calls h calls
        | e :: _ =>
          if negb (forallb (fun e' => ep_opt_eqb (source_of h e') (source_of h e)) group) then Some (Some (UnsupportedEdgeKind (Inc, e)))
          else match find (fun e => negb (is_port (static_port (h_ops h (fst e)) Inc) (snd e))) group with
               | Some e => Some (Some (UnsupportedEdgeKind (Inc, e)))
               | None => check_calls h calls
               end
        end
      else None
    end.

  Definition outside (nodes : list N) (m : N) : bool := negb (memN m nodes).

  (** sibling_subgraph.rs:1191-1211: [None]: the nodes have the same parent; the inner [option] of [get_parent]
      is compared as it is *)
  Definition shared_parent (h : hugr) (nodes : list N) : option sg_error :=
    match nodes with
    | [] => Some EmptySubgraph
    | n :: rest =>
      if forallb (fun m => parent_eqb (get_parent h m) (get_parent h n)) rest then None
      else match get_parent h n with
           | None => Some (OrphanNode n)
           | Some p =>
             match find (fun m => negb (parent_eqb (get_parent h m) (Some p))) rest with
             | Some m => match get_parent h m with None => Some (OrphanNode m) | Some _ => Some (NoSharedParent n m) end
             | None => None   (* not reached *)
             end
           end
    end.

  (** sibling_subgraph.rs:1179-1321 [validate_subgraph] *)
  Definition validate_subgraph (h : hugr) (nodes : list N) (inputs : list (list endpoint)) (outputs : list endpoint)
      (calls : list (list endpoint)) : option (option sg_error) :=
    match shared_parent h nodes with
    | Some e => Some (Some e)
    | None =>
      match opt_find (is_non_value_edge h) (iter_io inputs outputs) with
      | None => None
      | Some (Some p) => Some (Some (UnsupportedEdgeKind p))
      | Some None =>
        match find (fun p : port => outside nodes (fst (snd p))) (iter_io inputs outputs) with
        | Some p => Some (Some (PortNodeNotInSet p))
        | None =>
          match opt_find (fun p => option_map (forallb (fun m => memN m nodes)) (other_ends h p)) (iter_io inputs outputs) with
          | None => None
          | Some (Some p) => Some (Some (DisconnectedBoundaryPort p))
          | Some None =>
            match opt_find (fun p : port => option_map (fun l => existsb (outside nodes) l && negb (existsb (existsb (ep_eqb (snd p))) (inputs ++ calls))) (other_ends h p))
                           (flat_map (node_ports h Inc) nodes),
                  opt_find (fun p : port => option_map (fun l => existsb (outside nodes) l && negb (existsb (ep_eqb (snd p)) outputs)) (other_ends h p))
                           (flat_map (node_ports h Out) nodes) with
            | Some None, Some None =>
              if negb (unique (concat inputs)) then Some (Some NonUniqueInput)
              else match check_partitions h inputs with
                   | None => None
                   | Some (Some e) => Some (Some e)
                   | Some None => match check_types h 0 inputs with Some e => Some (Some e) | None => check_calls h calls end
                   end
            | None, _ | _, None => None
            | _, _ => Some (Some NotConvex)
            end
          end
        end
      end
    end.

  (** ** Boundaries from nodes *)
  Fixpoint dedup (seen l : list N) : list N :=
    match l with [] => [] | n :: l => if memN n seen then dedup seen l else n :: dedup (n :: seen) l end.

  Fixpoint opt_filter {A} (f : A -> option bool) (l : list A) : option (list A) :=
    match l with
    | [] => Some []
    | x :: l => match f x with
                | None => None
                | Some b => option_map (fun r => if b then x :: r else r) (opt_filter f l)
                end
    end.

  (** sibling_subgraph.rs:765-800 [get_boundary_from_nodes] *)
  Definition boundary_from_nodes (h : hugr) (nodes : list N) : option (list N * list (list endpoint) * list endpoint) :=
    let ns := dedup [] nodes in
    match opt_filter (fun p : port => match is_linked h p with
                                      | Some true => match source_of h (snd p) with None => None | Some s => Some (outside ns (fst s)) end
                                      | r => r
                                      end) (flat_map (node_ports h Inc) ns),
          opt_filter (fun p : port => option_map (existsb (outside ns)) (other_ends h p)) (flat_map (node_ports h Out) ns) with
    | Some ins, Some outs => Some (ns, map (fun p : port => [snd p]) ins, map snd outs)
    | _, _ => None
    end.

  (** ** Changing the outputs *)
  Inductive set_result := SetOk (sg : subgraph) | UnknownOutput (e : endpoint) | NonUniqueLinear.

  (** sibling_subgraph.rs:1507-1518 [has_unique_linear_ports] *)
  Definition unique_linear (h : hugr) (ports : list endpoint) : bool :=
    unique (filter (fun e => match port_kind (h_ops h (fst e)) Out (snd e) with Some k => k_linear k | None => false end) ports).

  (** sibling_subgraph.rs:696-719 [set_outgoing_ports] *)
  Definition set_outgoing_ports (h : hugr) (sg : subgraph) (ports : list endpoint) : set_result :=
    match find (fun e => negb (existsb (ep_eqb e) (sg_out sg))) ports with
    | Some e => UnknownOutput e
    | None => if unique_linear h ports then SetOk {| sg_nodes := sg_nodes sg; sg_in := sg_in sg; sg_out := ports |} else NonUniqueLinear
    end.

  (** ** Single nodes *)
  Definition is_function (k : option ekind) : bool := match k with Some (EFunction _) => true | _ => false end.
  (** The ports that [drain_function_calls] (sibling_subgraph.rs:803-825) takes away.  Their grouping by source is
      not modelled; it panics if there is no single source. *)
  Definition call_port (h : hugr) (p : port) : bool :=
    let o := h_ops h (fst (snd p)) in is_port (static_port o Inc) (snd (snd p)) && is_function (static_port_kind o Inc).

  (** sibling_subgraph.rs:412-452 [from_node] *)
  Definition from_node (h : hugr) (n : N) : option subgraph :=
    match get_optype h n,
          opt_filter (is_linked h) (node_ports h Inc n),
          opt_filter (fun p : port => option_map (fun b => b || match port_kind (h_ops h n) Out (snd (snd p)) with Some k => k_value k | None => false end) (is_linked h p))
                     (node_ports h Out n) with
    | Some o, Some ins, Some outs =>
      if forallb (fun p : port => match source_of h (snd p) with Some _ => true | None => false end) (filter (call_port h) ins)
      then match order_linked h n Out, order_linked h n Inc with
           | Some false, Some false =>
             Some {| sg_nodes := [n]; sg_in := map (fun p : port => [snd p]) (filter (fun p => negb (call_port h p)) ins); sg_out := map snd outs |}
           | _, _ => None
           end
      else None
    | _, _, _ => None
    end.
End Subgraph.
