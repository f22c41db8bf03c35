(** Model of the replacement of a subgraph of siblings.
    Source: hugr-core/src/hugr/patch/simple_replace.rs, hugr-core/src/hugr/patch/port_types.rs,
    hugr-core/src/hugr/views/sibling_subgraph.rs.

    The calls that are kept by a subgraph ([function_calls]) are not used by the replacement.  A panic
    is [None] or [RPanic].  Iterators are evaluated in full, as [apply_hugr_mut] does; the first panic
    counts.  New nodes get the indices that the allocator hands out, as for [insert_hugr]. *)
From Coq Require Import List Bool NArith Arith.
From Verif Require Import TagModel TypesModel GraphModel OpModel DeadModel InsertModel InlineModel.
Import ListNotations.

(** sibling_subgraph.rs:57-89 [SiblingSubgraph] *)
Record subgraph := { sg_nodes : list N; sg_in : list (list endpoint); sg_out : list endpoint }.

(** port_types.rs:14-19 [BoundaryPort] *)
Inductive bport := Host (e : endpoint) | Repl (e : endpoint).

(** Loops whose body may panic. *)
Definition opt_flat {A B} (f : A -> option (list B)) (l : list A) : option (list B) := concat_some (map f l).
Definition enumerate {A} (l : list A) : list (nat * A) := combine (seq 0 (length l)) l.

Section Replace.
  Context {M : Type}.
  Notation hugr := (hugr op M).

  (** views.rs:632-649 [linked_ports]: panics if there is no such port. *)
  Definition inputs_of (h : hugr) (e : endpoint) : option (list endpoint) :=
    if valid_port h (fst e) Out (snd e) then Some (linked_inputs h (fst e) (snd e)) else None.
  (** views.rs:226-243 [single_linked_output], with the [expect] of its uses *)
  Definition source_of (h : hugr) (e : endpoint) : option endpoint :=
    if valid_port h (fst e) Inc (snd e) then single_linked_output h (fst e) (snd e) else None.

  Definition flow_parent (o : op) : bool := within TDataflowParent (op_tag o).

  (** views.rs:342-350 [get_io] *)
  Definition get_io (h : hugr) (n : N) : option (N * N) :=
    if flow_parent (h_ops h n) then match h_kids h n with a :: b :: _ => Some (a, b) | _ => None end else None.

  (** sibling_subgraph.rs:565-567 [get_parent] *)
  Definition sg_parent (h : hugr) (sg : subgraph) : option N :=
    match sg_nodes sg with [] => None | n :: _ => get_parent h n end.

  Inductive invalid := InvalidParentNode | InvalidRemovedNode.

  (** simple_replace.rs:92-112 [is_valid_rewrite]; the outer [option] is a panic. *)
  Definition is_valid_rewrite (h : hugr) (sg : subgraph) : option (option invalid) :=
    match sg_parent h sg with
    | None => None
    | Some parent =>
      Some (if negb (flow_parent (h_ops h parent)) then Some InvalidParentNode
            else if forallb (fun n => match get_parent h n with Some p => N.eqb p parent | None => false end &&
                                      match h_kids h n with [] => true | _ => false end) (sg_nodes sg)
                 then None else Some InvalidRemovedNode)
    end.

  (** ** The boundary *)
  Section Boundary.
    Variables host repl : hugr.
    Variable sg : subgraph.
    Variables inp out : N.          (* [get_replacement_io], simple_replace.rs:115-119 *)

    (** The source of an input of the subgraph: simple_replace.rs:326-333. *)
    Definition part_source (part : list endpoint) : option endpoint :=
      match part with [] => None | e :: _ => source_of host e end.

    (** simple_replace.rs:154-183 [linked_replacement_output_by_position]; [snap]: [SnapToHost]. *)
    Definition output_at (snap : bool) (pos : nat) : option bport :=
      match source_of repl (out, pos) with
      | None => None
      | Some e =>
        if negb (N.eqb (fst e) inp) || negb snap then Some (Repl e)
        else match nth_error (sg_in sg) (snd e) with
             | None => None
             | Some part => option_map Host (part_source part)
             end
      end.

    (** simple_replace.rs:242-264 [linked_replacement_inputs_by_position] *)
    Definition inputs_at (snap : bool) (pos : nat) : option (list bport) :=
      match inputs_of repl (inp, pos) with
      | None => None
      | Some ts =>
        opt_flat (fun t =>
          if negb (N.eqb (fst t) out) || negb snap then Some [Repl t]
          else match nth_error (sg_out sg) (snd t) with
               | None => None
               | Some e => option_map (map Host) (inputs_of host e)
               end) ts
      end.

    (** port_types.rs:40-54 [as_replacement], [as_host] *)
    Definition as_repl (b : bport) : list endpoint := match b with Repl e => [e] | Host _ => [] end.

    (** simple_replace.rs:305-346 [incoming_boundary]: from the host to the replacement *)
    Definition incoming_boundary : option (list (endpoint * endpoint)) :=
      opt_flat (fun x =>
        match part_source (snd x), inputs_at true (fst x) with
        | Some s, Some ts => Some (map (fun t => (s, t)) (flat_map as_repl ts))
        | _, _ => None
        end) (enumerate (sg_in sg)).

    (** simple_replace.rs:351-382 [outgoing_boundary]: from the replacement to the host *)
    Definition outgoing_boundary : option (list (endpoint * endpoint)) :=
      opt_flat (fun x =>
        match inputs_of host (snd x), output_at true (fst x) with
        | Some ts, Some (Repl s) => Some (map (fun t => (s, t)) ts)
        | Some _, Some (Host _) => Some []
        | _, _ => None
        end) (enumerate (sg_out sg)).

    (** simple_replace.rs:398-432 [host_to_host_boundary] *)
    Definition host_to_host_boundary : option (list (endpoint * endpoint)) :=
      opt_flat (fun x =>
        match inputs_of host (snd x), output_at true (fst x) with
        | Some ts, Some (Host s) => Some (map (fun t => (s, t)) ts)
        | Some _, Some (Repl _) => Some []
        | _, _ => None
        end) (enumerate (sg_out sg)).

    (** simple_replace.rs:485-507 [all_boundary_edges] *)
    Definition all_boundary_edges : option (list (bport * bport)) :=
      match incoming_boundary, outgoing_boundary, host_to_host_boundary with
      | Some a, Some b, Some c =>
        Some (map (fun x => (Host (fst x), Repl (snd x))) a ++ map (fun x => (Repl (fst x), Host (snd x))) b ++
              map (fun x => (Host (fst x), Host (snd x))) c)
      | _, _, _ => None
      end.
  End Boundary.

  (** ** Application *)
  (** port_types.rs:33-38 [map_replacement] *)
  Definition map_port (m : list (N * N)) (b : bport) : option endpoint :=
    match b with
    | Host e => Some e
    | Repl e => option_map (fun n => (n, snd e)) (InsertModel.lookup m (fst e))
    end.

  Definition add_boundary (m : list (N * N)) (h : hugr) (x : bport * bport) : option hugr :=
    match map_port m (fst x), map_port m (snd x) with
    | Some s, Some t => connect h (fst s) (snd s) (fst t) (snd t)
    | _, _ => None
    end.

  Definition forget (m : list (N * N)) (n : N) : list (N * N) := filter (fun e => negb (N.eqb (fst e) n)) m.

  Inductive replaced :=
  | Refused (e : invalid)
  | Replaced (h : hugr) (node_map : list (N * N)) (removed : list (N * op))
  | RPanic.

  (** The operations returned by [remove_node] are those of the nodes. *)
  Definition replace_with (h repl : hugr) (sg : subgraph) (fresh : list N) (parent : N) : option (hugr * list (N * N)) :=
    match get_io repl (h_entry repl) with
    | None => None
    | Some (inp, out) =>
      match all_boundary_edges h repl sg inp out, insert_hugr OModule in_count out_count h parent repl fresh with
      | Some edges, Done (h1, m) =>
        match InsertModel.lookup m inp, InsertModel.lookup m out, InsertModel.lookup m (h_entry repl) with
        | Some inp', Some out', Some entry' =>
          match remove_nodes h1 [inp'; out'] with
          | None => None
          | Some h2 =>
            match each (fun h c => set_parent h c parent) (h_kids h2 entry') h2 with
            | None => None
            | Some h3 =>
              match remove_node OModule h3 entry' with
              | None => None
              | Some h4 =>
                let m := forget (forget (forget m inp) out) (h_entry repl) in
                match each (add_boundary m) edges h4 with
                | None => None
                | Some h5 => option_map (fun h6 => (h6, m)) (remove_nodes h5 (sg_nodes sg))
                end
              end
            end
          end
        | _, _, _ => None
        end
      | _, _ => None
      end
    end.

  (** simple_replace.rs:580-647 [apply_hugr_mut] *)
  Definition apply_replacement (h repl : hugr) (sg : subgraph) (fresh : list N) : replaced :=
    match is_valid_rewrite h sg with
    | None => RPanic
    | Some (Some e) => Refused e
    | Some None =>
      match sg_parent h sg with
      | None => RPanic
      | Some parent =>
        match replace_with h repl sg fresh parent with
        | Some (h', m) => Replaced h' m (map (fun n => (n, h_ops h n)) (sg_nodes sg))
        | None => RPanic
        end
      end
    end.

  (** ** Construction *)
  (** sibling_subgraph.rs:543-562 [signature]; [None]: an [expect] fails *)
  Definition port_type (h : hugr) (d : dir) (e : endpoint) : option ty :=
    match dataflow_signature (h_ops h (fst e)) with Some s => nth_error (side d s) (snd e) | None => None end.
  Definition sg_signature (h : hugr) (sg : subgraph) : option sig :=
    match all_some (map (fun part => match part with [] => None | e :: _ => port_type h Inc e end) (sg_in sg)),
          all_some (map (port_type h Out) (sg_out sg)) with
    | Some i, Some o => Some (i, o)
    | _, _ => None
    end.

  (** simple_replace.rs:50-73 [try_new] *)
  Inductive creation := Created | InvalidDataflowGraph | InvalidSignature | CPanic.
  Definition try_new (h repl : hugr) (sg : subgraph) : creation :=
    match sg_signature h sg with
    | None => CPanic
    | Some s =>
      match inner_signature (h_ops repl (h_entry repl)) with
      | None => InvalidDataflowGraph
      | Some r => if row_eqb (fst s) (fst r) && row_eqb (snd s) (snd r) then Created else InvalidSignature
      end
    end.

  (** sibling_subgraph.rs:616-649 [create_simple_replacement] *)
  Definition order_linked (h : hugr) (n : N) (d : dir) : option bool :=
    match other_port (h_ops h n) d with
    | None => Some false
    | Some i => if valid_port h n d i
                then Some (existsb (at_port n d i) (h_links h)) else None
    end.
  Definition create_simple_replacement (h repl : hugr) (sg : subgraph) : creation :=
    if negb (flow_parent (h_ops repl (h_entry repl))) then InvalidDataflowGraph
    else match get_io repl (h_entry repl) with
         | None => CPanic
         | Some (inp, out) =>
           match order_linked repl inp Out, order_linked repl out Inc with
           | Some false, Some false => try_new h repl sg
           | _, _ => CPanic
           end
         end.
End Replace.
Arguments Refused {M}. Arguments Replaced {M}. Arguments RPanic {M}.
