(** Model of how builders wire up nodes, and of the circuit builder.
    Source: hugr-core/src/builder/build_traits.rs:40-90, 172-222, 312-330, 404-470, 550-720, 722-850,
            hugr-core/src/builder/circuit.rs:46-240.

    A builder is its HUGR and its container node.  The extensions that a builder collects are left
    out, as is the index of the next new node, which is a parameter.  The error of a wrong wire is
    kept, and the HUGR is returned with it, since it may have been changed already.  A panic is
    [BPanic]. *)
From Coq Require Import List Bool NArith Arith.
From Verif Require Import TagModel TypesModel GraphModel OpModel DeadModel InlineModel.
Import ListNotations.

(** builder.rs:225-262 [BuilderWiringError] *)
Inductive wiring_error :=
| NoCopyLinear (t : ty) (src : endpoint)
| NoRelationIntergraph (src dst : endpoint)
| NonCopyableIntergraph (src dst : endpoint) (t : ty).

Inductive built (H A : Type) :=
| Built (h : H) (x : A)
| Failed (h : H) (e : wiring_error)
| BPanic.
Arguments Built {H A}. Arguments Failed {H A}. Arguments BPanic {H A}.

Section Build.
  Context {M : Type}.
  Notation hugr := (hugr op M).
  Variable fresh : hugr -> N.

  (** build_traits.rs:806-813: the windows of [iter::successors(dst_parent, get_parent)]; [n] is an
      ancestor.  The fuel is the number of nodes. *)
  Fixpoint sibling_of (h : hugr) (src_parent : N) (src_parent_parent : option N) (fuel : nat) (n : N) : option N :=
    match fuel with
    | 0 => None
    | S fuel =>
      match get_parent h n with
      | None => None
      | Some p => if N.eqb p src_parent || match src_parent_parent with Some q => N.eqb p q | None => false end
                  then Some n else sibling_of h src_parent src_parent_parent fuel p
      end
    end.

  Definition parent_eqb (a b : option N) : bool :=
    match a, b with Some a, Some b => N.eqb a b | None, None => true | _, _ => false end.

  (** build_traits.rs:843-849: the last step *)
  Definition join (h : hugr) (src : endpoint) (dst : endpoint) (local : bool) : built hugr bool :=
    match connect h (fst src) (snd src) (fst dst) (snd dst) with
    | None => BPanic
    | Some h =>
      match port_kind (h_ops h (fst dst)) Inc (snd dst) with
      | None => BPanic
      | Some k => Built h (local && k_value k)
      end
    end.

  (** build_traits.rs:776-850 [wire_up] *)
  Definition wire_up (h : hugr) (src dst : endpoint) : built hugr bool :=
    if negb (contains h (fst src)) then BPanic
    else
      let src_parent := get_parent h (fst src) in
      let dst_parent := get_parent h (fst dst) in
      let local := parent_eqb src_parent dst_parent in
      match port_kind (h_ops h (fst src)) Out (snd src) with
      | None => BPanic
      | Some (EValue t) =>
        if negb local then
          if negb (copyable t) then Failed h (NonCopyableIntergraph src dst t)
          else
            match src_parent with
            | None => BPanic
            | Some sp =>
              match match dst_parent with Some dp => sibling_of h sp (get_parent h sp) (length (h_nodes h)) dp | None => None end with
              | None => Failed h (NoRelationIntergraph src dst)
              | Some sib =>
                if negb (within TControlFlowChild (op_tag (h_ops h (fst src)))) && negb (within TControlFlowChild (op_tag (h_ops h sib)))
                then match add_other_edge h (fst src) sib with Some h => join h src dst local | None => BPanic end
                else join h src dst local
              end
            end
        else if negb (copyable t) && negb (match linked_inputs h (fst src) (snd src) with [] => true | _ => false end)
        then Failed h (NoCopyLinear t src)
        else join h src dst local
      | Some _ => join h src dst local
      end.

  (** build_traits.rs:746-755 [wire_up_inputs] *)
  Fixpoint wire_up_inputs (h : hugr) (ws : list endpoint) (n : N) (port : nat) : built hugr unit :=
    match ws with
    | [] => Built h tt
    | w :: ws =>
      match wire_up h w (n, port) with
      | Built h _ => wire_up_inputs h ws n (S port)
      | Failed h e => Failed h e
      | BPanic => BPanic
      end
    end.

  (** build_traits.rs:722-739 [add_node_with_wires], :204-213 [add_dataflow_op]: the node and the number of its value outputs *)
  Definition add_op (h : hugr) (parent : N) (o : op) (ws : list endpoint) : built hugr (N * nat) :=
    match add_node_with_parent OpModel.in_count OpModel.out_count h (fresh h) parent o with
    | None => BPanic
    | Some h1 =>
      match wire_up_inputs h1 ws (fresh h) 0 with
      | Built h2 _ => Built h2 (fresh h, value_port_count o Out)
      | Failed h2 e => Failed h2 e
      | BPanic => BPanic
      end
    end.

  (** build_traits.rs:315-328 [set_outputs] *)
  Definition set_outputs (h : hugr) (parent : N) (ws : list endpoint) : built hugr unit :=
    match h_kids h parent with
    | _ :: out :: _ => wire_up_inputs h ws out 0
    | _ => BPanic
    end.

  (** build_traits.rs:404-424 [load_const]; an error is unwrapped *)
  Definition load_const (h : hugr) (parent cst : N) : built hugr endpoint :=
    match h_ops h cst with
    | OConst _ t _ => match add_op h parent (OLoadConstant t) [(cst, 0)] with Built h (n, _) => Built h (n, 0) | _ => BPanic end
    | _ => BPanic
    end.

  (** build_traits.rs:427-430 [add_load_const] *)
  Definition add_load_const (h : hugr) (parent : N) (v : N) (t : ty) (ok : bool) : built hugr endpoint :=
    match add_node_with_parent OpModel.in_count OpModel.out_count h (fresh h) parent (OConst v t ok) with
    | None => BPanic
    | Some h1 => load_const h1 parent (fresh h)
    end.

  (** build_traits.rs:592-606 [make_sum] *)
  Definition make_sum (h : hugr) (parent : N) (tag : nat) (variants : list row) (ws : list endpoint) : built hugr endpoint :=
    match add_op h parent (OTag tag variants) ws with
    | Built h (n, _) => Built h (n, 0)
    | Failed h e => Failed h e
    | BPanic => BPanic
    end.

  (** ** The circuit builder: circuit.rs *)
  Definition wires := list (option endpoint).
  Inductive unit_in := UWire (w : endpoint) | ULinear (i : nat).
  Inductive appended :=
  | Appended (h : hugr) (ws : wires) (outs : list endpoint)
  | InvalidWireIndex (i : nat)
  | MismatchedLinearInputs (h : hugr) (ws : wires) (is : list nat)
  | AppendFailed (h : hugr) (e : wiring_error)
  | AppendPanic.

  (** circuit.rs:65-68 [tracked_wire] *)
  Definition tracked (ws : wires) (i : nat) : option endpoint := match nth_error ws i with Some w => w | None => None end.

  (** circuit.rs:133-153: the wires of the inputs, or the first index that is wrong *)
  Fixpoint unit_wires (ws : wires) (us : list unit_in) : list endpoint + nat :=
    match us with
    | [] => inl []
    | UWire w :: us => match unit_wires ws us with inl l => inl (w :: l) | inr i => inr i end
    | ULinear i :: us => match tracked ws i with
                         | None => inr i
                         | Some w => match unit_wires ws us with inl l => inl (w :: l) | inr i => inr i end
                         end
    end.
  Fixpoint set_nth {A} (i : nat) (x : A) (l : list A) : list A :=
    match l, i with
    | [], _ => []
    | _ :: l, 0 => x :: l
    | y :: l, S i => y :: set_nth i x l
    end.
  (** circuit.rs:162-173: output [p] replaces the wire of the linear input [p]; the others are returned. *)
  Fixpoint put_outputs (n : N) (us : list unit_in) (ports : list nat) (ws : wires) : wires * list endpoint :=
    match ports with
    | [] => (ws, [])
    | p :: ports =>
      match nth_error us p with
      | Some (ULinear i) => put_outputs n us ports (set_nth i (Some (n, p)) ws)
      | _ => let (ws, outs) := put_outputs n us ports ws in (ws, (n, p) :: outs)
      end
    end.
  (** circuit.rs:175-181: linear inputs without an output *)
  Definition leftover (us : list unit_in) (outs : nat) : list nat :=
    flat_map (fun u => match u with ULinear i => [i] | UWire _ => [] end) (skipn outs us).

  (** circuit.rs:121-184 [append_with_outputs] *)
  Definition append_with_outputs (h : hugr) (parent : N) (ws : wires) (o : op) (us : list unit_in) : appended :=
    match unit_wires ws us with
    | inr i => InvalidWireIndex i
    | inl ins =>
      match add_op h parent o ins with
      | BPanic => AppendPanic
      | Failed h e => AppendFailed h e
      | Built h (n, outs) =>
        let (ws', rest) := put_outputs n us (seq 0 outs) ws in
        match leftover us outs with
        | [] => Appended h ws' rest
        | is => MismatchedLinearInputs h ws' is
        end
      end
    end.

  (** circuit.rs:211-214 [track_wire], :223-231 [untrack_wire], :237-239 [finish] *)
  Definition track (ws : wires) (w : endpoint) : wires * nat := (ws ++ [Some w], length ws).
  Definition untrack (ws : wires) (i : nat) : option (wires * endpoint) := option_map (fun w => (set_nth i None ws, w)) (tracked ws i).
  Definition finish (ws : wires) : list endpoint := flat_map (fun w => match w with Some w => [w] | None => [] end) ws.
End Build.
