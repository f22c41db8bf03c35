(** Model of moving the blocks of a control-flow graph into a nested one.
    Source: hugr-core/src/hugr/patch/outline_cfg.rs.

    The set of blocks is a hash set: it is a list without repetitions, in an order about which nothing is assumed.  A
    panic is [OutlinePanic].  The block that is inserted is built by a builder (builder/cfg.rs) and inserted with
    [insert_hugr]; here its nodes are added one by one, and their numbers are parameters. *)
From Coq Require Import List Bool NArith Arith.
From Verif Require Import TypesModel GraphModel OpModel DeadModel InlineModel ReplaceModel.
Import ListNotations.

Section Outline.
  Context {M : Type}.
  Notation hugr := (hugr op M).

  (** outline_cfg.rs:212-235 [OutlineCfgError] *)
  Inductive outline_error :=
  | NotSiblings
  | ParentNotCfg (p : N)
  | MultipleEntryNodes (a b : N)
  | MultipleExitNodes (a b : N)
  | MultipleExitEdges (n : N) (succs : list N)
  | NoEntryNode
  | NoExitNode.

  (** outline_cfg.rs:35-38, the result of [compute_entry_exit] *)
  Inductive found := Found (entry exit outside : N) | NotFound (e : outline_error).

  (** outline_cfg.rs:39-48: the one parent of all blocks *)
  Definition common_parent (h : hugr) (blocks : list N) : option N :=
    match blocks with
    | [] => None
    | n :: rest =>
      match get_parent h n with
      | Some p => if forallb (fun m => match get_parent h m with Some q => N.eqb q p | None => false end) rest then Some p else None
      | None => None
      end
    end.

  (** outline_cfg.rs:57-60 *)
  Definition enters (h : hugr) (blocks : list N) (first n : N) : bool :=
    N.eqb n first || existsb (fun pred => negb (memN pred blocks)) (input_neighbours h n).
  (** outline_cfg.rs:70 *)
  Definition external_succs (h : hugr) (blocks : list N) (n : N) : list N :=
    filter (fun s => negb (memN s blocks)) (output_neighbours h n).

  (** outline_cfg.rs:56-88, the loop *)
  Fixpoint scan (h : hugr) (blocks : list N) (first : N) (todo : list N) (entry : option N) (exit : option (N * N)) : found :=
    match todo with
    | [] =>
      match entry, exit with
      | Some e, Some (x, o) => Found e x o
      | None, _ => NotFound NoEntryNode
      | _, None => NotFound NoExitNode
      end
    | n :: todo =>
      let leave entry :=
        match external_succs h blocks n with
        | [] => scan h blocks first todo entry exit
        | [o] => match exit with
                 | None => scan h blocks first todo entry (Some (n, o))
                 | Some (prev, _) => NotFound (MultipleExitNodes prev n)
                 end
        | succs => NotFound (MultipleExitEdges n succs)
        end in
      if enters h blocks first n then
        match entry with
        | None => leave (Some n)
        | Some prev => NotFound (MultipleEntryNodes prev n)
        end
      else leave entry
    end.

  (** outline_cfg.rs:35-89 [compute_entry_exit]; [None] is a panic *)
  Definition compute_entry_exit (h : hugr) (blocks : list N) : option found :=
    match common_parent h blocks with
    | None => Some (NotFound NotSiblings)
    | Some p =>
      match h_ops h p with
      | OCfg _ => match h_kids h p with [] => None | first :: _ => Some (scan h blocks first blocks None None) end
      | _ => Some (NotFound (ParentNotCfg p))
      end
    end.

  (** outline_cfg.rs:109-118, the result of [apply_hugr_mut] *)
  Inductive outlined :=
  | Outlined (h : hugr) (block cfg : N)
  | OutlineFailed (e : outline_error)
  | OutlinePanic.

  (** outline_cfg.rs:135-152, the numbers of the nodes of the new block *)
  Record fresh := { f_block : N; f_in : N; f_out : N; f_cfg : N; f_exit : N; f_const : N; f_load : N }.
  (** outline_cfg.rs:141, the type of the constant *)
  Definition unit_sum : ty := new_sum [[]].
  Notation "'let*' x := a 'in' b" := (match a with Some x => b | None => None end) (at level 200, x name, b at level 200).
  Notation add := (add_node_with_parent OpModel.in_count OpModel.out_count).

  (** outline_cfg.rs:135-152: a block with a graph of the given type that has nothing but an exit block *)
  Definition add_block (f : fresh) (h : hugr) (p : N) (inputs outputs : row) : option hugr :=
    let* h := add h (f_block f) p (OBlock inputs outputs [[]]) in
    let* h := add h (f_in f) (f_block f) (OInput inputs) in
    let* h := add h (f_out f) (f_block f) (OOutput (unit_sum :: outputs)) in
    let* h := add h (f_cfg f) (f_block f) (OCfg (inputs, outputs)) in
    let* h := add h (f_exit f) (f_cfg f) (OExit outputs) in
    let* h := each (fun h k => connect h (f_in f) k (f_cfg f) k) (seq 0 (length inputs)) h in
    let* h := add h (f_const f) (f_block f) (OConst 0 unit_sum true) in
    let* h := add h (f_load f) (f_block f) (OLoadConstant unit_sum) in
    let* h := connect h (f_const f) 0 (f_load f) 0 in
    let* h := connect h (f_load f) 0 (f_out f) 0 in
    each (fun h k => connect h (f_cfg f) k (f_out f) (S k)) (seq 0 (length outputs)) h.

  (** outline_cfg.rs:154-163: edges into the entry block from outside go to the new block *)
  Definition move_entry_edges (blocks : list N) (new entry : N) (h : hugr) : option hugr :=
    if Nat.eqb (h_in h entry) 1 then
      each (fun h pe => if memN (fst pe) blocks then Some h
                        else let* h := disconnect h (fst pe) Out (snd pe) in connect h (fst pe) (snd pe) new 0)
           (linked_outputs h entry 0) h
    else None.

  (** outline_cfg.rs:172-181: the port of the exit block that leads out of the set *)
  Definition exit_port (h : hugr) (exit outside : N) : option nat :=
    if forallb (fun p => match linked_inputs h exit p with [(_, 0)] => true | _ => false end) (seq 0 (h_out h exit)) then
      match filter (fun p => match linked_inputs h exit p with [(t, _)] => N.eqb t outside | _ => false end) (seq 0 (h_out h exit)) with
      | [p] => Some p
      | _ => None
      end
    else None.

  (** outline_cfg.rs:131-206, after the signature is known *)
  Definition move_blocks (f : fresh) (h : hugr) (blocks : list N) (entry exit outside p : N) (inputs outputs : row) : option hugr :=
    match h_kids h p with
    | [] => None
    | outer_entry :: _ =>
      let new := f_block f in
      let* h := add_block f h p inputs outputs in
      let* h := move_entry_edges blocks new entry h in
      let* h := (if N.eqb entry outer_entry then move_sibling false h new outer_entry else Some h) in
      let* k := exit_port h exit outside in
      let* h := disconnect h exit Out k in
      let* h := connect h new 0 outside 0 in
      match h_kids h (f_cfg f) with
      | [inner_exit] =>
        let* h := move_sibling false h entry inner_exit in
        let* h := each (fun h n => if N.eqb n entry then Some h else set_parent h n (f_cfg f)) blocks h in
        connect h exit k inner_exit 0
      | _ => None
      end
    end.

  (** outline_cfg.rs:115-206 [apply_hugr_mut] *)
  Definition outline (f : fresh) (h : hugr) (blocks : list N) : outlined :=
    match compute_entry_exit h blocks with
    | None => OutlinePanic
    | Some (NotFound e) => OutlineFailed e
    | Some (Found entry exit outside) =>
      match h_ops h entry, block_input (h_ops h outside), get_parent h entry with
      | OBlock inputs _ _, Some outputs, Some p =>
        match move_blocks f h blocks entry exit outside p inputs outputs with
        | Some h' => Outlined h' (f_block f) (f_cfg f)
        | None => OutlinePanic
        end
      | _, _, _ => OutlinePanic
      end
    end.
End Outline.
