(** Model of the normalization of control flow graphs.
    Source: hugr-passes/src/normalize_cfgs.rs:34-65, 161-339, 448-524.

    The HUGR is seen with the control flow graph as its entrypoint (as by [with_entrypoint_mut]).
    Simplifications: how two blocks are merged ([mk_rep] and applying the replacement, :55-61, :341-446)
    is a parameter, as are the operation that unpacks tuples and the index of the next new node.  A
    panic is [None]. *)
From Coq Require Import List Bool NArith Arith.
From Verif Require Import TagModel TypesModel GraphModel OpModel DeadModel InlineModel ReplaceModel.
Import ListNotations.

Notation "'do' x <- e ; f" := (opt_bind e (fun x => f)) (at level 200, x pattern, e at level 100, f at level 200, right associativity).

Section Norm.
  Context {M : Type}.
  Notation hugr := (hugr op M).
  (** The merged block that replaces the two. *)
  Variable merge : hugr -> N -> N -> option (hugr * N).
  (** prelude [UnpackTuple::new] *)
  Variable unpack_tuple : row -> op.
  Variable fresh : hugr -> N.

  Definition add_child (h : hugr) (p : N) (o : op) : option (hugr * N) :=
    option_map (fun h' => (h', fresh h)) (add_node_with_parent OpModel.in_count OpModel.out_count h (fresh h) p o).

  (** :38-64: the work list is taken from its end; [fuel] bounds the number of blocks looked at. *)
  Fixpoint merge_loop (fuel : nat) (h : hugr) (worklist : list N) (merged : nat) : option (hugr * nat) :=
    match fuel with
    | 0 => None
    | S fuel =>
      match rev worklist with
      | [] => Some (h, merged)
      | n :: rest =>
        match output_neighbours h n with
        | [succ] =>
          if Nat.eqb (length (input_neighbours h succ)) 1 && negb (memN succ (firstn 2 (h_kids h (h_entry h)))) then
            do (h', b) <- merge h n succ; merge_loop fuel h' (rev rest ++ [b]) (S merged)
          else merge_loop fuel h (rev rest) merged
        | _ => merge_loop fuel h (rev rest) merged
        end
      end
    end.
  (** :34-65 [merge_basic_blocks]; the entrypoint is a control flow graph. *)
  Definition merge_basic_blocks (h : hugr) : option (hugr * nat) :=
    merge_loop (S (2 * length (h_nodes h))) h (h_kids h (h_entry h)) 0.

  (** :451-470 [take_inputs] *)
  Fixpoint take_ports (n : N) (ports : list nat) (h : hugr) (values orders : list endpoint) : option (hugr * list endpoint * list endpoint) :=
    match ports with
    | [] => Some (h, values, orders)
    | p :: ports =>
      let srcs := linked_outputs h n p in
      do h <- disconnect h n Inc p;
      match port_kind (h_ops h n) Inc p with
      | Some (EValue _) => if Nat.eqb (length srcs) 1 then take_ports n ports h (values ++ srcs) orders else None
      | Some EOrder => match orders with [] => take_ports n ports h values (orders ++ srcs) | _ => None end
      | _ => None
      end
    end.
  Definition take_inputs (h : hugr) (n : N) : option (hugr * list endpoint * list endpoint) := take_ports n (seq 0 (h_in h n)) h [] [].

  (** :472-479 [tuple_elems] *)
  Definition tuple_elems (h : hugr) (e : endpoint) : option row :=
    match port_kind (h_ops h (fst e)) Out (snd e) with
    | Some (EValue (TSum [r] _)) => Some r
    | _ => None
    end.

  (** :483-512 [wire_unpack_first] *)
  Definition wire_unpack_first (h : hugr) (values orders : list endpoint) (dst : N) : option hugr :=
    do parent <- get_parent h dst;
    match values with
    | [] => None
    | first :: values =>
      do tys <- tuple_elems h first;
      do (h, unp) <- add_child h parent (unpack_tuple tys);
      do h <- connect h (fst first) (snd first) unp 0;
      do h <- each (fun h i => connect h unp i dst i) (seq 0 (length tys)) h;
      do order_tgt <- other_port (h_ops h dst) Inc;
      do h <- each (fun h x => if Nat.ltb (fst x + length tys) order_tgt then connect h (fst (snd x)) (snd (snd x)) dst (fst x + length tys) else None)
                   (enumerate values) h;
      each (fun h s => connect h (fst s) (snd s) dst order_tgt) orders h
    end.

  (** :515-524 [unpack_before_output] *)
  Definition unpack_before_output (h : hugr) (out : N) (new_types : row) : option hugr :=
    do (h, values, orders) <- take_inputs h out;
    match h_ops h out with
    | OOutput old =>
      do h <- replace_op h out (OOutput new_types);
      do h <- add_ports h out Inc (length new_types) (length old);
      wire_unpack_first h values orders out
    | _ => None
    end.

  (** :171-179 [ancestor_block]: the ancestor that is a child of the control flow graph *)
  Fixpoint ancestor_block (fuel : nat) (h : hugr) (cfg n : N) : option N :=
    match fuel with
    | 0 => None
    | S fuel => match get_parent h n with
                | Some p => if N.eqb p cfg then Some n else ancestor_block fuel h cfg p
                | None => None
                end
    end.
  Definition block_above (h : hugr) (n : N) : option N := ancestor_block (length (h_nodes h)) h (h_entry h) n.

  Definition move_kids (h : hugr) (from to : N) : option hugr := each (fun h c => set_parent h c to) (h_kids h from) h.

  Inductive norm_result :=
  | CfgToDfg
  | CfgPreserved (entry_nodes_moved : list N) (exit_dfg : option N) (num_merged : nat).

  (** :189-220, case 1a: everything is in the entry block. *)
  Definition cfg_to_dfg (h : hugr) (cfg entry : N) (blk : op) : option hugr :=
    match h_ops h cfg, blk with
    | OCfg sg, OBlock ins oo rows =>
      do out <- successor_input rows oo 0;
      if row_eqb ins (fst sg) && row_eqb out (snd sg) then
        do h <- each (fun h b => remove_subtree OModule h b) (tl (h_kids h cfg)) h;
        do h <- move_kids h entry cfg;
        do h <- remove_node OModule h entry;
        do h <- replace_op h cfg (ODfg sg);
        do (_, output) <- get_io h cfg;
        unpack_before_output h output (snd sg)
      else None
    | _, _ => None
    end.

  (** :222-274, case 1b: move the entry block before the control flow graph. *)
  Definition move_entry (h : hugr) (cfg parent entry succ : N) (blk : op) : option (hugr * list N) :=
    match blk with
    | OBlock ins oo rows =>
      do new_ins <- successor_input rows oo 0;
      let nonlocal n := existsb (fun s => match block_above h s with Some b => negb (N.eqb b entry) | None => false end) (output_neighbours h n) in
      if existsb (fun n => existsb (fun s => negb (is_some (block_above h s))) (output_neighbours h n)) (h_kids h entry) then None
      else
        let nonlocal_srcs := filter nonlocal (h_kids h entry) in
        do (h, dfg) <- add_child h parent (ODfg (ins, new_ins));
        do (_, output) <- get_io h entry;
        do h <- move_kids h entry dfg;
        do h <- move_sibling false h succ entry;
        do h <- remove_node OModule h entry;
        do h <- unpack_before_output h output new_ins;
        do h <- each (fun h p =>
                  do h <- each (fun h s => connect h (fst s) (snd s) dfg p) (linked_outputs h cfg p) h;
                  disconnect h cfg Inc p) (seq 0 (h_in h cfg)) h;
        match h_ops h cfg with
        | OCfg sg =>
          do h <- replace_op h cfg (OCfg (new_ins, snd sg));
          do h <- add_ports h cfg Inc (length new_ins) (length (fst sg));
          do h <- each (fun h p => connect h dfg p cfg p) (seq 0 (h_out h dfg)) h;
          do h <- each (fun h n => add_other_edge h n cfg) nonlocal_srcs h;
          let moved := skipn 2 (h_kids h dfg) in
          match inline_dfg h dfg with
          | Inlined h _ => Some (h, moved)
          | _ => None
          end
        | _ => None
        end
    | _ => None
    end.

  (** :278-286: may the block before the exit be moved? *)
  Definition last_block (h : hugr) (exit : N) : option N :=
    match input_neighbours h exit with
    | [pred] =>
      if Nat.eqb (length (output_neighbours h pred)) 1 &&
         forallb (fun ch => forallb (fun src => match block_above h src with Some b => N.eqb b pred | None => true end) (input_neighbours h ch)) (h_kids h pred)
      then Some pred else None
    | _ => None
    end.

  (** :287-332, case 2: move the block before the exit after the control flow graph. *)
  Definition move_last (h : hugr) (cfg parent exit pred : N) : option (hugr * N) :=
    do (_, output) <- get_io h pred;
    match h_ops h pred, h_ops h cfg with
    | OBlock new_outs _ _, OCfg sg =>
      let result_tys := snd sg in
      do h <- replace_op h cfg (OCfg (fst sg, new_outs));
      do h <- add_ports h cfg Out (length new_outs) (length result_tys);
      do h <- replace_op h pred (OExit new_outs);
      do h <- set_num_ports h pred 1 0;
      do h <- move_sibling false h pred exit;
      do h <- remove_node OModule h exit;
      do (h, dfg) <- add_child h parent (ODfg (new_outs, result_tys));
      do h <- move_kids h pred dfg;
      do h <- unpack_before_output h output result_tys;
      do h <- each (fun h p =>
                let tgts := linked_inputs h cfg p in
                do h <- disconnect h cfg Out p;
                each (fun h t => connect h dfg p (fst t) (snd t)) tgts h) (seq 0 (h_out h cfg)) h;
      do h <- each (fun h p => connect h cfg p dfg p) (seq 0 (h_in h dfg)) h;
      Some (h, dfg)
    | _, _ => None
    end.

  (** :161-339 [normalize_cfg]; the entrypoint is a control flow graph. *)
  Definition normalize_cfg (h : hugr) : option (hugr * norm_result) :=
    do (h, num_merged) <- merge_basic_blocks h;
    let cfg := h_entry h in
    match h_kids h cfg with
    | entry :: exit :: _ =>
      do parent <- get_parent h cfg;
      let blk := h_ops h entry in
      let single := match output_neighbours h entry, input_neighbours h entry with [succ], [] => Some succ | _, _ => None end in
      match blk with
      | OBlock _ _ _ =>
        if match single with Some succ => N.eqb succ exit | None => false end then
          do h <- cfg_to_dfg h cfg entry blk; Some (h, CfgToDfg)
        else
          do (h, moved) <- match single with Some succ => move_entry h cfg parent entry succ blk | None => Some (h, []) end;
          match last_block h exit with
          | None => Some (h, CfgPreserved moved None num_merged)
          | Some pred => do (h, dfg) <- move_last h cfg parent exit pred; Some (h, CfgPreserved moved (Some dfg) num_merged)
          end
      | _ => None
      end
    | _ => None
    end.
End Norm.
