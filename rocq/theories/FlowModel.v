(** Model of the dataflow analysis.
    Source: hugr-passes/src/dataflow/datalog.rs, hugr-passes/src/dataflow/results.rs,
            hugr-passes/src/dataflow.rs, hugr-passes/src/dataflow/value_row.rs.

    The rules of the [ascent_run!] block are functions from the facts known so far to the facts that
    follow from them; a fact of a lattice is joined with the value that is known for its key.  [ascent]
    may apply the rules in any order and to older facts, and stops when nothing changes ([stable]).
    The relations that depend on the graph only are evaluated directly.

    The type arguments of loaded functions are left out ([unit]): no rule looks at them.  The context
    ([DFContext]) is a function; state of its own is not modelled.  [None] is a panic. *)
From Coq Require Import List Bool NArith Arith.
From Verif Require Import BMap PValModel TypesModel GraphModel OpModel DeadModel InlineModel ReplaceModel TagModel.
Import ListNotations.

(** ops/constant.rs [Value]: sums, extension constants and functions, the latter two by their content. *)
Inductive value (E F : Type) := KSum (tag : nat) (vs : list (value E F)) | KExt (e : E) | KFun (f : F).
Arguments KSum {E F}. Arguments KExt {E F}. Arguments KFun {E F}.

(** datalog.rs:398-403 [LatticeWrapper] *)
Inductive target := TNone | TNode (n : N) | TAny.
(** datalog.rs:419-430 [join_mut] *)
Definition target_join (new old : target) : target * bool :=
  match old, new with
  | TAny, _ | _, TNone => (old, false)
  | TNode a, TNode b => if N.eqb a b then (old, false) else (TAny, true)
  | _, _ => (new, true)
  end.

Section Flow.
  Context {V E F M : Type}.
  Variable veq : forall a b : V, {a = b} + {a <> b}.
  Notation pv := (pv V N unit).
  Notation hugr := (hugr op M).
  Notation join := (join veq N.eq_dec).

  (** What the analysis needs to know about operations and constants. *)
  Record context := {
    (* whether an extension operation is [MakeTuple] (true) or [UnpackTuple] (false) *)
    tuple_kind : N -> N -> option bool;
    (* [interpret_leaf_op] (dataflow.rs:30-37): node, inputs, outputs so far *)
    interpret : N -> list pv -> list pv -> list pv;
    (* [value_from_opaque], [value_from_const_hugr] (dataflow.rs:69-77); a location is a node and the fields *)
    from_opaque : N * list nat -> E -> option V;
    from_hugr : N * list nat -> F -> option V;
    (* the constants in [Const] nodes *)
    content : N -> value E F }.

  Variable ctx : context.
  Variable h : hugr.

  (** dataflow.rs:82-108 [partial_from_const] *)
  Fixpoint partial_from_const (loc : N * list nat) (c : value E F) : pv :=
    match c with
    | KSum tag vs =>
      PSum [(N.of_nat tag,
             (fix each (i : nat) (vs : list (value E F)) : list pv :=
                match vs with [] => [] | v :: vs => partial_from_const (fst loc, snd loc ++ [i]) v :: each (S i) vs end) 0 vs)]
    | KExt e => match from_opaque ctx loc e with Some v => Val v | None => Top end
    | KFun f => match from_hugr ctx loc f with Some v => Val v | None => Top end
    end.

  (** ** Facts *)
  Inductive fact :=
  | FOut (n : N) (p : nat) (v : pv)
  | FIn (n : N) (p : nat) (v : pv)
  | FRow (n : N) (vs : list pv)
  | FCase (cond case : N)
  | FBlock (cfg b : N)
  | FCallee (call : N) (t : target).

  Record facts := {
    f_out : N -> nat -> option pv;
    f_in : N -> nat -> option pv;
    f_row : N -> option (list pv);
    f_case : list (N * N);
    f_block : list (N * N);
    f_callee : N -> option target }.

  Definition no_facts : facts :=
    {| f_out := fun _ _ => None; f_in := fun _ _ => None; f_row := fun _ => None; f_case := []; f_block := [];
       f_callee := fun _ => None |}.

  Definition upd2 {X} (f : N -> nat -> option X) (n : N) (p : nat) (x : X) : N -> nat -> option X :=
    fun m q => if N.eqb m n && Nat.eqb q p then Some x else f m q.
  Definition pair_eqb (a b : N * N) : bool := N.eqb (fst a) (fst b) && N.eqb (snd a) (snd b).

  (** Adding a fact, and whether that changes anything; rows of different lengths panic
      (value_row.rs:56-63 [join_mut]). *)
  Definition add_fact (s : facts) (f : fact) : option (facts * bool) :=
    match f with
    | FOut n p v =>
      let (x, c) := match f_out s n p with None => (v, true) | Some x => join v x end in
      Some ({| f_out := upd2 (f_out s) n p x; f_in := f_in s; f_row := f_row s; f_case := f_case s; f_block := f_block s; f_callee := f_callee s |}, c)
    | FIn n p v =>
      let (x, c) := match f_in s n p with None => (v, true) | Some x => join v x end in
      Some ({| f_out := f_out s; f_in := upd2 (f_in s) n p x; f_row := f_row s; f_case := f_case s; f_block := f_block s; f_callee := f_callee s |}, c)
    | FRow n vs =>
      match (match f_row s n with None => Some (vs, true) | Some r => row_join veq N.eq_dec vs r end) with
      | None => None
      | Some (r, c) =>
        Some ({| f_out := f_out s; f_in := f_in s; f_row := upd (f_row s) n (Some r); f_case := f_case s; f_block := f_block s; f_callee := f_callee s |}, c)
      end
    | FCase a b =>
      if existsb (pair_eqb (a, b)) (f_case s) then Some (s, false)
      else Some ({| f_out := f_out s; f_in := f_in s; f_row := f_row s; f_case := (a, b) :: f_case s; f_block := f_block s; f_callee := f_callee s |}, true)
    | FBlock a b =>
      if existsb (pair_eqb (a, b)) (f_block s) then Some (s, false)
      else Some ({| f_out := f_out s; f_in := f_in s; f_row := f_row s; f_case := f_case s; f_block := (a, b) :: f_block s; f_callee := f_callee s |}, true)
    | FCallee n t =>
      let (x, c) := match f_callee s n with None => (t, true) | Some x => target_join t x end in
      Some ({| f_out := f_out s; f_in := f_in s; f_row := f_row s; f_case := f_case s; f_block := f_block s; f_callee := upd (f_callee s) n (Some x) |}, c)
    end.

  (** ** Rules *)
  Variable proto : list (N * nat * pv).

  Definition in_count (n : N) : nat := length (fst (sig_of (h_ops h n))).
  Definition out_count (n : N) : nat := length (snd (sig_of (h_ops h n))).
  (** datalog.rs:171-172 [in_wire], [out_wire] (views.rs:477-495) *)
  Definition in_wires (n : N) : list nat := seq 0 (Nat.min (h_in h n) (in_count n)).
  Definition out_wires (n : N) : list nat := seq 0 (Nat.min (h_out h n) (out_count n)).
  (** The facts [in_wire_value(n, _, _)]; they are about inputs of the signature. *)
  Definition in_facts (s : facts) (n : N) : list (nat * pv) :=
    flat_map (fun p => match f_in s n p with Some v => [(p, v)] | None => [] end) (seq 0 (in_count n)).

  Definition on_nodes (f : N -> list fact) : option (list fact) := Some (flat_map f (h_nodes h)).
  Definition row_facts (n : N) (vs : list pv) : list fact := map (fun x => FOut n (fst x) (snd x)) (enumerate vs).
  Definition pass (n : N) (l : list (nat * pv)) : list fact := map (fun x => FOut n (fst x) (snd x)) l.

  (** datalog.rs:181 *)
  Definition r_out_bottom : option (list fact) := on_nodes (fun n => map (fun p => FOut n p Bottom) (out_wires n)).
  (** datalog.rs:184-186 *)
  Definition r_wires (s : facts) : option (list fact) :=
    on_nodes (fun n => flat_map (fun p =>
      match single_linked_output h n p with
      | Some e => match f_out s (fst e) (snd e) with Some v => [FIn n p v] | None => [] end
      | None => []
      end) (in_wires n)).
  (** datalog.rs:189-193 *)
  Definition r_in_bottom : option (list fact) := on_nodes (fun n => map (fun p => FIn n p Bottom) (in_wires n)).
  Definition r_proto : option (list fact) :=
    Some (flat_map (fun x : N * nat * pv =>
      let '(n, p, v) := x in
      if contains h n && match dataflow_signature (h_ops h n) with Some g => Nat.ltb p (length (fst g)) | None => false end
      then [FIn n p v] else []) proto).
  (** datalog.rs:196-197 *)
  Fixpoint set_nth {X} (i : nat) (x : X) (l : list X) : list X :=
    match l, i with
    | [], _ => []
    | _ :: l, 0 => x :: l
    | y :: l, S i => y :: set_nth i x l
    end.
  Definition r_row_bottom : option (list fact) :=
    on_nodes (fun n => match dataflow_signature (h_ops h n) with Some g => [FRow n (repeat Bottom (length (fst g)))] | None => [] end).
  Definition r_row (s : facts) : option (list fact) :=
    on_nodes (fun n => map (fun x : nat * pv => FRow n (set_nth (fst x) (snd x) (repeat Bottom (in_count n)))) (in_facts s n)).

  Definition is_some {X} (x : option X) : bool := match x with Some _ => true | None => false end.
  (** ops.rs:312-314 [is_container], ops/validate.rs: the operations that may have children *)
  Definition is_container (o : op) : bool :=
    match o with
    | OModule | OFuncDefn _ _ _ | ODfg _ | OBlock _ _ _ | OTailLoop _ _ _ | OCfg _ | OConditional _ _ _ | OCase _ => true
    | _ => false
    end.
  Fixpoint row_contains_bottom (vs : list pv) : bool :=
    match vs with [] => false | v :: vs => contains_bottom v || row_contains_bottom vs end.

  Inductive leaf := LPanic | LSkip | LOuts (vs : list pv).
  (** datalog.rs:442-512 [propagate_leaf_op] *)
  Definition propagate_leaf_op (n : N) (ins : list pv) (num_outs : nat) : leaf :=
    match h_ops h n with
    | OExt e nm _ g =>
      match tuple_kind ctx e nm with
      | Some true => LOuts [PSum [(0%N, ins)]]
      | Some false =>
        match ins with
        | [tup] => match variant_values tup 0%N (length (snd g)) with
                   | inl _ => LPanic
                   | inr None => LSkip
                   | inr (Some vs) => LOuts vs
                   end
        | _ => LPanic
        end
      | None =>
        LOuts (if row_contains_bottom ins then repeat Bottom num_outs else interpret ctx n ins (repeat Top num_outs))
      end
    | OTag t _ => LOuts [PSum [(N.of_nat t, ins)]]
    | OInput _ | OOutput _ | OExit _ | OCall _ _ _ | OCallIndirect _ => LSkip
    | OLoadConstant _ =>
      match ins, single_linked_output h n 0 with
      | [], Some e => match h_ops h (fst e) with
                      | OConst c _ _ => LOuts [partial_from_const (n, []) (content ctx c)]
                      | _ => LPanic
                      end
      | _, _ => LPanic
      end
    | OLoadFunction _ _ _ =>
      match ins, single_linked_output h n 0 with [], Some e => LOuts [LF (fst e) tt] | _, _ => LPanic end
    | _ => LPanic
    end.
  (** datalog.rs:200-207 *)
  Definition r_leaf (s : facts) : option (list fact) :=
    opt_flat (fun n =>
      match dataflow_signature (h_ops h n), f_row s n with
      | Some g, Some vs =>
        if is_container (h_ops h n) then Some []
        else match propagate_leaf_op n vs (length (snd g)) with
             | LPanic => None
             | LSkip => Some []
             | LOuts outs => Some (row_facts n outs)
             end
      | _, _ => Some []
      end) (h_nodes h).

  Definition input_child (n : N) : option N := option_map fst (get_io h n).
  Definition output_child (n : N) : option N := option_map snd (get_io h n).
  (** The fields of a variant of the first value of a row, and the other values (value_row.rs:31-38). *)
  Definition unpacked (dest : N) (row : list pv) (k len : nat) : option (list fact) :=
    match unpack_first row (N.of_nat k) len with
    | inl _ => None
    | inr None => Some []
    | inr (Some vs) => Some (row_facts dest vs)
    end.

  Definition is_dfg (o : op) : bool := match o with ODfg _ => true | _ => false end.
  (** datalog.rs:213-217 *)
  Definition r_dfg (s : facts) : option (list fact) :=
    on_nodes (fun n => if is_dfg (h_ops h n) then
                         match get_io h n with
                         | Some (i, o) => pass i (in_facts s n) ++ pass n (in_facts s o)
                         | None => []
                         end
                       else []).
  (** datalog.rs:221-244; the tags are [CONTINUE_TAG] = 0 and [BREAK_TAG] = 1 (controlflow.rs). *)
  Definition r_loop (s : facts) : option (list fact) :=
    opt_flat (fun n =>
      match h_ops h n, get_io h n with
      | OTailLoop ji jo _, Some (i, o) =>
        match f_row s o with
        | Some row =>
          match unpacked i row 0 (length ji), unpacked n row 1 (length jo) with
          | Some a, Some b => Some (pass i (in_facts s n) ++ a ++ b)
          | _, _ => None
          end
        | None => Some (pass i (in_facts s n))
        end
      | _, _ => Some []
      end) (h_nodes h).
  Definition is_case (o : op) : bool := match o with OCase _ => true | _ => false end.
  (** datalog.rs:248-276; indexing [sum_rows] may panic *)
  Definition r_cond (s : facts) : option (list fact) :=
    opt_flat (fun n =>
      match h_ops h n with
      | OConditional rows _ _ =>
        opt_flat (fun x : nat * N =>
          let (k, case) := x in
          if is_case (h_ops h case) then
            match get_io h case with
            | Some (i, o) =>
              let ins := match f_row s n with
                         | Some row => match nth_error rows k with Some r => unpacked i row k (length r) | None => None end
                         | None => Some []
                         end in
              let outs := if existsb (pair_eqb (n, case)) (f_case s) then pass n (in_facts s o) else [] in
              option_map (fun l => l ++ outs) ins
            | None => Some []
            end
          else Some []) (enumerate (h_kids h n))
      | _ => Some []
      end) (h_nodes h).
  Definition r_case (s : facts) : option (list fact) :=
    on_nodes (fun n =>
      match h_ops h n with
      | OConditional _ _ _ =>
        flat_map (fun x : nat * N =>
          let (k, case) := x in
          match f_in s n 0 with
          | Some v => if is_case (h_ops h case) && supports_tag v (N.of_nat k) then [FCase n case] else []
          | None => []
          end) (enumerate (h_kids h n))
      | _ => []
      end).

  (** views.rs:332-334 [output_neighbours], in the order of the ports *)
  Definition successors (b : N) : list N := flat_map (fun p => map fst (linked_inputs h b p)) (seq 0 (h_out h b)).
  Definition is_cfg (o : op) : bool := match o with OCfg _ => true | _ => false end.
  Definition is_block (o : op) : bool := match o with OBlock _ _ _ => true | _ => false end.
  (** datalog.rs:279-290 *)
  Definition r_block (s : facts) : option (list fact) :=
    on_nodes (fun n =>
      if is_cfg (h_ops h n) then
        (match h_kids h n with e :: _ => [FBlock n e] | [] => [] end) ++
        flat_map (fun x : N * N =>
          if N.eqb (fst x) n then
            match output_child (snd x) with
            | Some o =>
              match f_in s o 0 with
              | Some v => flat_map (fun y : nat * N => if supports_tag v (N.of_nat (fst y)) then [FBlock n (snd y)] else []) (enumerate (successors (snd x)))
              | None => []
              end
            | None => []
            end
          else []) (f_block s)
      else []).
  (** datalog.rs:293-297 *)
  Definition r_cfg_in (s : facts) : option (list fact) :=
    on_nodes (fun n =>
      if is_cfg (h_ops h n) then
        match h_kids h n with
        | e :: _ => match input_child e with Some i => pass i (in_facts s n) | None => [] end
        | [] => []
        end
      else []).
  (** datalog.rs:301-306 [_cfg_succ_dest] *)
  Definition dests (cfg succ : N) : list N :=
    (match nth_error (h_kids h cfg) 1 with Some e => if N.eqb e succ then [cfg] else [] | None => [] end) ++
    (if memN succ (h_kids h cfg) && is_block (h_ops h succ) then match input_child succ with Some i => [i] | None => [] end else []).
  (** datalog.rs:309-317 *)
  Definition r_branch (s : facts) : option (list fact) :=
    opt_flat (fun x : N * N =>
      let (cfg, b) := x in
      match h_ops h b with
      | OBlock _ _ rows =>
        match output_child b with
        | Some o =>
          opt_flat (fun y : nat * N =>
            let (k, succ) := y in
            opt_flat (fun d =>
              match f_row s o with
              | Some row => match nth_error rows k with Some r => unpacked d row k (length r) | None => None end
              | None => Some []
              end) (if is_cfg (h_ops h cfg) then dests cfg succ else [])) (enumerate (successors b))
        | None => Some []
        end
      | _ => Some []
      end) (f_block s).

  Definition is_call (o : op) : bool := match o with OCall _ _ _ => true | _ => false end.
  Definition is_call_indirect (o : op) : bool := match o with OCallIndirect _ => true | _ => false end.
  (** datalog.rs:320-334 *)
  Definition r_call (s : facts) : option (list fact) :=
    on_nodes (fun n =>
      if is_call (h_ops h n) then
        match static_source h n with
        | Some f => match get_io h f with
                    | Some (i, o) => pass i (in_facts s n) ++ pass n (in_facts s o)
                    | None => []
                    end
        | None => []
        end
      else []).
  (** datalog.rs:432-440 [load_func] *)
  Definition load_func (v : pv) : target :=
    match v with Bottom | PSum _ => TNone | LF n _ => TNode n | Val _ | Top => TAny end.
  (** datalog.rs:338-342 *)
  Definition r_callee (s : facts) : option (list fact) :=
    on_nodes (fun n => if is_call_indirect (h_ops h n) then
                         match f_in s n 0 with Some v => [FCallee n (load_func v)] | None => [] end
                       else []).
  (** datalog.rs:344-360 *)
  Definition r_indirect (s : facts) : option (list fact) :=
    on_nodes (fun n =>
      match f_callee s n with
      | Some (TNode f) =>
        match get_io h f with
        | Some (i, o) =>
          flat_map (fun x : nat * pv => match fst x with 0 => [] | S p => [FOut i p (snd x)] end) (in_facts s n) ++ pass n (in_facts s o)
        | None => []
        end
      | _ => []
      end).
  (** datalog.rs:364-370 *)
  Definition r_indirect_top (s : facts) : option (list fact) :=
    on_nodes (fun n =>
      match h_ops h n, f_in s n 0 with
      | OCallIndirect g, Some (Top | Val _) => map (fun p => FOut n p Top) (seq 0 (length (snd g)))
      | _, _ => []
      end).

  Definition derive (s : facts) : option (list fact) :=
    concat_some
      [r_out_bottom; r_wires s; r_in_bottom; r_proto; r_row_bottom; r_row s; r_leaf s; r_dfg s; r_loop s; r_cond s; r_case s;
       r_block s; r_cfg_in s; r_branch s; r_call s; r_callee s; r_indirect s; r_indirect_top s].

  (** ** Runs *)
  (** The facts of a run so far, latest first: each is the previous one with a fact added that follows from the
      latest or from earlier facts. *)
  Inductive run : list facts -> Prop :=
  | run_start : run [no_facts]
  | run_add s hist old f fs new c :
      run (s :: hist) -> In old (s :: hist) -> derive old = Some fs -> In f fs -> add_fact s f = Some (new, c) ->
      run (new :: s :: hist).

  (** Nothing changes any more. *)
  Definition stable (s : facts) : Prop :=
    exists fs, derive s = Some fs /\ forall f, In f fs -> exists s', add_fact s f = Some (s', false).

  (** A run that applies all rules over and over. *)
  Definition unchanged (s : facts) (f : fact) : bool := match add_fact s f with Some (_, false) => true | _ => false end.
  Fixpoint add_all (s : facts) (fs : list fact) : option facts :=
    match fs with
    | [] => Some s
    | f :: fs => match add_fact s f with None => None | Some (s, _) => add_all s fs end
    end.
  Fixpoint sweeps (fuel : nat) (s : facts) : option facts :=
    match fuel, derive s with
    | S fuel, Some fs => if forallb (unchanged s) fs then Some s else match add_all s fs with None => None | Some s => sweeps fuel s end
    | _, _ => None
    end.
End Flow.

(** ** Initial values *)
Section Start.
  Context {V M : Type}.
  Notation pv := (pv V N unit).
  Notation hugr := (hugr op M).
  Variable h : hugr.

  (** datalog.rs:43-47 [prepopulate_wire] *)
  Definition prepopulate_wire (proto : list (N * nat * pv)) (n : N) (i : nat) (v : pv) : list (N * nat * pv) :=
    proto ++ map (fun e : endpoint => (fst e, snd e, v)) (linked_inputs h n i).

  (** The given values, [Top] elsewhere; [None]: no such input. *)
  Fixpoint fill_values (vals : list pv) (given : list (nat * pv)) : option (list pv) :=
    match given with
    | [] => Some vals
    | (p, v) :: given => if Nat.ltb p (length vals) then fill_values (set_nth p v vals) given else None
    end.

  Inductive prepopulated := Prepared (proto : list (N * nat * pv)) | BadEntry (o : op) | PrepPanic.
  (** datalog.rs:58-93 [prepopulate_inputs] *)
  Definition prepopulate_inputs (proto : list (N * nat * pv)) (n : N) (given : list (nat * pv)) : prepopulated :=
    if negb (contains h n) then Prepared proto
    else
      match h_ops h n with
      | OBlock _ _ _ | OCase _ | OFuncDefn _ _ _ =>
        match get_io h n with
        | None => PrepPanic
        | Some (i, _) =>
          match dataflow_signature (h_ops h i) with
          | None => PrepPanic
          | Some g =>
            match fill_values (repeat Top (length (snd g))) given with
            | None => PrepPanic
            | Some vals => Prepared (fold_left (fun pr x => prepopulate_wire pr i (fst x) (snd x)) (enumerate vals) proto)
            end
          end
        end
      | ODfg _ | OTailLoop _ _ _ | OCfg _ | OConditional _ _ _ =>
        match fill_values (repeat Top (in_count h n)) given with
        | None => PrepPanic
        | Some vals => Prepared (proto ++ map (fun x => (n, fst x, snd x)) (enumerate vals))
        end
      | o => BadEntry o
      end.

  (** datalog.rs:110-140 [run]: the values that the analysis starts with *)
  Definition run_proto (proto : list (N * nat * pv)) (given : list (nat * pv)) : prepopulated :=
    if is_module (h_ops h (h_entry h)) then match given with [] => Prepared proto | _ => PrepPanic end
    else if negb (match given with [] => true | _ => false end) || negb (existsb (fun x : N * nat * pv => N.eqb (fst (fst x)) (h_entry h)) proto)
         then match prepopulate_inputs proto (h_entry h) given with BadEntry _ => PrepPanic | r => r end
         else Prepared proto.
End Start.

(** ** Results *)
Section Results.
  Context {V M : Type}.
  Notation hugr := (hugr op M).
  Variable h : hugr.
  Variable s : @facts V.

  (** Results are kept for the descendants of the entrypoint (datalog.rs:372-395). *)
  Definition entry_desc (n : N) : bool := memN n (descendants h (h_entry h)).
  (** results.rs:26-28 [read_out_wire] *)
  Definition read_out_wire (n : N) (p : nat) : option (pv V N unit) := if entry_desc n then f_out s n p else None.

  Inductive termination := NeverBreaks | NeverContinues | BreaksAndContinues.
  (** results.rs:35-44, 117-131 [tail_loop_terminates]; the outer [option] is a panic *)
  Definition tail_loop_terminates (n : N) : option (option termination) :=
    match h_ops h n with
    | OTailLoop _ _ _ =>
      match get_io h n with
      | Some (_, o) =>
        match (if entry_desc o then f_in s o 0 else None) with
        | Some v => Some (Some (if supports_tag v 1%N then if supports_tag v 0%N then BreaksAndContinues else NeverContinues else NeverBreaks))
        | None => None
        end
      | None => None
      end
    | _ => Some None
    end.
  (** results.rs:53-62 [case_reachable] *)
  Definition case_reachable (n : N) : option bool :=
    if is_case (h_ops h n) then
      match get_parent h n with
      | Some p => match h_ops h p with
                  | OConditional _ _ _ => Some (entry_desc n && existsb (pair_eqb (p, n)) (f_case s))
                  | _ => None
                  end
      | None => None
      end
    else None.
  (** results.rs:70-80 [bb_reachable] *)
  Definition bb_reachable (n : N) : option bool :=
    match get_parent h n with
    | Some p =>
      if is_cfg (h_ops h p) then
        match h_ops h n with
        | OBlock _ _ _ | OExit _ => Some (entry_desc n && existsb (pair_eqb (p, n)) (f_block s))
        | _ => None
        end
      else None
    | None => None
    end.
End Results.
