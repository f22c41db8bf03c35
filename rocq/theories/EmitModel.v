(** Model of the emission of functions as LLVM code: dataflow regions, control flow, calls, constants.
    Source: hugr-llvm/src/emit/ops.rs:31-387, hugr-llvm/src/emit/ops/cfg.rs:22-216,
            hugr-llvm/src/emit/func.rs:127-325, hugr-llvm/src/emit/func/mailbox.rs, hugr-llvm/src/emit.rs:292-394,
            hugr-llvm/src/sum.rs:646-675.

    A function is a list of instructions for each basic block; what ends a block is an instruction as
    well.  [EmitFuncContext] is a state that is passed along: the code so far, the block the builder is
    at the end of, and counters for blocks, registers and anonymous mailboxes.  [None] is an error or a
    panic.

    Simplifications.
    - The values of a row that are read or computed together are one register ([row]), which also knows
      how many there are.
    - The mailbox of a wire (an [alloca] made when the wire is first mentioned, and kept in a map) is
      named by the wire; anonymous mailboxes are numbered.  The [alloca] instructions are left out.
    - LLVM types are left out, and with them errors about types without an LLVM type.
    - The code for an extension operation or an extension constant is a single instruction.
    - Values of sum type are abstract; for their representation see [LayoutModel].
    - Functions are named by their node (for the names see [MangleModel]); the work list of functions in
      functions is left out.
    - The position of a block in the function (order of the blocks) is left out. *)
From Coq Require Import List Bool NArith Arith.
From Verif Require Import TypesModel GraphModel OpModel DeadModel InlineModel ReplaceModel ValidModel FlowModel.
Import ListNotations.

(** [collect] into a [Result] or an [Option]. *)
Fixpoint each_some {X Y} (f : X -> option Y) (l : list X) : option (list Y) :=
  match l with
  | [] => Some []
  | x :: l => match f x, each_some f l with Some y, Some ys => Some (y :: ys) | _, _ => None end
  end.

(** A mailbox: of an output port, or anonymous. *)
Inductive ptr := Wire (n : N) (p : nat) | Anon (k : N).

Section Code.
  Context {E : Type}.

  (** Constants without functions. *)
  Inductive lconst := LTag (tag : nat) (vs : list lconst) | LExt (e : E).

  Inductive instr :=
  | ILoad (r : N) (ps : list ptr)
  | IStore (ps : list ptr) (a : N)
  | IExt (r : N) (node : N) (a : N)                  (* the code of an extension operation *)
  | ITag (r : N) (tag : nat) (a : N)                 (* [build_tag] *)
  | IConst (r : N) (c : lconst)
  | IFunc (r : N) (f : N)                            (* the address of a function *)
  | ICall (r : N) (f : N) (a : N) (results : nat)
  | ICallPtr (r : N) (a : N) (results : nat)         (* the function is the first value of the row *)
  | IFields (r : N) (tag len : nat) (a : N)          (* the [len] fields of the first value ([build_untag]), then the other values *)
  | IBr (b : N)
  | ISwitch (a : N) (default : N) (cases : list (nat * N))   (* on the tag of the first value ([build_get_tag]) *)
  | IRet (a : N).

  Record row := { r_reg : N; r_len : nat }.

  (** emit/func.rs:47-58 [EmitFuncContext]: what matters here. *)
  Record st := { code : N -> list instr; cur : N; blocks : N; regs : N; anon : N }.

  Definition append (i : instr) (s : st) : st :=
    {| code := upd (code s) (cur s) (code s (cur s) ++ [i]); cur := cur s; blocks := blocks s; regs := regs s; anon := anon s |}.
  Definition position (b : N) (s : st) : st :=
    {| code := code s; cur := b; blocks := blocks s; regs := regs s; anon := anon s |}.
  (** emit/func.rs:127-138 [new_basic_block] *)
  Definition new_block (s : st) : N * st :=
    (blocks s, {| code := code s; cur := cur s; blocks := N.succ (blocks s); regs := regs s; anon := anon s |}).
  Definition new_reg (s : st) : N * st :=
    (regs s, {| code := code s; cur := cur s; blocks := blocks s; regs := N.succ (regs s); anon := anon s |}).

  Fixpoint from (k : N) (n : nat) : list N := match n with 0 => [] | S n => k :: from (N.succ k) n end.
  (** emit/func.rs:190-202 [new_row_mail_box] *)
  Definition new_row_mail_box (n : nat) (s : st) : list ptr * st :=
    (map Anon (from (anon s) n),
     {| code := code s; cur := cur s; blocks := blocks s; regs := regs s; anon := anon s + N.of_nat n |}).

  (** emit/func/mailbox.rs:137-146 [RowMailBox::read] *)
  Definition read (ps : list ptr) (s : st) : row * st :=
    let (r, s) := new_reg s in ({| r_reg := r; r_len := length ps |}, append (ILoad r ps) s).
  (** emit/func/mailbox.rs:148-167 [RowMailBox::write], :187-193 [RowPromise::finish]; [zip_eq] panics. *)
  Definition write (ps : list ptr) (a : row) (s : st) : option st :=
    if Nat.eqb (length ps) (r_len a) then Some (append (IStore ps (r_reg a)) s) else None.

  (** An instruction with a result. *)
  Definition compute (i : N -> instr) (len : nat) (s : st) : row * st :=
    let (r, s) := new_reg s in ({| r_reg := r; r_len := len |}, append (i r) s).

  (** emit/func.rs:226-237 [build_positioned] *)
  Definition build_positioned {X} (b : N) (f : st -> option (X * st)) (s : st) : option (X * st) :=
    match f (position b s) with Some (x, s') => Some (x, position (cur s) s') | None => None end.

  (** sum.rs:646-675 [build_destructure] of the first value of a row; [lens] are the numbers of fields of the variants.
      All handlers append the other values to the fields. *)
  Fixpoint destructure_cases (handler : nat -> row -> st -> option st) (a : row) (k : nat) (lens : list nat) (s : st)
      : option (list N * st) :=
    match lens with
    | [] => Some ([], s)
    | len :: lens =>
      let (bb, s) := new_block s in
      let s := position bb s in
      let (vs, s) := compute (fun r => IFields r k len (r_reg a)) (len + (r_len a - 1)) s in
      match handler k vs s with
      | None => None
      | Some s => match destructure_cases handler a (S k) lens s with Some (bbs, s) => Some (bb :: bbs, s) | None => None end
      end
    end.
  Definition build_destructure (handler : nat -> row -> st -> option st) (a : row) (lens : list nat) (s : st) : option st :=
    if Nat.eqb (r_len a) 0 then None
    else
      match destructure_cases handler a 0 lens s with
      | Some (bb :: bbs, s') => Some (append (ISwitch (r_reg a) bb (combine (seq 1 (length bbs)) bbs)) (position (cur s) s'))
      | _ => None
      end.
End Code.
Arguments lconst : clear implicits. Arguments instr : clear implicits. Arguments st : clear implicits.

Section Emit.
  Context {E F M : Type}.
  Notation hugr := (hugr op M).
  Notation st := (st E).
  (** The constants in [Const] nodes; the extension operations for which there is code. *)
  Variable content : N -> value E F.
  Variable handled : N -> bool.
  Variable h : hugr.

  (** emit/ops.rs:115-139 [emit_value] *)
  Fixpoint emit_value (c : value E F) : option (lconst E) :=
    match c with
    | KExt e => Some (LExt e)
    | KFun _ => None
    | KSum tag vs =>
      option_map (LTag tag)
        ((fix each (vs : list (value E F)) : option (list (lconst E)) :=
            match vs with
            | [] => Some []
            | v :: vs => match emit_value v, each vs with Some x, Some xs => Some (x :: xs) | _, _ => None end
            end) vs)
    end.

  (** emit/func.rs:264-277 [node_outs_rmb], :279-296 [map_wire] *)
  Definition node_outs (n : N) : list ptr := map (Wire n) (out_wires h n).
  (** emit/func.rs:241-260 [node_ins_rmb] *)
  Definition node_ins (n : N) : option (list ptr) :=
    each_some (fun p => option_map (fun e => Wire (fst e) (snd e)) (single_linked_output h n p)) (in_wires h n).

  (** utils/fat.rs:172-183 [get_io] *)
  Definition fat_io (n : N) : option (N * N) :=
    match get_io h n with
    | Some (i, o) => match h_ops h i, h_ops h o with OInput _, OOutput _ => Some (i, o) | _, _ => None end
    | None => None
    end.

  (** The function that a static input leads to: emit/ops.rs:244-251, emit.rs:126-143 *)
  Definition function_at (n : N) (port : nat) : option N :=
    match single_linked_output h n port with
    | Some (f, _) =>
      match h_ops h f with
      | OFuncDecl _ s _ | OFuncDefn _ s _ => match p_params s with [] => Some f | _ => None end
      | _ => None
      end
    | None => None
    end.

  Section Rec.
    (** [emit_dataflow_parent] for the regions inside: container, inputs, where to put the outputs. *)
    Variable rec : N -> row -> list ptr -> st -> option st.

    (** emit/ops.rs:165-220 [emit_conditional]: the code of the cases *)
    Fixpoint emit_cases (exit_bb : N) (exit_rmb : list ptr) (kids : list N) (s : st) : option (list (list ptr * N) * st) :=
      match kids with
      | [] => Some ([], s)
      | c :: kids =>
        match h_ops h c, fat_io c with
        | OCase _, Some (i, _) =>
          let (rmb, s) := new_row_mail_box (out_count h i) s in
          let (bb, s) := new_block s in
          match build_positioned bb (fun s =>
                  let (ins, s) := read rmb s in
                  match rec c ins exit_rmb s with
                  | Some s => Some (tt, append (IBr exit_bb) s)
                  | None => None
                  end) s with
          | None => None
          | Some (_, s) => match emit_cases exit_bb exit_rmb kids s with Some (l, s) => Some ((rmb, bb) :: l, s) | None => None end
          end
        | _, _ => None
        end
      end.
    Definition emit_conditional (rows : list (list ty)) (n : N) (ins : row) (outs : list ptr) (s : st) : option st :=
      let (exit_rmb, s) := new_row_mail_box (out_count h n) s in
      let (exit_bb, s) := new_block s in
      match build_positioned exit_bb (fun s => let (vs, s) := read exit_rmb s in
                                               option_map (pair tt) (write outs vs s)) s with
      | None => None
      | Some (_, s) =>
        match emit_cases exit_bb exit_rmb (h_kids h n) s with
        | None => None
        | Some (cases, s) =>
          match build_destructure (fun tag vs s =>
                  match nth_error cases tag with
                  | None => None
                  | Some (rmb, bb) => option_map (append (IBr bb)) (write rmb vs s)
                  end) ins (map (@length ty) rows) s with
          | None => None
          | Some s => Some (position exit_bb s)
          end
        end
      end.

    (** emit/ops.rs:307-358 [emit_tail_loop] *)
    Definition emit_tail_loop (ji jo : list ty) (n : N) (ins : row) (outs : list ptr) (s : st) : option st :=
      let (out_bb, s) := new_block s in
      let (body_bb, s) := new_block s in
      match fat_io n with
      | None => None
      | Some (i, o) =>
        let body_i := node_outs i in
        match node_ins o with
        | None => None
        | Some body_o =>
          match write body_i ins s with
          | None => None
          | Some s =>
            let s := append (IBr body_bb) s in
            match build_positioned body_bb (fun s =>
                    let (vs, s) := read body_i s in
                    match rec n vs body_o s with
                    | None => None
                    | Some s =>
                      let (res, s) := read body_o s in
                      option_map (pair tt)
                        (build_destructure (fun tag vs s =>
                           if Nat.eqb tag 0 then option_map (append (IBr body_bb)) (write body_i vs s)
                           else option_map (append (IBr out_bb)) (write outs vs s)) res [length ji; length jo] s)
                    end) s with
            | None => None
            | Some (_, s) => Some (position out_bb s)
            end
          end
        end
      end.

    (** emit/ops/cfg.rs:36-73 [CfgEmitter::new]: the block and the mailbox of each child *)
    Fixpoint cfg_blocks (n exit_bb : N) (kids : list N) (s : st) : option (list (N * (N * list ptr)) * st) :=
      match kids with
      | [] => Some ([], s)
      | c :: kids =>
        match h_ops h c with
        | OExit _ =>
          let (rmb, s) := new_row_mail_box (out_count h n) s in
          match cfg_blocks n exit_bb kids s with Some (l, s) => Some ((c, (exit_bb, rmb)) :: l, s) | None => None end
        | OBlock _ _ _ =>
          let (bb, s) := new_block s in
          match fat_io c with
          | None => None
          | Some (i, _) =>
            match cfg_blocks n exit_bb kids s with Some (l, s) => Some ((c, (bb, node_outs i)) :: l, s) | None => None end
          end
        | _ => cfg_blocks n exit_bb kids s
        end
      end.
    (** emit/ops/cfg.rs:83-94 [get_block_data] *)
    Definition block_data (bbs : list (N * (N * list ptr))) (n : N) : option (N * list ptr) :=
      option_map snd (find (fun x => N.eqb (fst x) n) bbs).

    (** emit/ops/cfg.rs:147-202 [emit_dataflow_block] *)
    Definition emit_block (bbs : list (N * (N * list ptr))) (b : N) (rows : list (list ty)) (s : st) : option st :=
      match block_data bbs b, each_some (block_data bbs) (successors h b) with
      | Some (bb, rmb), Some succ =>
        option_map snd (build_positioned bb (fun s =>
          match fat_io b with
          | None => None
          | Some (_, o) =>
            match node_ins o with
            | None => None
            | Some outs_rmb =>
              let (ins, s) := read rmb s in
              match rec b ins outs_rmb s with
              | None => None
              | Some s =>
                let (res, s) := read outs_rmb s in
                option_map (pair tt)
                  (build_destructure (fun tag vs s =>
                     match nth_error succ tag with
                     | None => None
                     | Some (target, rmb) => option_map (append (IBr target)) (write rmb vs s)
                     end) res (map (@length ty) rows) s)
              end
            end
          end) s)
      | _, _ => None
      end.
    (** emit/ops/cfg.rs:204-215 [emit_exit_block] *)
    Definition emit_exit (bbs : list (N * (N * list ptr))) (c : N) (outs : list ptr) (s : st) : option st :=
      match block_data bbs c with
      | None => None
      | Some (bb, rmb) =>
        option_map snd (build_positioned bb (fun s => let (vs, s) := read rmb s in option_map (pair tt) (write outs vs s)) s)
      end.
    (** emit/ops/cfg.rs:98-146 [emit_children]; the outputs can be taken once. *)
    Fixpoint emit_cfg_kids (bbs : list (N * (N * list ptr))) (outs : option (list ptr)) (kids : list N) (s : st) : option st :=
      match kids with
      | [] => Some s
      | c :: kids =>
        match h_ops h c with
        | OBlock _ _ rows =>
          match emit_block bbs c rows s with Some s => emit_cfg_kids bbs outs kids s | None => None end
        | OExit _ =>
          match outs with
          | None => None
          | Some ps => match emit_exit bbs c ps s with Some s => emit_cfg_kids bbs None kids s | None => None end
          end
        | OConst _ _ _ | OFuncDecl _ _ _ | OFuncDefn _ _ _ => emit_cfg_kids bbs outs kids s
        | _ => None
        end
      end.
    (** utils/fat.rs:214-231 [get_entry_exit] *)
    Definition entry_exit (n : N) : option (N * N) :=
      match h_kids h n with
      | a :: b :: _ => match h_ops h a, h_ops h b with OBlock _ _ _, OExit _ => Some (a, b) | _, _ => None end
      | _ => None
      end.
    (** emit/ops.rs:300-305 [emit_cfg] *)
    Definition emit_cfg (n : N) (ins : row) (outs : list ptr) (s : st) : option st :=
      let (exit_bb, s) := new_block s in
      match cfg_blocks n exit_bb (h_kids h n) s, entry_exit n with
      | Some (bbs, s), Some (entry, exit) =>
        match block_data bbs entry with
        | None => None
        | Some (entry_bb, rmb) =>
          match write rmb ins s with
          | None => None
          | Some s =>
            match emit_cfg_kids bbs (Some outs) (h_kids h n) (append (IBr entry_bb) s), block_data bbs exit with
            | Some s, Some (bb, _) => Some (position bb s)
            | _, _ => None
            end
          end
        end
      | _, _ => None
      end.

    (** A single instruction whose result goes to the outputs. *)
    Definition emit_simple (i : N -> instr E) (len : nat) (outs : list ptr) (s : st) : option st :=
      let (vs, s) := compute i len s in write outs vs s.

    (** emit/ops.rs:360-387 [emit_optype], with :151-163 [emit_tag], :222-235 [emit_load_constant], :237-258 [emit_call],
        :260-275 [emit_call_indirect], :277-298 [emit_load_function].  A handler of an extension operation is taken to
        compute as many values as there are outputs. *)
    Definition emit_optype (n : N) (ins : row) (outs : list ptr) (s : st) : option st :=
      match h_ops h n with
      | OTag t _ => emit_simple (fun r => ITag r t (r_reg ins)) 1 outs s
      | ODfg _ => rec n ins outs s
      | OExt _ _ _ _ => if handled n then emit_simple (fun r => IExt r n (r_reg ins)) (length outs) outs s else None
      | OLoadConstant _ =>
        match single_linked_output h n 0 with
        | Some (k, _) =>
          match h_ops h k with
          | OConst c _ _ => match emit_value (content c) with Some x => emit_simple (fun r => IConst r x) 1 outs s | None => None end
          | _ => None
          end
        | None => None
        end
      | OCall f _ _ =>
        match p_params f, function_at n (in_count h n) with
        | [], Some callee => emit_simple (fun r => ICall r callee (r_reg ins) (length outs)) (length outs) outs s
        | _, _ => None
        end
      | OCallIndirect _ =>
        if Nat.eqb (r_len ins) 0 then None
        else emit_simple (fun r => ICallPtr r (r_reg ins) (length outs)) (length outs) outs s
      | OLoadFunction f _ _ =>
        match p_params f, function_at n 0 with
        | [], Some callee => emit_simple (fun r => IFunc r callee) 1 outs s
        | _, _ => None
        end
      | OConditional rows _ _ => emit_conditional rows n ins outs s
      | OCfg _ => emit_cfg n ins outs s
      | OTailLoop ji jo _ => emit_tail_loop ji jo n ins outs s
      | OConst _ _ _ | OFuncDecl _ _ _ | OFuncDefn _ _ _ => Some s
      | _ => None
      end.

    (** emit/ops.rs:60-100 [emit_children]: the inputs and the outputs can be taken once. *)
    Fixpoint emit_nodes (ins : option row) (outs : option (list ptr)) (l : list N) (s : st) : option st :=
      match l with
      | [] => Some s
      | n :: l =>
        match node_ins n with
        | None => None
        | Some ps =>
          let (vs, s) := read ps s in
          match h_ops h n with
          | OInput _ =>
            match ins with
            | None => None
            | Some i => match write (node_outs n) i s with Some s => emit_nodes None outs l s | None => None end
            end
          | OOutput _ =>
            match outs with
            | None => None
            | Some o => match write o vs s with Some s => emit_nodes ins None l s | None => None end
            end
          | _ => match emit_optype n vs (node_outs n) s with Some s => emit_nodes ins outs l s | None => None end
          end
        end
      end.
    Definition emit_children (p : N) (ins : row) (outs : list ptr) (s : st) : option st :=
      match fat_io p, topo_order h p with
      | Some _, Some l => emit_nodes (Some ins) (Some outs) (rev l) s
      | _, _ => None
      end.
  End Rec.

  (** emit/ops.rs:141-149 [emit_dataflow_parent]; the fuel bounds the depth of the hierarchy. *)
  Fixpoint emit_dataflow_parent (fuel : nat) : N -> row -> list ptr -> st -> option st :=
    match fuel with
    | 0 => fun _ _ _ _ => None
    | S fuel => emit_children (emit_dataflow_parent fuel)
    end.

  (** A function: the number of its parameters, which are in register 0, and its code, which begins with block 0. *)
  Record func := { f_params : nat; f_code : N -> list (instr E) }.

  (** emit/func.rs:152-179 [EmitFuncContext::new] *)
  Definition new_context : st := {| code := fun _ => []; cur := 1; blocks := 2; regs := 1; anon := 0 |}%N.

  (** emit.rs:334-358 [emit_func_impl], emit/func.rs:321-325 [finish] *)
  Definition emit_func (f : N) : option func :=
    match h_ops h f with
    | OFuncDefn _ sg _ =>
      match p_params sg with
      | _ :: _ => None
      | [] =>
        let (ret, s) := new_row_mail_box (length (p_outs sg)) new_context in
        match emit_dataflow_parent (length (h_nodes h)) f {| r_reg := 0; r_len := length (p_ins sg) |} ret s with
        | None => None
        | Some s =>
          let (vs, s) := read ret s in
          let s := append (IRet (r_reg vs)) s in
          let s := append (IBr 1) (position 0 s) in
          Some {| f_params := length (p_ins sg); f_code := code s |}
        end
      end
    | _ => None
    end.
End Emit.
