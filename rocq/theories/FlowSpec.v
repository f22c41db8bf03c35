(** What running a HUGR does, for comparison with the dataflow analysis.

    A frame is one activation of a function (or of the region the run starts in).  It holds, for each
    node that has been executed since its region was last entered, the row of values it put on its
    outputs, and the current block of each control-flow graph.  A node is executed once its inputs are
    there; any order of nodes is allowed.  Calls push a frame. *)
From Coq Require Import List Bool NArith Arith.
From Verif Require Import PValModel TypesModel GraphModel GraphSpec PValSpec OpModel DeadModel InlineModel ReplaceModel FlowModel.
Import ListNotations.

Section Machine.
  Context {W V E F M : Type}.          (* [W]: values other than sums and pointers to functions *)
  Notation conc := (conc W N unit).
  Notation hugr := (hugr op M).
  Notation pv := (pv V N unit).

  (** [x] allows the value [c]; [meaning v] is the value that the abstract value [v] stands for. *)
  Variable meaning : V -> W.
  Inductive allows : pv -> conc -> Prop :=
  | a_top c : allows Top c
  | a_val v : allows (Val v) (CVal (meaning v))
  | a_fun n u : allows (LF n u) (CFun n u)
  | a_sum m k r cs : In (k, r) m -> Forall2 allows r cs -> allows (PSum m) (CSum k cs).

  (** What operations and constants do. *)
  Record semantics := {
    op_sem : N -> list conc -> list conc -> Prop;              (* extension operations, by node *)
    call_value : W -> list conc -> list conc -> Prop;          (* calls of functions that are constants *)
    call_extern : N -> list conc -> list conc -> Prop;         (* calls of declared functions *)
    ext_value : E -> W;
    fun_value : F -> W }.
  Variable sem : semantics.
  Variable ctx : @context V E F.
  Variable h : hugr.

  Fixpoint const_value (c : value E F) : conc :=
    match c with
    | KSum tag vs => CSum (N.of_nat tag) ((fix each (vs : list (value E F)) : list conc :=
                                             match vs with [] => [] | v :: vs => const_value v :: each vs end) vs)
    | KExt e => CVal (ext_value sem e)
    | KFun f => CVal (fun_value sem f)
    end.

  Record frame := {
    start : N;                          (* where the activation began: a function or another container *)
    args : list conc;                   (* its inputs *)
    env : N -> option (list conc);
    pc : N -> option N }.

  (** The value on an input. *)
  Definition arrives (fr : frame) (n : N) (i : nat) (c : conc) : Prop :=
    exists m p row, single_linked_output h n i = Some (m, p) /\ env fr m = Some row /\ nth_error row p = Some c.
  (** The inputs of a node are there. *)
  Definition inputs (fr : frame) (n : N) (cs : list conc) : Prop :=
    if N.eqb n (start fr) && is_some (dataflow_signature (h_ops h n)) then cs = args fr
    else length cs = in_count h n /\ forall i c, nth_error cs i = Some c -> arrives fr n i c.

  Definition put (fr : frame) (n : N) (cs : list conc) : frame :=
    {| start := start fr; args := args fr; env := upd (env fr) n (Some cs); pc := pc fr |}.
  (** Enter region [p], whose [Input] node is [i], with new inputs: what happened inside is forgotten. *)
  Definition enter (fr : frame) (p i : N) (cs : list conc) : frame :=
    {| start := start fr; args := args fr;
       env := fun n => if N.eqb n i then Some cs else if memN n (descendants h p) then None else env fr n;
       pc := fun n => if memN n (descendants h p) then None else pc fr n |}.
  Definition move (fr : frame) (cfg : N) (b : option N) : frame :=
    {| start := start fr; args := args fr; env := env fr; pc := upd (pc fr) cfg b |}.
  Definition new_frame (f i : N) (cs : list conc) : frame :=
    {| start := f; args := cs; env := fun n => if N.eqb n i then Some cs else None; pc := fun _ => None |}.

  (** The region of [n] is being executed. *)
  Definition active (fr : frame) (n : N) : Prop :=
    exists p i o row, get_parent h n = Some p /\ get_io h p = Some (i, o) /\ env fr i = Some row.
  (** [n] may be executed. *)
  Definition waiting (fr : frame) (n : N) : Prop := In n (h_nodes h) /\ (active fr n \/ n = start fr) /\ env fr n = None.
  Definition fits (n : N) (cs : list conc) : Prop := length cs = out_count h n.

  (** Operations without regions and calls. *)
  Inductive leaf_step (n : N) (ins : list conc) : list conc -> Prop :=
  | l_make e nm a g : h_ops h n = OExt e nm a g -> tuple_kind ctx e nm = Some true -> leaf_step n ins [CSum 0%N ins]
  | l_unpack e nm a g cs : h_ops h n = OExt e nm a g -> tuple_kind ctx e nm = Some false -> ins = [CSum 0%N cs] -> leaf_step n ins cs
  | l_ext e nm a g outs : h_ops h n = OExt e nm a g -> tuple_kind ctx e nm = None -> op_sem sem n ins outs -> leaf_step n ins outs
  | l_tag t vs : h_ops h n = OTag t vs -> leaf_step n ins [CSum (N.of_nat t) ins]
  | l_const t e c u ok : h_ops h n = OLoadConstant t -> single_linked_output h n 0 = Some e -> h_ops h (fst e) = OConst c u ok ->
      leaf_step n ins [const_value (content ctx c)]
  | l_func f a i e : h_ops h n = OLoadFunction f a i -> single_linked_output h n 0 = Some e -> leaf_step n ins [CFun (fst e) tt].

  (** Steps within a frame. *)
  Inductive local_step (fr : frame) : frame -> Prop :=
  | s_leaf n ins outs : waiting fr n -> inputs fr n ins -> leaf_step n ins outs -> fits n outs -> local_step fr (put fr n outs)
  (* DFG *)
  | s_dfg_in n g i o ins : waiting fr n -> h_ops h n = ODfg g -> get_io h n = Some (i, o) -> env fr i = None ->
      inputs fr n ins -> fits i ins -> local_step fr (enter fr n i ins)
  | s_dfg_out n g i o outs : waiting fr n -> h_ops h n = ODfg g -> get_io h n = Some (i, o) -> env fr i <> None ->
      inputs fr o outs -> fits n outs -> local_step fr (put fr n outs)
  (* TailLoop *)
  | s_loop_in n ji jo r i o ins : waiting fr n -> h_ops h n = OTailLoop ji jo r -> get_io h n = Some (i, o) -> env fr i = None ->
      inputs fr n ins -> fits i ins -> local_step fr (enter fr n i ins)
  | s_loop_again n ji jo r i o cs rest : waiting fr n -> h_ops h n = OTailLoop ji jo r -> get_io h n = Some (i, o) -> env fr i <> None ->
      inputs fr o (CSum 0%N cs :: rest) -> length cs = length ji -> fits i (cs ++ rest) -> local_step fr (enter fr n i (cs ++ rest))
  | s_loop_out n ji jo r i o cs rest : waiting fr n -> h_ops h n = OTailLoop ji jo r -> get_io h n = Some (i, o) -> env fr i <> None ->
      inputs fr o (CSum 1%N cs :: rest) -> length cs = length jo -> fits n (cs ++ rest) -> local_step fr (put fr n (cs ++ rest))
  (* Conditional: case [k] is its child number [k] *)
  | s_cond_in n rows oi ou k case i o cs rest r : waiting fr n -> h_ops h n = OConditional rows oi ou ->
      inputs fr n (CSum (N.of_nat k) cs :: rest) -> nth_error (h_kids h n) k = Some case -> is_case (h_ops h case) = true ->
      get_io h case = Some (i, o) -> env fr i = None -> nth_error rows k = Some r -> length cs = length r -> fits i (cs ++ rest) ->
      local_step fr (enter fr case i (cs ++ rest))
  | s_cond_out n rows oi ou k case i o cs rest outs : waiting fr n -> h_ops h n = OConditional rows oi ou ->
      inputs fr n (CSum (N.of_nat k) cs :: rest) -> nth_error (h_kids h n) k = Some case -> is_case (h_ops h case) = true ->
      get_io h case = Some (i, o) -> env fr i <> None -> inputs fr o outs -> fits n outs -> local_step fr (put fr n outs)
  (* CFG: the first child is the entry block, the second one the exit block *)
  | s_cfg_in n g e i o ins : waiting fr n -> h_ops h n = OCfg g -> pc fr n = None -> hd_error (h_kids h n) = Some e ->
      get_io h e = Some (i, o) -> inputs fr n ins -> fits i ins -> local_step fr (move (enter fr e i ins) n (Some e))
  | s_branch n g b ins oo rows i o k cs rest r t j i' o' : waiting fr n -> h_ops h n = OCfg g -> pc fr n = Some b ->
      h_ops h b = OBlock ins oo rows -> get_io h b = Some (i, o) -> inputs fr o (CSum (N.of_nat k) cs :: rest) ->
      nth_error rows k = Some r -> length cs = length r -> In (t, j) (linked_inputs h b k) ->
      In t (h_kids h n) -> is_block (h_ops h t) = true -> get_io h t = Some (i', o') -> fits i' (cs ++ rest) ->
      local_step fr (move (enter fr t i' (cs ++ rest)) n (Some t))
  | s_exit n g b ins oo rows i o k cs rest r t j : waiting fr n -> h_ops h n = OCfg g -> pc fr n = Some b ->
      h_ops h b = OBlock ins oo rows -> get_io h b = Some (i, o) -> inputs fr o (CSum (N.of_nat k) cs :: rest) ->
      nth_error rows k = Some r -> length cs = length r -> In (t, j) (linked_inputs h b k) ->
      nth_error (h_kids h n) 1 = Some t -> fits n (cs ++ rest) -> local_step fr (move (put fr n (cs ++ rest)) n None)
  (* Calls of functions that are constants *)
  | s_call_value n g w ins outs : waiting fr n -> h_ops h n = OCallIndirect g -> inputs fr n (CVal w :: ins) ->
      call_value sem w ins outs -> fits n outs -> local_step fr (put fr n outs).

  (** Frames with the node of the caller that waits for them; latest first. *)
  Definition stack := list (frame * option N).

  (** [n] calls [f] with [ins]. *)
  Inductive calls (fr : frame) (n : N) : N -> list conc -> Prop :=
  | c_direct f g a ins callee : h_ops h n = OCall g a f -> inputs fr n ins -> static_source h n = Some callee -> calls fr n callee ins
  | c_indirect g ins callee : h_ops h n = OCallIndirect g -> inputs fr n (CFun callee tt :: ins) -> calls fr n callee ins.

  Inductive step : stack -> stack -> Prop :=
  | s_local fr fr' r st : local_step fr fr' -> step ((fr, r) :: st) ((fr', r) :: st)
  | s_call fr r st n f nm g pub i o ins : waiting fr n -> calls fr n f ins -> h_ops h f = OFuncDefn nm g pub -> get_io h f = Some (i, o) -> fits i ins ->
      step ((fr, r) :: st) ((new_frame f i ins, Some n) :: (fr, r) :: st)
  | s_return fr n fr' r st i o outs : get_io h (start fr) = Some (i, o) -> inputs fr o outs -> fits n outs ->
      step ((fr, Some n) :: (fr', r) :: st) ((put fr' n outs, r) :: st).

  (** Calls of declared functions. *)
  Inductive extern_step : stack -> stack -> Prop :=
  | s_extern fr r st n f nm g pub ins outs : waiting fr n -> calls fr n f ins -> h_ops h f = OFuncDecl nm g pub ->
      call_extern sem f ins outs -> fits n outs -> extern_step ((fr, r) :: st) ((put fr n outs, r) :: st).

  Inductive steps : stack -> stack -> Prop :=
  | steps_none st : steps st st
  | steps_more a b c : steps a b -> step b c -> steps a c.
  Inductive all_steps : stack -> stack -> Prop :=
  | all_none st : all_steps st st
  | all_more a b c : all_steps a b -> step b c \/ extern_step b c -> all_steps a c.

  (** The run starts in container [e] with inputs [cs]; [outer] are the values that come from outside. *)
  Definition starts (e : N) (cs : list conc) (outer : N -> option (list conc)) (fr : frame) : Prop :=
    start fr = e /\ args fr = cs /\ (forall n, pc fr n = None) /\
    match h_ops h e with
    | OFuncDefn _ _ _ | OBlock _ _ _ | OCase _ =>
      exists i o, get_io h e = Some (i, o) /\ fits i cs /\ forall n, env fr n = if N.eqb n i then Some cs else outer n
    | ODfg _ | OTailLoop _ _ _ | OCfg _ | OConditional _ _ _ => length cs = in_count h e /\ forall n, env fr n = outer n
    | _ => False
    end.

  (** ** What the facts of the analysis claim *)
  Definition out_allows (s : @facts V) (n : N) (p : nat) (c : conc) : Prop := exists v, f_out s n p = Some v /\ allows v c.
  Definition in_allows (s : @facts V) (n : N) (p : nat) (c : conc) : Prop := exists v, f_in s n p = Some v /\ allows v c.

  (** The [Input] node of a function, block or case that the run starts in. *)
  Definition first_input (e i : N) : Prop :=
    match h_ops h e with OFuncDefn _ _ _ | OBlock _ _ _ | OCase _ => exists o, get_io h e = Some (i, o) | _ => False end.

  (** The initial values allow the inputs [cs] of container [e]. *)
  Definition feeds (proto : list (N * nat * pv)) (e : N) (cs : list conc) : Prop :=
    forall p c, nth_error cs p = Some c ->
    match h_ops h e with
    | OFuncDefn _ _ _ | OBlock _ _ _ | OCase _ =>
      forall i n j, first_input e i -> In (n, j) (linked_inputs h i p) -> exists v, In (n, j, v) proto /\ allows v c
    | _ => exists v, In (e, p, v) proto /\ allows v c
    end.

  (** The outputs of a block have one successor each (as validation demands). *)
  Definition branches_ok : Prop :=
    forall b, In b (h_nodes h) -> is_block (h_ops h b) = true -> forall p, p < h_out h b -> length (linked_inputs h b p) = 1.

  (** The context knows what operations and constants do. *)
  Definition interprets : Prop :=
    forall n ins outs vs, op_sem sem n ins outs -> length outs = out_count h n -> Forall2 allows vs ins ->
      Forall2 allows (interpret ctx n vs (repeat Top (out_count h n))) outs.
  Definition loads_ok : Prop :=
    (forall loc e v, from_opaque ctx loc e = Some v -> meaning v = ext_value sem e) /\
    (forall loc f v, from_hugr ctx loc f = Some v -> meaning v = fun_value sem f).
  (** ... and keeps sums in order. *)
  Definition interpret_wf : Prop := forall n ins outs, Forall wf ins -> Forall wf outs -> Forall wf (interpret ctx n ins outs).

  (** An indirect call of which the analysis does not know the function. *)
  Definition unresolved (s : @facts V) (n : N) : Prop := exists g, h_ops h n = OCallIndirect g /\ f_in s n 0 = Some Top.
  (** A frame that runs on behalf of no such call. *)
  Definition tracked (s : @facts V) (st : stack) (fr : frame) : Prop :=
    exists above r below, st = above ++ (fr, r) :: below /\ forall x n, In (x, Some n) ((fr, r) :: below) -> ~ unresolved s n.

  (** What is asked of the HUGR, the context and the initial values. *)
  Record sensible (proto : list (N * nat * pv)) : Prop := {
    q_wf : GraphSpec.wf h;
    q_branches : branches_ok;
    q_interprets : interprets;
    q_loads : loads_ok;
    q_order : interpret_wf;
    q_proto : forall n p v, In (n, p, v) proto -> wf v }.

  (** [s] is a result of the analysis. *)
  Definition result (veq : forall a b : V, {a = b} + {a <> b}) (proto : list (N * nat * pv)) (s : @facts V) : Prop :=
    (exists hist, run veq ctx h proto (s :: hist)) /\ stable veq ctx h proto s.

  (** [st] is reached from a start in [e] with inputs [cs], values from outside being described by [s]. *)
  Definition reaches (proto : list (N * nat * pv)) (s : @facts V) (e : N) (cs : list conc) (outer : N -> option (list conc)) (st : stack) : Prop :=
    exists fr, In e (h_nodes h) /\ starts e cs outer fr /\ feeds proto e cs /\
      (forall m row p c, outer m = Some row -> nth_error row p = Some c -> out_allows s m p c) /\ steps [(fr, None)] st.
End Machine.
