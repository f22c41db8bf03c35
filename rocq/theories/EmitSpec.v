(** What emitted LLVM code does, and what emission promises: the code of a function computes what the
    function does according to [FlowSpec]. *)
From Coq Require Import List Bool NArith Arith.
From Verif Require Import PValModel PValSpec TypesModel GraphModel GraphSpec OpModel DeadModel InlineModel ReplaceModel FlowModel FlowSpec EmitModel.
Import ListNotations.

Section Machine.
  Context {W E F M : Type}.
  Notation conc := (conc W N unit).
  Notation instr := (instr E).
  Notation func := (@func E).

  Variable ext_value : E -> W.
  (** What the code of an extension operation computes (by node). *)
  Variable run_op : N -> list conc -> list conc -> Prop.
  (** The functions of the module: with code, or declared only. *)
  Variable defined : N -> option func.
  Variable declared : N -> list conc -> list conc -> Prop.

  Fixpoint constant (c : lconst E) : conc :=
    match c with
    | LTag t vs => CSum (N.of_nat t) ((fix each (vs : list (lconst E)) : list conc :=
                                         match vs with [] => [] | v :: vs => constant v :: each vs end) vs)
    | LExt e => CVal (ext_value e)
    end.

  Definition ptr_eqb (a b : ptr) : bool :=
    match a, b with
    | Wire n p, Wire m q => N.eqb n m && Nat.eqb p q
    | Anon k, Anon l => N.eqb k l
    | _, _ => false
    end.

  (** The memory of an activation, and its registers. *)
  Definition mem := ptr -> option conc.
  Definition registers := N -> option (list conc).

  Definition loads (m : mem) (ps : list ptr) : option (list conc) := each_some m ps.
  Definition store (m : mem) (p : ptr) (v : conc) : mem := fun q => if ptr_eqb q p then Some v else m q.
  Fixpoint stores (m : mem) (ps : list ptr) (vs : list conc) : mem :=
    match ps, vs with p :: ps, v :: vs => stores (store m p v) ps vs | _, _ => m end.
  Definition no_mem : mem := fun _ => None.
  Definition with_params (vs : list conc) : registers := fun r => if N.eqb r 0 then Some vs else None.

  Fixpoint goes_to (t : N) (default : N) (cases : list (nat * N)) : N :=
    match cases with
    | [] => default
    | (k, b) :: cases => if N.eqb t (N.of_nat k) then b else goes_to t default cases
    end.

  (** A call: where the result goes, the function, the arguments, the number of results. *)
  Definition call_of (i : instr) (g : registers) : option (N * N * list conc * nat) :=
    match i with
    | ICall r f a k => option_map (fun vs => (r, f, vs, k)) (g a)
    | ICallPtr r a k => match g a with Some (CFun f _ :: vs) => Some (r, f, vs, k) | _ => None end
    | _ => None
    end.

  (** How a run ends: with results, or with undefined behaviour (reading a mailbox or a register that has not been
      written, or coming to the end of a block that does not branch or return). *)
  Inductive outcome := Returns (vs : list conc) | Undefined.

  (** The register that an instruction reads. *)
  Definition reads (i : instr) : option N :=
    match i with
    | IStore _ a | IExt _ _ a | ITag _ _ a | ICall _ _ a _ | ICallPtr _ a _ | IFields _ _ _ a | ISwitch a _ _ | IRet a => Some a
    | ILoad _ _ | IConst _ _ | IFunc _ _ | IBr _ => None
    end.

  (** [exec c k is m g o]: in a function with blocks [c], the instructions [is], and what they lead to, end with [o];
      [k] is the number of instructions executed, calls included. *)
  Inductive exec (c : N -> list instr) : nat -> list instr -> mem -> registers -> outcome -> Prop :=
  | x_load r ps l m g vs k o : loads m ps = Some vs -> exec c k l m (upd g r (Some vs)) o -> exec c (S k) (ILoad r ps :: l) m g o
  | x_undefined r ps l m g : loads m ps = None -> exec c 1 (ILoad r ps :: l) m g Undefined
  | x_no_value i a l m g : reads i = Some a -> g a = None -> exec c 1 (i :: l) m g Undefined
  | x_end m g : exec c 1 [] m g Undefined
  | x_store ps a l m g vs k o : g a = Some vs -> length vs = length ps -> exec c k l (stores m ps vs) g o ->
      exec c (S k) (IStore ps a :: l) m g o
  | x_ext r n a l m g ins outs k o : g a = Some ins -> run_op n ins outs -> exec c k l m (upd g r (Some outs)) o ->
      exec c (S k) (IExt r n a :: l) m g o
  | x_tag r t a l m g ins k o : g a = Some ins -> exec c k l m (upd g r (Some [CSum (N.of_nat t) ins])) o ->
      exec c (S k) (ITag r t a :: l) m g o
  | x_const r v l m g k o : exec c k l m (upd g r (Some [constant v])) o -> exec c (S k) (IConst r v :: l) m g o
  | x_func r f l m g k o : exec c k l m (upd g r (Some [CFun f tt])) o -> exec c (S k) (IFunc r f :: l) m g o
  | x_call i r f vs len l m g fn outs k k' o : call_of i g = Some (r, f, vs, len) -> defined f = Some fn -> length vs = f_params fn ->
      exec (f_code fn) k' (f_code fn 0%N) no_mem (with_params vs) (Returns outs) -> length outs = len ->
      exec c k l m (upd g r (Some outs)) o -> exec c (S (k' + k)) (i :: l) m g o
  | x_call_undefined i r f vs len l m g fn k' : call_of i g = Some (r, f, vs, len) -> defined f = Some fn -> length vs = f_params fn ->
      exec (f_code fn) k' (f_code fn 0%N) no_mem (with_params vs) Undefined -> exec c (S k') (i :: l) m g Undefined
  | x_extern i r f vs len l m g outs k o : call_of i g = Some (r, f, vs, len) -> defined f = None -> declared f vs outs ->
      length outs = len -> exec c k l m (upd g r (Some outs)) o -> exec c (S k) (i :: l) m g o
  | x_fields r t len a l m g cs rest k o : g a = Some (CSum (N.of_nat t) cs :: rest) -> length cs = len ->
      exec c k l m (upd g r (Some (cs ++ rest))) o -> exec c (S k) (IFields r t len a :: l) m g o
  | x_br b l m g k o : exec c k (c b) m g o -> exec c (S k) (IBr b :: l) m g o
  | x_switch a d cases l m g t cs rest k o : g a = Some (CSum t cs :: rest) -> exec c k (c (goes_to t d cases)) m g o ->
      exec c (S k) (ISwitch a d cases :: l) m g o
  | x_ret a l m g vs : g a = Some vs -> exec c 1 (IRet a :: l) m g (Returns vs).

  (** A call of the function ends in a certain way. *)
  Definition call_ends (fn : func) (vs : list conc) (o : outcome) : Prop :=
    exists k, length vs = f_params fn /\ exec (f_code fn) k (f_code fn 0%N) no_mem (with_params vs) o.
End Machine.

Section Promise.
  Context {W V E F M : Type}.
  Notation conc := (conc W N unit).
  Variable sem : @semantics W E F.
  Variable ctx : @context V E F.
  Variable h : hugr op M.
  Variable handled : N -> bool.
  Variable run_op : N -> list conc -> list conc -> Prop.

  (** The module that is emitted: the function definitions for which emission succeeds, and the declarations. *)
  Definition emitted (f : N) : option (@func E) := emit_func (content ctx) handled h f.
  Definition externs (f : N) (vs outs : list conc) : Prop :=
    (exists name sg pub, h_ops h f = OFuncDecl name sg pub) /\ call_extern sem f vs outs.

  (** The code of extension operations does what the operation does. *)
  Definition ops_correct : Prop := forall n e nm a g ins outs, h_ops h n = OExt e nm a g -> run_op n ins outs -> leaf_step sem ctx h n ins outs.

  (** Running function [f] with inputs [ins] can give [outs]. *)
  Definition computes (f : N) (ins outs : list conc) : Prop :=
    exists i o fr, get_io h f = Some (i, o) /\ fits h i ins /\
      all_steps sem ctx h [(new_frame f i ins, None)] [(fr, None)] /\ inputs h fr o outs.
End Promise.
