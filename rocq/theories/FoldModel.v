(** Model of the constant folding pass.
    Source: hugr-passes/src/const_fold.rs:95-208, hugr-passes/src/const_fold/value_handle.rs:158-189,
            hugr-passes/src/dataflow/results.rs:81-103.

    Simplifications: the facts of the dataflow analysis are an argument ([FlowModel]); constants are kept
    in [content], so the index under which a new one is found there is a parameter, as are its type, the
    check of the fields of a sum, and the index of the next new node.  A sum type with row variables is
    not seen as a sum.  A panic is [None]. *)
From Coq Require Import List Bool NArith Arith.
From Verif Require Import PValModel TagModel TypesModel GraphModel OpModel DeadModel InlineModel ReplaceModel FlowModel NormModel.
Import ListNotations.

Definition is_row_var (t : ty) : bool := match t with TRow _ _ => true | _ => false end.
(** What conversion to concrete values sees of a type (partial_value.rs:197-235). *)
Fixpoint view (t : ty) : vty :=
  match t with
  | TypesModel.TSum rows _ => if existsb (existsb is_row_var) rows then TOther else PValModel.TSum (map (map view) rows)
  | _ => TOther
  end.

Section Fold.
  Context {V E F M : Type}.
  Notation hugr := (hugr op M).
  Notation pv := (pv V N unit).
  Notation value := (value E F).
  Notation facts := (@facts V).
  (** value_handle.rs:162-178 [from_value] *)
  Variable leaf : V -> value.
  (** Whether the fields of a sum have the types of its variant (ops/constant.rs [Value::sum]). *)
  Variable sum_ok : N -> list value -> list (list vty) -> bool.
  (** [Value::get_type], and where a constant is kept. *)
  Variable type_of : value -> ty.
  Variable store : value -> N.
  Variable fresh : hugr -> N.

  (** value_handle.rs:180-188 [from_sum], [from_func] *)
  Definition to_sum (k : N) (vs : list value) (rows : list (list vty)) : option value := if sum_ok k vs rows then Some (KSum (N.to_nat k) vs) else None.
  Definition into_value : pv -> vty -> option value := try_into (fun v => Some (leaf v)) (fun _ _ => None) to_sum.
  (** results.rs:90-103 [try_read_wire_concrete] *)
  Definition try_read (h : hugr) (s : facts) (n : N) (p : nat) : option value :=
    match read_out_wire h s n p, nth_error (snd (sig_of (h_ops h n))) p with
    | Some v, Some t => into_value v (view t)
    | _, _ => None
    end.

  Definition is_load_constant (o : op) : bool := match o with OLoadConstant _ => true | _ => false end.
  (** const_fold.rs:127 *)
  Definition entry_input (h : hugr) (n : N) : bool :=
    match get_io h (h_entry h) with Some (i, _) => N.eqb n i | None => false end.
  (** const_fold.rs:132-151 *)
  Definition break_here (h : hugr) (s : facts) (n : N) (ip : nat) : option (list (N * nat * value)) :=
    match port_kind (h_ops h n) Inc ip with
    | Some (EValue _) =>
      match single_linked_output h n ip with
      | None => None
      | Some (src, outp) =>
        if is_load_constant (h_ops h src) || entry_input h src then Some []
        else match try_read h s src outp with Some v => Some [(n, ip, v)] | None => Some [] end
      end
    | _ => Some []
    end.
  (** const_fold.rs:129-152 *)
  Definition wires_to_break (h : hugr) (s : facts) : option (list (N * nat * value)) :=
    opt_flat (fun n => if N.eqb n (h_entry h) then Some [] else opt_flat (break_here h s n) (seq 0 (h_in h n))) (descendants h (h_entry h)).
  (** const_fold.rs:154-159 *)
  Definition terminating (h : hugr) (s : facts) : option (list N) :=
    opt_flat (fun n => match tail_loop_terminates h s n with
                       | None => None
                       | Some (Some NeverContinues) => Some [n]
                       | Some _ => Some []
                       end) (descendants h (h_entry h)).

  (** const_fold.rs:161-170 *)
  Definition break_wire (h : hugr) (x : N * nat * value) : option hugr :=
    let '(n, ip, v) := x in
    do parent <- get_parent h n;
    do (h, cst) <- add_child fresh h parent (OConst (store v) (type_of v) true);
    do (h, lcst) <- add_child fresh h parent (OLoadConstant (type_of v));
    do h <- connect h cst 0 lcst 0;
    do h <- disconnect h n Inc ip;
    connect h lcst 0 n ip.

  (** const_fold.rs:175-185 *)
  Definition callback (increase : bool) (loops : list N) (h : hugr) (n : N) : preserve :=
    if increase then CanRemoveIgnoringChildren else if memN n loops then DeferToChildren else default_for h n.

  (** const_fold.rs:126-193: what the pass does with the facts [s]; [entries] are the keys of [inputs]. *)
  Definition fold_with (increase : bool) (entries : list N) (s : facts) (h : hugr) : option (outcome hugr) :=
    do wires <- wires_to_break h s;
    do loops <- terminating h s;
    do h' <- each break_wire wires h;
    dce (callback increase loops) h' entries.

  Variable ctx : @context V E F.
  Inductive prepared := Ready (proto : list (N * nat * pv)) | MissingEntryPoint (n : N) | InvalidEntryPoint (n : N) (o : op) | FoldPanic.
  (** const_fold.rs:107-124; the location of given values is that of the inputs of a new node *)
  Fixpoint prepare (h : hugr) (new_node : N) (ins : list (N * list (nat * value))) (proto : list (N * nat * pv)) : prepared :=
    match ins with
    | [] => Ready proto
    | (n, vals) :: ins =>
      if negb (contains h n) then MissingEntryPoint n
      else match prepopulate_inputs h proto n (map (fun x => (fst x, partial_from_const ctx (new_node, [fst x]) (snd x))) vals) with
           | Prepared proto => prepare h new_node ins proto
           | BadEntry o => InvalidEntryPoint n o
           | PrepPanic => FoldPanic
           end
    end.
  (** const_fold.rs:103-126: the values the analysis starts with *)
  Definition fold_start (h : hugr) (ins : list (N * list (nat * value))) : option (list (N * nat * pv)) :=
    match prepare h (fold_right N.max 0%N (map (fun n => (n + 1)%N) (h_nodes h))) ins [] with
    | Ready proto => match run_proto h proto [] with Prepared proto => Some proto | _ => None end
    | _ => None
    end.
  (** const_fold.rs:194-210 [constant_fold_pass]: the entry points *)
  Definition is_func_defn (o : op) : bool := match o with OFuncDefn _ _ _ => true | _ => false end.
  Definition default_inputs (h : hugr) : list (N * list (nat * value)) :=
    if is_module (h_ops h (h_entry h)) then map (fun n => (n, [])) (filter (fun n => is_func_defn (h_ops h n)) (h_kids h (h_entry h))) else [].
End Fold.
