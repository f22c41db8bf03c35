(** Model of the operations of a HUGR and of their ports.
    Source: hugr-core/src/ops.rs, ops/{module,dataflow,controlflow,sum,custom,constant}.rs,
    types.rs:53-113 [EdgeKind].

    Simplifications.  Names are numbers.  A constant is an identifier together with the type the
    code computes for it and the result of its own validation.  An extension operation is its
    extension, its name, its arguments and its cached signature; the definition is looked up elsewhere.
    A [Tag] operation whose tag is out of range makes [dataflow_signature] panic (ops/sum.rs:45);
    here its input row is then empty, and [tag_in_range] says that the operation is not one of those. *)
From Coq Require Import List Bool NArith Arith.
From Verif Require Import TagModel TypesModel GraphModel.
Import ListNotations.

Definition row := list ty.
Definition sig : Type := row * row.

(** ops.rs:42-73 [OpType] and the structures of its variants. *)
Inductive op :=
| OModule
| OFuncDefn (name : N) (f : poly) (public : bool)
| OFuncDecl (name : N) (f : poly) (public : bool)
| OAliasDecl (name : N) (b : bnd)
| OAliasDefn (name : N) (t : ty)
| OConst (v : N) (t : ty) (ok : bool)
| OInput (r : row)
| OOutput (r : row)
| OCall (f : poly) (args : list term) (inst : sig)
| OCallIndirect (s : sig)
| OLoadConstant (t : ty)
| OLoadFunction (f : poly) (args : list term) (inst : sig)
| ODfg (s : sig)
| OExt (ext name : N) (args : list term) (s : sig)
| OOpaque (ext name : N) (args : list term) (s : sig)
| OTag (tag : nat) (variants : list row)
| OBlock (inputs other_outputs : row) (sum_rows : list row)
| OExit (cfg_outputs : row)
| OTailLoop (just_inputs just_outputs rest : row)
| OCfg (s : sig)
| OConditional (sum_rows : list row) (other_inputs outputs : row)
| OCase (s : sig).

(** types.rs:53-67 [EdgeKind] *)
Inductive ekind := EControl | EValue (t : ty) | EConst (t : ty) | EFunction (f : poly) | EOrder.

Definition row_eqb : row -> row -> bool := list_eqb ty_eqb.
Definition poly_eqb (a b : poly) : bool :=
  list_eqb term_eqb (p_params a) (p_params b) && row_eqb (p_ins a) (p_ins b) && row_eqb (p_outs a) (p_outs b).
Definition kind_eqb (a b : ekind) : bool :=
  match a, b with
  | EControl, EControl | EOrder, EOrder => true
  | EValue t, EValue u | EConst t, EConst u => ty_eqb t u
  | EFunction f, EFunction g => poly_eqb f g
  | _, _ => false
  end.

(** types.rs:72-113 *)
Definition k_linear (k : ekind) : bool := match k with EValue t => negb (copyable t) | _ => false end.
Definition k_static (k : ekind) : bool := match k with EConst _ | EFunction _ => true | _ => false end.
Definition k_value (k : ekind) : bool := match k with EValue _ => true | _ => false end.
Definition k_const (k : ekind) : bool := match k with EConst _ => true | _ => false end.
Definition k_control (k : ekind) : bool := match k with EControl => true | _ => false end.
Definition k_order (k : ekind) : bool := match k with EOrder => true | _ => false end.

(** The constants [TAG] of the implementations of [StaticTag] and [DataflowOpTrait]. *)
Definition op_tag (o : op) : tag :=
  match o with
  | OModule => TModuleRoot
  | OFuncDefn _ _ _ => TFuncDefn
  | OFuncDecl _ _ _ => TFunction
  | OAliasDecl _ _ => TagModel.TAlias
  | OAliasDefn _ _ => TagModel.TAlias
  | OConst _ _ _ => TConst
  | OInput _ => TInput
  | OOutput _ => TOutput
  | OCall _ _ _ => TFnCall
  | OCallIndirect _ => TDataflowChild
  | OLoadConstant _ => TLoadConst
  | OLoadFunction _ _ _ => TLoadFunc
  | ODfg _ => TDfg
  | OExt _ _ _ _ => TLeaf
  | OOpaque _ _ _ _ => TLeaf
  | OTag _ _ => TLeaf
  | OBlock _ _ _ => TDataflowBlock
  | OExit _ => TBasicBlockExit
  | OTailLoop _ _ _ => TTailLoop
  | OCfg _ => TCfg
  | OConditional _ _ _ => TConditional
  | OCase _ => TCase
  end.

(** [is_superset] as a boolean (the fuel never runs out, see [tag_superset_total]). *)
Definition within (a b : tag) : bool := match is_superset a b with Some r => r | None => false end.

Definition tag_in_range (o : op) : bool :=
  match o with OTag t vs => Nat.ltb t (length vs) | _ => true end.

(** [dataflow_signature]: ops.rs:404-409, and the implementations of [DataflowOpTrait::signature]. *)
Definition dataflow_signature (o : op) : option sig :=
  match o with
  | OInput r => Some ([], r)
  | OOutput r => Some (r, [])
  | OCall _ _ i => Some i
  | OCallIndirect s => Some (TFun (fst s) (snd s) :: fst s, snd s)
  | OLoadConstant t => Some ([], [t])
  | OLoadFunction _ _ i => Some ([], [TFun (fst i) (snd i)])
  | ODfg s => Some s
  | OExt _ _ _ s => Some s
  | OOpaque _ _ _ s => Some s
  | OTag t vs => Some (nth t vs [], [new_sum vs])
  | OTailLoop ji jo r => Some (ji ++ r, jo ++ r)
  | OCfg s => Some s
  | OConditional rows oi out => Some (new_sum rows :: oi, out)
  | _ => None
  end.
Definition sig_of (o : op) : sig := match dataflow_signature o with Some s => s | None => ([], []) end.
Definition side (d : dir) (s : sig) : row := match d with Inc => fst s | Out => snd s end.

(** [other_input], [other_output], ops.rs:151-157 [other_port_kind]. *)
Definition other_port_kind (o : op) (d : dir) : option ekind :=
  match o with
  | OInput _ => match d with Inc => None | Out => Some EOrder end
  | OOutput _ => match d with Inc => Some EOrder | Out => None end
  | OBlock _ _ _ | OExit _ => Some EControl
  | _ => match dataflow_signature o with Some _ => Some EOrder | None => None end
  end.

(** [static_input], [static_output], ops.rs:159-171 [static_port_kind]. *)
Definition static_port_kind (o : op) (d : dir) : option ekind :=
  match d, o with
  | Inc, OCall f _ _ => Some (EFunction f)
  | Inc, OLoadConstant t => Some (EConst t)
  | Inc, OLoadFunction f _ _ => Some (EFunction f)
  | Out, OFuncDefn _ f _ => Some (EFunction f)
  | Out, OFuncDecl _ f _ => Some (EFunction f)
  | Out, OConst _ t _ => Some (EConst t)
  | _, _ => None
  end.

Definition is_some {A} (x : option A) : bool := match x with Some _ => true | None => false end.

(** [non_df_port_count]: ops.rs:455-463, controlflow.rs:219-224 and :259-264. *)
Definition non_df_port_count (o : op) (d : dir) : nat :=
  match o with
  | OBlock _ _ rows => match d with Inc => 1 | Out => length rows end
  | OExit _ => match d with Inc => 1 | Out => 0 end
  | _ => Nat.b2n (is_some (other_port_kind o d))
  end.

(** ops.rs:266-271 [value_port_count] *)
Definition value_port_count (o : op) (d : dir) : nat := length (side d (sig_of o)).

(** ops.rs:289-294 [port_count] *)
Definition port_count (o : op) (d : dir) : nat :=
  value_port_count o d + Nat.b2n (is_some (static_port_kind o d)) + non_df_port_count o d.

(** ops.rs:178-198 [port_kind] *)
Definition port_kind (o : op) (d : dir) (i : nat) : option ekind :=
  if Nat.ltb i (value_port_count o d) then option_map EValue (nth_error (side d (sig_of o)) i)
  else
    match (if Nat.eqb i (value_port_count o d) then static_port_kind o d else None) with
    | Some k => Some k
    | None => other_port_kind o d
    end.

(** ops.rs:205-217 [other_port] *)
Definition other_port (o : op) (d : dir) : option nat :=
  let static_input := Nat.b2n (match d with Inc => within TStaticInput (op_tag o) | Out => false end) in
  if is_some (other_port_kind o d) && Nat.leb 1 (non_df_port_count o d)
  then Some (value_port_count o d + static_input) else None.

(** ops.rs:240-243 [static_port] *)
Definition static_port (o : op) (d : dir) : option nat :=
  match static_port_kind o d with None => None | Some _ => Some (value_port_count o d) end.

(** Numbers of ports, as the graph mutators use them. *)
Definition in_count (o : op) : nat := port_count o Inc.
Definition out_count (o : op) : nat := port_count o Out.

(** [DataflowParent::inner_signature], ops.rs:478-487 [inner_function_type]. *)
Definition inner_signature (o : op) : option sig :=
  match o with
  | OFuncDefn _ f _ => Some (p_ins f, p_outs f)
  | ODfg s => Some s
  | OTailLoop ji jo r => Some (ji ++ r, new_sum [ji; jo] :: r)
  | OBlock i oo rows => Some (i, new_sum rows :: oo)
  | OCase s => Some s
  | _ => None
  end.

(** controlflow.rs:128-130 [case_input_row], :283-290 [successor_input] *)
Definition case_input_row (rows : list row) (other : row) (i : nat) : option row :=
  option_map (fun r => r ++ other) (nth_error rows i).
Definition successor_input (rows : list row) (other : row) (i : nat) : option row :=
  option_map (fun r => r ++ other) (nth_error rows i).

(** controlflow.rs:271-278, :292-296 [dataflow_input] of basic blocks *)
Definition block_input (o : op) : option row :=
  match o with OBlock i _ _ => Some i | OExit r => Some r | _ => None end.

Section Env.
  Variable env : N -> N -> option typedef.

  Definition subst_sig (s : list term) (x : sig) : option sig :=
    match subst_row env s (fst x), subst_row env s (snd x) with
    | Some i, Some o => Some (i, o)
    | _, _ => None
    end.
  Definition subst_rows (s : list term) (rows : list row) : option (list row) := all_some (map (subst_row env s) rows).

  (** [substitute] of every operation; [None] is a panic (debug assertions are not modelled). *)
  Definition op_substitute (s : list term) (o : op) : option op :=
    match o with
    | OInput r => option_map OInput (subst_row env s r)
    | OOutput r => option_map OOutput (subst_row env s r)
    | OCall f args i =>
      match all_some (map (subst_term env s) args), subst_sig s i with
      | Some args', Some i' => Some (OCall f args' i')
      | _, _ => None
      end
    | OCallIndirect x => option_map OCallIndirect (subst_sig s x)
    | OLoadFunction f args i =>
      match all_some (map (subst_term env s) args), subst_sig s i with
      | Some args', Some i' => Some (OLoadFunction f args' i')
      | _, _ => None
      end
    | ODfg x => option_map ODfg (subst_sig s x)
    | OExt e n args x =>
      match all_some (map (subst_term env s) args), subst_sig s x with
      | Some args', Some x' => Some (OExt e n args' x')
      | _, _ => None
      end
    | OOpaque e n args x =>
      match all_some (map (subst_term env s) args), subst_sig s x with
      | Some args', Some x' => Some (OOpaque e n args' x')
      | _, _ => None
      end
    | OTag t vs => option_map (OTag t) (subst_rows s vs)
    | OBlock i oo rows =>
      match subst_row env s i, subst_row env s oo, subst_rows s rows with
      | Some i', Some oo', Some rows' => Some (OBlock i' oo' rows')
      | _, _, _ => None
      end
    | OExit r => option_map OExit (subst_row env s r)
    | OTailLoop ji jo r =>
      match subst_row env s ji, subst_row env s jo, subst_row env s r with
      | Some ji', Some jo', Some r' => Some (OTailLoop ji' jo' r')
      | _, _, _ => None
      end
    | OCfg x => option_map OCfg (subst_sig s x)
    | OConditional rows oi out =>
      match subst_rows s rows, subst_row env s oi, subst_row env s out with
      | Some rows', Some oi', Some out' => Some (OConditional rows' oi' out')
      | _, _, _ => None
      end
    | OCase x => option_map OCase (subst_sig s x)
    | OModule | OFuncDefn _ _ _ | OFuncDecl _ _ _ | OAliasDecl _ _ | OAliasDefn _ _ | OConst _ _ _
    | OLoadConstant _ => Some o
    end.
End Env.

(** An extension operation is written as an opaque operation (ops/custom.rs:225-229). *)
Definition ser_op (o : op) : op := match o with OExt e n args s => OOpaque e n args s | _ => o end.

(** ** New graphs *)
Section New.
  Context {M : Type}.
  Notation hugr := (hugr op M).

  (** The allocator of a graph from which nothing was removed hands out indices in order. *)
  Definition next_index (h : hugr) : N := N.of_nat (length (h_nodes h)).

  Fixpoint connect_ports (k : nat) (h : hugr) (s d : N) : option hugr :=
    match k with
    | 0 => Some h
    | S k => match connect_ports k h s d with Some h => connect h s k d k | None => None end
    end.

  Definition opt_bind {A B} (x : option A) (f : A -> option B) : option B := match x with Some a => f a | None => None end.

  Definition add_next (h : hugr) (p : N) (o : op) : option hugr :=
    add_node_with_parent in_count out_count h (next_index h) p o.

  (** hugr.rs:444-534 [make_module_hugr].  The outer option is a panic, the inner one the result. *)
  Definition make_module_hugr (main : N) (o : op) : option (option hugr) :=
    let t := op_tag o in
    if negb (existsb (fun c => within c t) [TModuleRoot; TDataflowParent; TCfg; TConditional]) then Some None
    else
      let h := new_hugr OModule 0 in
      match o with
      | OModule => Some (Some h)
      | _ =>
        if within TModuleOp t then
          option_map Some (opt_bind (add_next h 0 o) (fun h => set_entrypoint h 1))
        else if within TDataflowChild t && negb (match o with OInput _ | OOutput _ => true | _ => false end) then
          match dataflow_signature o with
          | None => None
          | Some s =>
            let f := OFuncDefn main {| p_params := []; p_ins := fst s; p_outs := snd s |} false in
            option_map Some
              (opt_bind (add_next h 0 f) (fun h =>
               opt_bind (add_next h 1 (OInput (fst s))) (fun h =>
               opt_bind (add_next h 1 (OOutput (snd s))) (fun h =>
               opt_bind (add_next h 1 o) (fun h =>
               opt_bind (connect_ports (length (fst s)) h 2 4) (fun h =>
               opt_bind (connect_ports (length (snd s)) h 4 3) (fun h =>
               set_entrypoint h 4)))))))
          end
        else Some None
      end.
End New.
