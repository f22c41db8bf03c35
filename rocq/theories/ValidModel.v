(** Model of the validation of a HUGR.
    Source: hugr-core/src/hugr/validate.rs:1-620, hugr-core/src/ops/validate.rs.

    Simplifications.  Errors carry the nodes and ports they report and nothing else.  Searches of
    the external crate petgraph ([Topo], [dominators::simple_fast]) are modelled by the traversal they
    document; the cache of dominator trees is omitted, since it only stores results of a pure function.
    The edges between the children of a CFG are visited once per link (the code visits all links of two
    nodes once for each link between them, with the same checks).  [Const::validate] is the flag of the
    constant.  The definition of an extension operation is given by its parameters. *)
From Coq Require Import List Bool NArith Arith.
From Verif Require Import TagModel TypesModel GraphModel OpModel DeadModel.
Import ListNotations.

(** validate.rs:625-755 [ValidationError], :757-834 [InterGraphEdgeError], ops/validate.rs:160-196
    [ChildrenValidationError], :224-234 [EdgeValidationError]. *)
Inductive verr :=
| RootNotRoot
| UnresolvedOp (n : N)
| WrongNumberOfPorts (n : N) (d : dir)
| NoParent (n : N)
| InvalidParentOp (child parent : N)
| EntrypointNotContainer (n : N)
| NonContainerWithChildren (n : N)
| ContainerWithoutChildren (n : N)
| InvalidInitialChild (parent : N) (second : bool)
| InvalidConditionalSum (parent : N)
| ConditionalCaseSignature (child : N)
| IOSignatureMismatch (child : N)
| InternalIOChildren (child : N)
| InternalExitChildren (child : N)
| CFGEdgeSignatureMismatch (source target : endpoint)
| NotADag (n : N)
| ConstTypeError (n : N)
| UnconnectedPort (n : N) (d : dir) (i : nat)
| TooManyConnections (n : N) (d : dir) (i : nat)
| IncompatiblePorts (source target : endpoint)
| NonCopyableData (source target : endpoint)
| NonCFGAncestor (source target : endpoint)
| MissingOrderEdge (source target : endpoint) (ancestor : N)
| NonDominatedAncestor (source target : endpoint) (ancestor : N)
| NoRelation (source target : endpoint)
| SignatureError (n : N)
| DuplicateExport (a b : N).

Inductive vres := VOk | VErr (e : verr) | VPanic.

(** The operator [?] of the source. *)
Definition vseq (a b : vres) : vres := match a with VOk => b | _ => a end.
Definition vcheck (b : bool) (e : verr) : vres := if b then VOk else VErr e.
Definition vall {A} (f : A -> vres) (l : list A) : vres := fold_right (fun x r => vseq (f x) r) VOk l.

(** ops/validate.rs:23-58 [OpValidityFlags]; the only edge check is [validate_cfg_edge]. *)
Record flags := { f_children : tag; f_first : tag; f_second : tag; f_required : bool; f_dag : bool; f_edges : bool }.

(** ops/validate.rs:60-80, :112-125, :246-258 and the operations of [impl_validate_op!] *)
Definition validity_flags (o : op) : flags :=
  match o with
  | OModule => {| f_children := TModuleOp; f_first := TAny; f_second := TAny; f_required := false; f_dag := false; f_edges := false |}
  | OConditional _ _ _ =>
    {| f_children := TCase; f_first := TAny; f_second := TAny; f_required := true; f_dag := false; f_edges := false |}
  | OCfg _ =>
    {| f_children := TControlFlowChild; f_first := TDataflowBlock; f_second := TBasicBlockExit; f_required := true; f_dag := false;
       f_edges := true |}
  | OFuncDefn _ _ _ | ODfg _ | OTailLoop _ _ _ | OBlock _ _ _ | OCase _ =>
    {| f_children := TDataflowChild; f_first := TInput; f_second := TOutput; f_required := true; f_dag := true; f_edges := false |}
  | _ => {| f_children := TNone; f_first := TAny; f_second := TAny; f_required := false; f_dag := false; f_edges := false |}
  end.

(** extension/op_def.rs [SignatureFunc]: what [validate_args] uses of it. *)
Inductive opsig :=
| SPoly (params : list term)
| SCustom (static : list term) (compute : list term -> option (list term))
| SMissing.

Section Valid.
  Context {M : Type}.
  Notation hugr := (hugr op M).
  (** Type definitions and operation definitions of the extensions. *)
  Variable env : N -> N -> option typedef.
  Variable defs : N -> N -> opsig.

  (** The nodes in the order of their indices. *)
  Fixpoint insert_sorted (n : N) (l : list N) : list N :=
    match l with
    | [] => [n]
    | m :: l => if N.leb n m then n :: m :: l else m :: insert_sorted n l
    end.
  Definition node_order (h : hugr) : list N := fold_right insert_sorted [] (h_nodes h).

  (** ** Linkage: validate.rs:82-120 [validate_linkage] *)
  Definition exported (o : op) : option (N * poly * bool) :=
    match o with
    | OFuncDecl name f true => Some (name, f, false)
    | OFuncDefn name f true => Some (name, f, true)
    | _ => None
    end.

  Fixpoint validate_exports (h : hugr) (seen : list (N * (N * poly * bool))) (kids : list N) : vres :=
    match kids with
    | [] => VOk
    | c :: kids =>
      match exported (h_ops h c) with
      | None => validate_exports h seen kids
      | Some (name, f, defn) =>
        match find (fun x => N.eqb (fst x) name) seen with
        | None => validate_exports h ((name, (c, f, defn)) :: seen) kids
        | Some (_, (prev, g, prev_defn)) =>
          if negb (poly_eqb g f) || defn || prev_defn then VErr (DuplicateExport prev c) else validate_exports h seen kids
        end
      end
    end.
  Definition validate_linkage (h : hugr) : vres := validate_exports h [] (h_kids h (h_root h)).

  (** ** Regions *)
  (** The links between the children of a node (portgraph's [FlatRegion] without its root). *)
  Definition region_edges (h : hugr) (p : N) : list (N * N) :=
    map (fun l => (fst (fst l), fst (snd l)))
        (filter (fun l => memN (fst (fst l)) (h_kids h p) && memN (fst (snd l)) (h_kids h p)) (h_links h)).
  Definition succs (es : list (N * N)) (n : N) : list N := map snd (filter (fun e => N.eqb (fst e) n) es).
  Definition preds (es : list (N * N)) (n : N) : list N := map fst (filter (fun e => N.eqb (snd e) n) es).

  (** petgraph's [Topo]: starts with the nodes without incoming edge, and visits a node when all
      nodes before it have been visited.  [None] if the fuel runs out. *)
  Fixpoint topo (fuel : nat) (es : list (N * N)) (done stack : list N) : option (list N) :=
    match stack with
    | [] => Some done
    | n :: stack =>
      match fuel with
      | 0 => None
      | S fuel =>
        if memN n done then topo fuel es done stack
        else
          let done := n :: done in
          topo fuel es done (filter (fun m => forallb (fun p => memN p done) (preds es m)) (succs es n) ++ stack)
      end
    end.

  Definition topo_order (h : hugr) (p : N) : option (list N) :=
    let es := region_edges h p in
    topo (length (h_kids h p) + length es) es [] (filter (fun n => match preds es n with [] => true | _ => false end) (h_kids h p)).

  (** validate.rs:395-424 [validate_children_dag] *)
  Definition validate_children_dag (h : hugr) (p : N) : vres :=
    match h_kids h p with
    | [] => VOk
    | _ =>
      match topo_order h p with
      | None => VPanic
      | Some l => vcheck (Nat.eqb (length l) (length (h_kids h p))) (NotADag p)
      end
    end.

  (** Reachability among the children of a node from the first one, without entering [skip]. *)
  Definition reach_table (h : hugr) (p : N) (skip : option N) : list (N * list N) :=
    let ok n := match skip with Some s => negb (N.eqb n s) | None => true end in
    map (fun n => (n, filter ok (succs (region_edges h p) n))) (h_kids h p).
  Definition reached (h : hugr) (p : N) (skip : option N) : option (list N) :=
    let t := reach_table h p skip in
    let ok n := match skip with Some s => negb (N.eqb n s) | None => true end in
    match h_kids h p with
    | [] => None
    | e :: _ =>
      let start := filter ok [e] in
      dfs (length start + list_sum (map (fun x => length (snd x)) t)) (targets t) [] start
    end.

  (** validate.rs:122-137 [compute_dominator] and petgraph's [dominators]: a node that is not reached
      has no dominators. *)
  Definition dominated (h : hugr) (p d n : N) : option bool :=
    match reached h p None, reached h p (Some d) with
    | Some all, Some rest => Some (memN n all && (N.eqb d n || negb (memN n rest)))
    | _, _ => None
    end.

  (** ** Children *)
  (** ops/validate.rs:279-333 [validate_io_nodes]; the iterator is unwrapped twice. *)
  Definition validate_io_nodes (h : hugr) (ins outs : row) (kids : list N) : vres :=
    match kids with
    | a :: b :: rest =>
      vseq (vcheck (row_eqb (snd (sig_of (h_ops h a))) ins) (IOSignatureMismatch a))
      (vseq (vcheck (row_eqb (fst (sig_of (h_ops h b))) outs) (IOSignatureMismatch b))
      (vall (fun c => vcheck (negb (tag_eqb (op_tag (h_ops h c)) TInput || tag_eqb (op_tag (h_ops h c)) TOutput)) (InternalIOChildren c))
            rest))
    | _ => VPanic
    end.

  (** ops/validate.rs:82-110 *)
  Fixpoint validate_cases (h : hugr) (rows : list row) (other outs : row) (i : nat) (kids : list N) : vres :=
    match kids with
    | [] => VOk
    | c :: kids =>
      match h_ops h c with
      | OCase s =>
        match case_input_row rows other i with
        | None => VPanic
        | Some r => vseq (vcheck (row_eqb (fst s) r && row_eqb (snd s) outs) (ConditionalCaseSignature c))
                         (validate_cases h rows other outs (S i) kids)
        end
      | _ => VPanic
      end
    end.

  (** ops/validate.rs:127-158 *)
  Definition validate_cfg_children (h : hugr) (s : sig) (kids : list N) : vres :=
    match kids with
    | a :: b :: rest =>
      match h_ops h a, h_ops h b with
      | OBlock ins _ _, OExit outs =>
        vseq (vcheck (row_eqb ins (fst s)) (IOSignatureMismatch a))
        (vseq (vcheck (row_eqb outs (snd s)) (IOSignatureMismatch b))
        (vall (fun c => vcheck (negb (tag_eqb (op_tag (h_ops h c)) TBasicBlockExit)) (InternalExitChildren c)) rest))
      | _, _ => VPanic
      end
    | _ => VPanic
    end.

  (** [validate_op_children]: ops.rs [ValidateOp], ops/validate.rs *)
  Definition validate_op_children (h : hugr) (n : N) (o : op) (kids : list N) : vres :=
    match o with
    | OConditional rows other outs =>
      vseq (vcheck (Nat.eqb (length rows) (length kids)) (InvalidConditionalSum n)) (validate_cases h rows other outs 0 kids)
    | OCfg s => validate_cfg_children h s kids
    | _ => match inner_signature o with Some s => validate_io_nodes h (fst s) (snd s) kids | None => VOk end
    end.

  (** ops/validate.rs:336-363 [validate_cfg_edge] *)
  Definition validate_cfg_edge (h : hugr) (l : link) : vres :=
    match h_ops h (fst (fst l)), block_input (h_ops h (fst (snd l))) with
    | OBlock _ other rows, Some target =>
      match successor_input rows other (snd (fst l)) with
      | Some r => vcheck (row_eqb r target) (CFGEdgeSignatureMismatch (fst l) (snd l))
      | None => VErr (CFGEdgeSignatureMismatch (fst l) (snd l))
      end
    | _, _ => VPanic
    end.

  Definition from_node (h : hugr) (n : N) : list link := filter (fun l => N.eqb (fst (fst l)) n) (h_links h).

  (** validate.rs:317-411 [validate_children] *)
  Definition validate_children (h : hugr) (n : N) (o : op) : vres :=
    let f := validity_flags o in
    match h_kids h n with
    | [] => vcheck (negb (f_required f)) (ContainerWithoutChildren n)
    | a :: rest =>
      vseq (vcheck (negb (tag_eqb (f_children f) TNone)) (NonContainerWithChildren n))
      (vseq (vcheck (within (f_first f) (op_tag (h_ops h a))) (InvalidInitialChild n false))
      (vseq (match rest with
             | [] => VOk
             | b :: _ => vcheck (within (f_second f) (op_tag (h_ops h b))) (InvalidInitialChild n true)
             end)
      (vseq (validate_op_children h n o (a :: rest))
      (vseq (if f_edges f then
               vall (fun c => vall (fun l => match get_parent h (fst (snd l)) with
                                             | Some p => if N.eqb p n then validate_cfg_edge h l else VOk
                                             | None => VOk
                                             end) (from_node h c)) (a :: rest)
             else VOk)
      (if f_dag f then validate_children_dag h n else VOk)))))
    end.

  (** validate.rs:139-203 [validate_node].  [port_count] panics for a [Tag] that is out of range. *)
  Definition validate_node (h : hugr) (n : N) : vres :=
    let o := h_ops h n in
    vseq (match o with OOpaque _ _ _ _ => VErr (UnresolvedOp n) | _ => VOk end)
    (vseq (if tag_in_range o then VOk else VPanic)
    (vseq (vcheck (Nat.eqb (h_in h n) (port_count o Inc)) (WrongNumberOfPorts n Inc))
    (vseq (vcheck (Nat.eqb (h_out h n) (port_count o Out)) (WrongNumberOfPorts n Out))
    (vseq (if N.eqb n (h_root h) then VOk
           else match get_parent h n with
                | None => VErr (NoParent n)
                | Some p => vcheck (within (f_children (validity_flags (h_ops h p))) (op_tag o)) (InvalidParentOp n p)
                end)
    (vseq (if N.eqb n (h_entry h)
           then vcheck (negb (tag_eqb (f_children (validity_flags o)) TNone)) (EntrypointNotContainer n) else VOk)
    (vseq (validate_children h n o)
          (match o with OConst _ _ ok => vcheck ok (ConstTypeError n) | _ => VOk end))))))).

  (** ** Edges *)
  (** The ports of [from] that lead to [to] ([node_connections]). *)
  Definition connections (h : hugr) (from to : N) : list nat :=
    map (fun l => snd (fst l)) (filter (fun l => N.eqb (fst (fst l)) from && N.eqb (fst (snd l)) to) (h_links h)).

  Fixpoint climb_edge (fuel : nat) (h : hugr) (s d : endpoint) (static : bool) (from_parent : N) (a : N) : vres :=
    match fuel with
    | 0 => VPanic
    | S fuel =>
      match get_parent h a with
      | None => VErr (NoRelation s d)
      | Some ap =>
        if N.eqb ap from_parent then
          if static then VOk
          else vcheck (existsb (fun i => match port_kind (h_ops h (fst s)) Out i with Some EOrder => true | _ => false end)
                               (connections h (fst s) a))
                      (MissingOrderEdge s d a)
        else if (match get_parent h from_parent with Some g => N.eqb ap g | None => false end) && negb static then
          if negb (tag_eqb (op_tag (h_ops h ap)) TCfg) then VErr (NonCFGAncestor s d)
          else match dominated h ap from_parent a with
               | Some b => vcheck b (NonDominatedAncestor s d a)
               | None => VPanic
               end
        else climb_edge fuel h s d static from_parent ap
      end
    end.

  (** validate.rs:426-527 [validate_edge] *)
  Definition validate_edge (h : hugr) (s d : endpoint) : vres :=
    match get_parent h (fst s), port_kind (h_ops h (fst s)) Out (snd s) with
    | Some from_parent, Some k =>
      let to_parent := get_parent h (fst d) in
      if (match to_parent with Some q => N.eqb from_parent q | None => false end) then VOk
      else
        vseq (vcheck (k_static k || match k with EValue t => copyable t | _ => false end) (NonCopyableData s d))
             (match to_parent with
              | None => VErr (NoRelation s d)
              | Some q => climb_edge (length (h_nodes h)) h s d (k_static k) from_parent q
              end)
    | _, _ => VPanic
    end.

  (** validate.rs:299-312 [validate_port_kind] *)
  Definition validate_port_kind (decls : list term) (k : ekind) : bool :=
    match k with
    | EValue t => valid_ty env decls t
    | EConst t => valid_ty env [] t
    | EFunction f => poly_valid env f
    | _ => true
    end.

  (** The links of an output port, one after the other: validate.rs:267-299 *)
  Fixpoint validate_links (h : hugr) (n : N) (i : nat) (k : ekind) (unique : bool) (count : nat) (ls : list endpoint) : vres :=
    match ls with
    | [] => VOk
    | d :: ls =>
      if unique && Nat.ltb 1 (S count) then VErr (TooManyConnections n Out i)
      else
        match port_kind (h_ops h (fst d)) Inc (snd d) with
        | None => VPanic
        | Some k' =>
          vseq (vcheck (kind_eqb k' k) (IncompatiblePorts (n, i) d))
          (vseq (validate_edge h (n, i) d) (validate_links h n i k unique (S count) ls))
        end
    end.

  (** validate.rs:205-300 [validate_port] *)
  Definition validate_port (h : hugr) (decls : list term) (n : N) (d : dir) (i : nat) : vres :=
    let o := h_ops h n in
    match port_kind o d i with
    | None => VPanic
    | Some k =>
      let out_unique := k_linear k || k_control k in
      let in_unique := k_value k || k_const k in
      match d with
      | Inc =>
        let links := linked_outputs h n i in
        let must := negb (k_order k) && negb (k_control k) && negb (tag_eqb (op_tag o) TCase) in
        vseq (vcheck (negb (must && Nat.eqb (length links) 0)) (UnconnectedPort n Inc i))
             (vcheck (negb (in_unique && Nat.leb 2 (length links))) (TooManyConnections n Inc i))
      | Out =>
        let links := linked_inputs h n i in
        vseq (vcheck (negb (out_unique && Nat.eqb (length links) 0)) (UnconnectedPort n Out i))
        (vseq (vcheck (validate_port_kind decls k) (SignatureError n))
              (validate_links h n i k out_unique 0 links))
      end
    end.

  (** extension/op_def.rs:373-398 [validate_args] *)
  Definition validate_args (decls : list term) (s : opsig) (args : list term) : bool :=
    match s with
    | SPoly params => forallb (valid_term env decls) args && check_terms args params
    | SCustom static compute =>
      let fixed := firstn (length static) args in
      let other := skipn (length static) args in
      forallb (valid_term env []) fixed && check_terms fixed static &&
      match compute fixed with
      | None => false
      | Some params => forallb (valid_term env decls) other && check_terms other params
      end
    | SMissing => false
    end.

  (** dataflow.rs:282-292 and :473-483 [validate] *)
  Definition validate_instance (n : N) (f : poly) (args : list term) (inst : sig) : vres :=
    match instantiate env f args with
    | TypesModel.Done s => vcheck (row_eqb (fst s) (fst inst) && row_eqb (snd s) (snd inst)) (SignatureError n)
    | Rejected => VErr (SignatureError n)
    | Panics => VPanic
    end.

  (** validate.rs:529-585, the operation itself *)
  Definition validate_op (decls : list term) (n : N) (o : op) : vres :=
    match o with
    | OExt e m args _ => vcheck (validate_args decls (defs e m) args) (SignatureError n)
    | OOpaque _ _ _ _ => VErr (UnresolvedOp n)
    | OCall f args inst => validate_instance n f args inst
    | OLoadFunction f args inst => validate_instance n f args inst
    | _ => VOk
    end.

  (** validate.rs:529-610 [validate_subtree] *)
  Fixpoint validate_subtree (fuel : nat) (h : hugr) (decls : list term) (n : N) : vres :=
    match fuel with
    | 0 => VPanic
    | S fuel =>
      let o := h_ops h n in
      vseq (validate_op decls n o)
      (vseq (vall (validate_port h decls n Inc) (seq 0 (h_in h n)))
      (vseq (vall (validate_port h decls n Out) (seq 0 (h_out h n)))
            (vall (validate_subtree fuel h (match o with OFuncDefn _ f _ => p_params f | _ => decls end)) (h_kids h n))))
    end.

  (** validate.rs:45-80 [validate] *)
  Definition validate (h : hugr) : vres :=
    vseq (vcheck (negb (is_some (get_parent h (h_root h)))) RootNotRoot)
    (vseq (vall (validate_node h) (node_order h))
    (vseq (validate_subtree (length (h_nodes h)) h [] (h_root h))
          (validate_linkage h))).
End Valid.
