(** What a valid HUGR is, after the documentation (specification/hugr.md, the documentation of the
    errors in validate.rs and of the operations), independently of the checks. *)
From Coq Require Import List Bool NArith Arith Relations.
From Verif Require Import TypesModel GraphModel GraphSpec Graphs OpModel OpSpec ValidModel.
Import ListNotations.

(** ** The hierarchy *)
(** Operations that occur in dataflow regions, besides the boundary nodes. *)
Inductive in_dataflow : op -> Prop :=
| df_const v t ok : in_dataflow (OConst v t ok)
| df_call f a i : in_dataflow (OCall f a i)
| df_indirect s : in_dataflow (OCallIndirect s)
| df_load_const t : in_dataflow (OLoadConstant t)
| df_load_fun f a i : in_dataflow (OLoadFunction f a i)
| df_dfg s : in_dataflow (ODfg s)
| df_ext e n a s : in_dataflow (OExt e n a s)
| df_opaque e n a s : in_dataflow (OOpaque e n a s)
| df_tag t vs : in_dataflow (OTag t vs)
| df_loop a b c : in_dataflow (OTailLoop a b c)
| df_cfg s : in_dataflow (OCfg s)
| df_cond a b c : in_dataflow (OConditional a b c).

(** [allowed p c]: an operation [p] may have a child with operation [c]. *)
Inductive allowed : op -> op -> Prop :=
| al_defn n f p : allowed OModule (OFuncDefn n f p)
| al_decl n f p : allowed OModule (OFuncDecl n f p)
| al_alias_decl n b : allowed OModule (OAliasDecl n b)
| al_alias_defn n t : allowed OModule (OAliasDefn n t)
| al_module_const v t ok : allowed OModule (OConst v t ok)
| al_case rows i o s : allowed (OConditional rows i o) (OCase s)
| al_block s i oo rows : allowed (OCfg s) (OBlock i oo rows)
| al_exit s r : allowed (OCfg s) (OExit r)
| al_cfg_const s v t ok : allowed (OCfg s) (OConst v t ok)
| al_input p i o r : region p i o -> allowed p (OInput r)
| al_output p i o r : region p i o -> allowed p (OOutput r)
| al_dataflow p i o c : region p i o -> in_dataflow c -> allowed p c.

(** Operations that contain others. *)
Definition container (o : op) : Prop := exists c, allowed o c.

Section Spec.
  Context {M : Type}.
  Notation hugr := (hugr op M).
  Variable env : N -> N -> option typedef.
  Variable defs : N -> N -> opsig.

  Definition boundary (o : op) : Prop := match o with OInput _ | OOutput _ => True | _ => False end.
  Definition exit_op (o : op) : Prop := match o with OExit _ => True | _ => False end.

  (** There is an edge from a child of [p] to another one. *)
  Definition sibling_edge (h : hugr) (p a b : N) : Prop :=
    h_parent h a = Some p /\ h_parent h b = Some p /\ exists i j, In ((a, i), (b, j)) (h_links h).

  (** A dataflow region begins with the matching boundary nodes, has no others, and has no cycle. *)
  Definition good_region (h : hugr) (n : N) : Prop := forall ins outs, region (h_ops h n) ins outs ->
    (exists a b rest, h_kids h n = a :: b :: rest /\ h_ops h a = OInput ins /\ h_ops h b = OOutput outs /\
       forall c, In c rest -> ~ boundary (h_ops h c)) /\
    acyclic (sibling_edge h n).

  (** A conditional has a case for each variant, with the types of the variant. *)
  Definition good_conditional (h : hugr) (n : N) : Prop := forall rows other outs, h_ops h n = OConditional rows other outs ->
    rows <> [] /\
    Forall2 (fun r c => h_ops h c = OCase (r ++ other, outs)) rows (h_kids h n).

  (** A control flow graph begins with the entry block and the exit block, there is no other exit, and
      along every branch the types agree. *)
  Definition good_cfg (h : hugr) (n : N) : Prop := forall ins outs, h_ops h n = OCfg (ins, outs) ->
    (exists a b rest, h_kids h n = a :: b :: rest /\ (exists oo rows, h_ops h a = OBlock ins oo rows) /\ h_ops h b = OExit outs /\
       forall c, In c rest -> ~ exit_op (h_ops h c)) /\
    (forall a b i j, h_parent h a = Some n -> h_parent h b = Some n -> In ((a, i), (b, j)) (h_links h) ->
       exists x other rows r, h_ops h a = OBlock x other rows /\ nth_error rows i = Some r /\
         ((exists oo rs, h_ops h b = OBlock (r ++ other) oo rs) \/ h_ops h b = OExit (r ++ other))).

  (** ** Ports and edges *)
  Definition kind_at (h : hugr) (n : N) (d : dir) (i : nat) (k : ekind) : Prop :=
    exists ks, ports (h_ops h n) d ks /\ nth_error ks i = Some k.

  Definition in_links (h : hugr) (e : endpoint) : list link := filter (fun l => ep_eqb (snd l) e) (h_links h).
  Definition out_links (h : hugr) (e : endpoint) : list link := filter (fun l => ep_eqb (fst l) e) (h_links h).

  (** Values that must be used exactly once, and branches. *)
  Definition linear_kind (k : ekind) : Prop :=
    match k with EControl => True | EValue t => lub t = Linear | _ => False end.

  Inductive walk (E : N -> N -> Prop) : N -> list N -> N -> Prop :=
  | walk_here a : walk E a [a] a
  | walk_step a b l c : E a b -> walk E b l c -> walk E a (a :: l) c.

  (** Every way from the entry of the control flow graph [p] to its child [n] passes through [d]. *)
  Definition dominates (h : hugr) (p d n : N) : Prop :=
    exists e rest, h_kids h p = e :: rest /\ (exists l, walk (sibling_edge h p) e l n) /\
      forall l, walk (sibling_edge h p) e l n -> In d l.

  (** Where the ends of an edge may lie. *)
  Inductive local_edge (h : hugr) (k : ekind) (s d : N) : Prop :=
  | le_sibling p : h_parent h s = Some p -> h_parent h d = Some p -> local_edge h k s d
  | le_static p : (exists t, k = EConst t) \/ (exists f, k = EFunction f) ->
      h_parent h s = Some p -> below h d p -> d <> p -> local_edge h k s d
  | le_external t p a : k = EValue t -> lub t = Copyable -> h_parent h s = Some p -> h_parent h a = Some p ->
      below h d a -> d <> a -> (exists i j, kind_at h s Out i EOrder /\ In ((s, i), (a, j)) (h_links h)) -> local_edge h k s d
  | le_dominator t b c g x : k = EValue t -> lub t = Copyable -> h_parent h s = Some b -> h_parent h b = Some c ->
      h_ops h c = OCfg g -> h_parent h x = Some c -> below h d x -> d <> x -> b <> x -> dominates h c b x -> local_edge h k s d.

  (** ** Types *)
  (** The type variables that a node may use: those of the closest function above it. *)
  Inductive scope (h : hugr) : N -> list term -> Prop :=
  | scope_root : scope h (h_root h) []
  | scope_function n p name f pub : h_parent h n = Some p -> h_ops h p = OFuncDefn name f pub -> scope h n (p_params f)
  | scope_other n p ds : h_parent h n = Some p -> (forall name f pub, h_ops h p <> OFuncDefn name f pub) -> scope h p ds -> scope h n ds.

  Definition types_ok (ds : list term) (k : ekind) : Prop :=
    match k with
    | EValue t => valid_ty env ds t = true
    | EConst t => valid_ty env [] t = true
    | EFunction f => Forall (fun t => valid_ty env (p_params f) t = true) (p_ins f ++ p_outs f)
    | _ => True
    end.

  Definition args_ok (ds : list term) (s : opsig) (args : list term) : Prop :=
    match s with
    | SPoly params => Forall (fun a => valid_term env ds a = true) args /\ Forall2 (fun a p => check_term a p = true) args params
    | SCustom static compute => exists fixed other params, args = fixed ++ other /\ compute fixed = Some params /\
        Forall (fun a => valid_term env [] a = true) fixed /\ Forall2 (fun a p => check_term a p = true) fixed static /\
        Forall (fun a => valid_term env ds a = true) other /\ Forall2 (fun a p => check_term a p = true) other params
    | SMissing => False
    end.

  Definition op_ok (ds : list term) (o : op) : Prop :=
    match o with
    | OExt e m args _ => args_ok ds (defs e m) args
    | OOpaque _ _ _ _ => False
    | OCall f args inst => instantiate env f args = TypesModel.Done inst
    | OLoadFunction f args inst => instantiate env f args = TypesModel.Done inst
    | OConst _ _ ok => ok = true
    | _ => True
    end.

  (** Two public functions of the module with the same name are declarations with the same type. *)
  Definition linkage_ok (h : hugr) : Prop := forall a b name f g p q,
    before (h_kids h (h_root h)) a b -> exported (h_ops h a) = Some (name, f, p) -> exported (h_ops h b) = Some (name, g, q) ->
    f = g /\ p = false /\ q = false.

  (** ** Valid graphs *)
  Record valid (h : hugr) : Prop := {
    v_ports : forall n, In n (h_nodes h) -> exists ki ko, ports (h_ops h n) Inc ki /\ ports (h_ops h n) Out ko /\
      h_in h n = length ki /\ h_out h n = length ko;
    v_tree : forall n p, h_parent h n = Some p -> allowed (h_ops h p) (h_ops h n);
    v_entry : container (h_ops h (h_entry h));
    v_region : forall n, In n (h_nodes h) -> good_region h n;
    v_conditional : forall n, In n (h_nodes h) -> good_conditional h n;
    v_cfg : forall n, In n (h_nodes h) -> good_cfg h n;
    v_inputs : forall n i k, In n (h_nodes h) -> kind_at h n Inc i k ->
      match k with
      | EValue _ | EConst _ => length (in_links h (n, i)) = 1
      | EFunction _ => in_links h (n, i) <> []
      | _ => True
      end;
    v_outputs : forall n i k, In n (h_nodes h) -> kind_at h n Out i k -> linear_kind k -> length (out_links h (n, i)) = 1;
    v_links : forall s i d j, In ((s, i), (d, j)) (h_links h) ->
      exists k, kind_at h s Out i k /\ kind_at h d Inc j k /\ local_edge h k s d;
    v_types : forall n ds, In n (h_nodes h) -> scope h n ds -> op_ok ds (h_ops h n) /\
      forall i k, kind_at h n Out i k -> types_ok ds k;
    v_linkage : linkage_ok h }.
End Spec.
