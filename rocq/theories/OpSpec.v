(** What the documentation says about the ports of operations, independently of the port functions. *)
From Coq Require Import List Bool NArith Arith.
From Verif Require Import TypesModel GraphModel OpModel.
Import ListNotations.

(** ops.rs:140-171, dataflow.rs:24-52, ops/controlflow.rs: the kinds of the ports of an operation in
    their order: the values of the signature, then the static port, then the other ports. *)
Definition values (r : list ty) : list ekind := map EValue r.

Inductive ports : op -> dir -> list ekind -> Prop :=
| ports_module d : ports OModule d []
| ports_alias_decl n b d : ports (OAliasDecl n b) d []
| ports_alias_defn n t d : ports (OAliasDefn n t) d []
| ports_defn_in n f p : ports (OFuncDefn n f p) Inc []
| ports_defn_out n f p : ports (OFuncDefn n f p) Out [EFunction f]
| ports_decl_in n f p : ports (OFuncDecl n f p) Inc []
| ports_decl_out n f p : ports (OFuncDecl n f p) Out [EFunction f]
| ports_const_in v t ok : ports (OConst v t ok) Inc []
| ports_const_out v t ok : ports (OConst v t ok) Out [EConst t]
| ports_input_in r : ports (OInput r) Inc []
| ports_input_out r : ports (OInput r) Out (values r ++ [EOrder])
| ports_output_in r : ports (OOutput r) Inc (values r ++ [EOrder])
| ports_output_out r : ports (OOutput r) Out []
| ports_call_in f a i o : ports (OCall f a (i, o)) Inc (values i ++ [EFunction f; EOrder])
| ports_call_out f a i o : ports (OCall f a (i, o)) Out (values o ++ [EOrder])
| ports_indirect_in i o : ports (OCallIndirect (i, o)) Inc (EValue (TFun i o) :: values i ++ [EOrder])
| ports_indirect_out i o : ports (OCallIndirect (i, o)) Out (values o ++ [EOrder])
| ports_load_const_in t : ports (OLoadConstant t) Inc [EConst t; EOrder]
| ports_load_const_out t : ports (OLoadConstant t) Out [EValue t; EOrder]
| ports_load_fun_in f a i o : ports (OLoadFunction f a (i, o)) Inc [EFunction f; EOrder]
| ports_load_fun_out f a i o : ports (OLoadFunction f a (i, o)) Out [EValue (TFun i o); EOrder]
| ports_dfg_in i o : ports (ODfg (i, o)) Inc (values i ++ [EOrder])
| ports_dfg_out i o : ports (ODfg (i, o)) Out (values o ++ [EOrder])
| ports_ext_in e n a i o : ports (OExt e n a (i, o)) Inc (values i ++ [EOrder])
| ports_ext_out e n a i o : ports (OExt e n a (i, o)) Out (values o ++ [EOrder])
| ports_opaque_in e n a i o : ports (OOpaque e n a (i, o)) Inc (values i ++ [EOrder])
| ports_opaque_out e n a i o : ports (OOpaque e n a (i, o)) Out (values o ++ [EOrder])
| ports_tag_in t vs r : nth_error vs t = Some r -> ports (OTag t vs) Inc (values r ++ [EOrder])
| ports_tag_out t vs : ports (OTag t vs) Out [EValue (new_sum vs); EOrder]
| ports_block_in i oo rows : ports (OBlock i oo rows) Inc [EControl]
| ports_block_out i oo rows : ports (OBlock i oo rows) Out (map (fun _ => EControl) rows)
| ports_exit_in r : ports (OExit r) Inc [EControl]
| ports_exit_out r : ports (OExit r) Out []
| ports_loop_in ji jo r : ports (OTailLoop ji jo r) Inc (values ji ++ values r ++ [EOrder])
| ports_loop_out ji jo r : ports (OTailLoop ji jo r) Out (values jo ++ values r ++ [EOrder])
| ports_cfg_in i o : ports (OCfg (i, o)) Inc (values i ++ [EOrder])
| ports_cfg_out i o : ports (OCfg (i, o)) Out (values o ++ [EOrder])
| ports_cond_in rows oi out : ports (OConditional rows oi out) Inc (EValue (new_sum rows) :: values oi ++ [EOrder])
| ports_cond_out rows oi out : ports (OConditional rows oi out) Out (values out ++ [EOrder])
| ports_case s d : ports (OCase s) d [].

(** Operations whose subgraph is a dataflow graph, with the types at its boundary. *)
Inductive region : op -> list ty -> list ty -> Prop :=
| region_defn n f p : region (OFuncDefn n f p) (p_ins f) (p_outs f)
| region_dfg i o : region (ODfg (i, o)) i o
| region_case i o : region (OCase (i, o)) i o
| region_loop ji jo r : region (OTailLoop ji jo r) (ji ++ r) (new_sum [ji; jo] :: r)
| region_block i oo rows : region (OBlock i oo rows) i (new_sum rows :: oo).
