(** Numbers that fit their types, and the constraints of aliases. *)
From Coq Require Import String List Bool NArith Arith.
From Verif Require Import TextModel TextSpec ResolveModel ResolveSpec.
Import ListNotations.
Open Scope list_scope.

Definition u16 (n : N) : Prop := (n < 65536)%N.
Definition u32 (n : N) : Prop := (n < 4294967296)%N.
Definition u64 (n : N) : Prop := (n < 18446744073709551616)%N.
(** Optional ids are those of existing terms, or at least not the largest number. *)
Definition optional (o : option N) : Prop := match o with Some n => (n < 4294967295)%N | None => True end.

Definition symbol_u32 (x : symbol N) : Prop := Forall (fun p => u32 (snd p)) (s_params x) /\ Forall u32 (s_where x) /\ u32 (s_sig x).
Definition operation_u32 (o : operation N) : Prop :=
  match o with
  | DefineFunc x | DeclareFunc x | DeclareAlias x | DeclareConstructor x | DeclareOperation x => symbol_u32 x
  | DefineAlias x t => symbol_u32 x /\ u32 t
  | Custom t => u32 t
  | _ => True
  end.
Definition part_u32 (p : part N) : Prop := match p with Item t | Splice t => u32 t end.

Section Spec.
  Context {F : Type}.
  Definition node_fits (n : tnode) : Prop :=
    operation_u32 (tn_op n) /\ Forall u32 (tn_in n) /\ Forall u32 (tn_out n) /\ Forall u32 (tn_regions n) /\ Forall u32 (tn_meta n) /\
    optional (tn_sig n).
  Definition region_fits (r : tregion) : Prop :=
    Forall u32 (tr_sources r) /\ Forall u32 (tr_targets r) /\ Forall u32 (tr_children r) /\ Forall u32 (tr_meta r) /\ optional (tr_sig r) /\
    match tr_scope r with Some (a, b) => u32 a /\ u32 b | None => True end.
  Definition term_fits (t : @tterm F) : Prop :=
    match t with
    | TVar n i => u32 n /\ u16 i
    | TApply n ts => u32 n /\ Forall u32 ts
    | TList ps | TTuple ps => Forall part_u32 ps
    | TLit (LNat n) => u64 n
    | TFunc r => u32 r
    | TLit _ | TWildcard => True
    end.
  (** A module as a Rust value: every number is one of its type. *)
  Definition module_fits (m : @tmodule F) : Prop :=
    u32 (tm_root m) /\ Forall node_fits (tm_nodes m) /\ Forall region_fits (tm_regions m) /\ Forall term_fits (tm_terms m).

  (** Without the constraints of aliases *)
  Definition no_where {T} (x : symbol T) : symbol T := Symbol (s_vis x) (s_name x) (s_params x) [] (s_sig x).
  Definition bare_operation {T} (o : operation T) : operation T :=
    match o with DefineAlias x t => DefineAlias (no_where x) t | DeclareAlias x => DeclareAlias (no_where x) | o => o end.
  Definition bare_node (n : tnode) : tnode := TNode (bare_operation (tn_op n)) (tn_in n) (tn_out n) (tn_regions n) (tn_meta n) (tn_sig n).
  Definition bare_module (m : @tmodule F) : @tmodule F := TModule (tm_root m) (map bare_node (tm_nodes m)) (tm_regions m) (tm_terms m).
  (** The same for syntax trees *)
  Fixpoint bare_term (t : @term F) : @term F :=
    match t with
    | Apply n ts => Apply n (map bare_term ts)
    | List ps => List (map (map_part bare_term) ps)
    | Tuple ps => Tuple (map (map_part bare_term) ps)
    | Func r => Func (bare_region r)
    | t => t
    end
  with bare_region (r : @region F) : @region F :=
    match r with Region k src tgt ns ms g => Region k src tgt (map bare_tree ns) (map bare_term ms) (option_map bare_term g) end
  with bare_tree (n : @node F) : @node F :=
    match n with
    | Node o ins outs rs ms g => Node (bare_operation (map_operation bare_term o)) ins outs (map bare_region rs) (map bare_term ms) (option_map bare_term g)
    end.
  (** No alias has constraints. *)
  Definition unconstrained_alias {T} (o : operation T) : Prop :=
    match o with DefineAlias x _ | DeclareAlias x => s_where x = [] | _ => True end.
  Definition unconstrained (m : @tmodule F) : Prop := Forall (fun n => unconstrained_alias (tn_op n)) (tm_nodes m).
End Spec.
