(** Model of the table form of HUGR modules: resolving the names of a syntax tree, and viewing a table as a syntax tree.
    Source: hugr-model/src/v0/ast/resolve.rs, hugr-model/src/v0/ast/view.rs, hugr-model/src/v0/table/mod.rs,
            hugr-model/src/v0/table/view.rs, hugr-model/src/v0/ast/mod.rs.

    The syntax tree is that of [TextModel], the scope tables are those of [ScopeModel].  Ids are positions in the tables,
    without the bound of 2^32 - 1.  The equality of float literals (that of the ordered-float crate) is a parameter [feq]; hash
    maps are lists of entries, and the order in which one is drained is a parameter [drain].  Looking at a table is
    recursive in the ids and takes fuel; [None] stands for a failure, a panic, or a lack of fuel. *)
From Coq Require Import String List Bool NArith Arith SpecFloat.
From Verif Require Import ScopeModel TextModel.
Import ListNotations.
Open Scope N_scope.
Open Scope list_scope.

(** ast/resolve.rs:365-379 [ResolveError] *)
Inductive resolve_error := UnknownVar (n : str) | DuplicateVar (n : str) | DuplicateSymbol (n : str).
Inductive out (A : Type) := Ok (a : A) | Err (e : resolve_error) | Crash.
Arguments Ok {A}. Arguments Err {A}. Arguments Crash {A}.

Section Tables.
  Context {F : Type}.
  Notation term := (@term F).
  Notation region := (@region F).
  Notation node := (@node F).

  (** table/mod.rs:321-357 [Term]; symbols and operations (table/mod.rs:188-279, 296-312) are those of the syntax tree with ids
      for terms *)
  Inductive tterm :=
  | TWildcard | TVar (n i : N) | TApply (n : N) (ts : list N) | TList (ps : list (part N)) | TLit (l : @literal F) | TFunc (r : N)
  | TTuple (ps : list (part N)).
  (** table/mod.rs:160-182 [Node], :267-288 [Region], :290-297 [RegionScope] *)
  Record tnode := TNode { tn_op : operation N; tn_in : list N; tn_out : list N; tn_regions : list N; tn_meta : list N; tn_sig : option N }.
  Record tregion := TRegion {
    tr_kind : region_kind; tr_sources : list N; tr_targets : list N; tr_children : list N; tr_meta : list N; tr_sig : option N;
    tr_scope : option (N * N) }.
  (** table/mod.rs:66-76 [Module] *)
  Record tmodule := TModule { tm_root : N; tm_nodes : list tnode; tm_regions : list tregion; tm_terms : list tterm }.

  Definition new_node : tnode := TNode Invalid [] [] [] [] None.
  Definition new_region : tregion := TRegion DataFlow [] [] [] [] None None.

  Variable feq : F -> F -> bool.
  (** The order in which a hash map is drained. *)
  Variable drain : list (str * N) -> list (str * N).

  (** Equality of the keys of the term map *)
  Fixpoint list_eqb {A} (e : A -> A -> bool) (l m : list A) : bool :=
    match l, m with [], [] => true | a :: l, b :: m => e a b && list_eqb e l m | _, _ => false end.
  Definition str_eqb : str -> str -> bool := list_eqb N.eqb.
  Definition str_eq_dec : forall a b : str, {a = b} + {a <> b} := list_eq_dec N.eq_dec.
  Definition literal_eqb (a b : @literal F) : bool :=
    match a, b with
    | LStr s, LStr t => str_eqb s t
    | LNat m, LNat n => m =? n
    | LBytes s, LBytes t => list_eqb N.eqb s t
    | LFloat f, LFloat g => feq f g
    | _, _ => false
    end.
  Definition part_eqb (a b : part N) : bool :=
    match a, b with Item m, Item n => m =? n | Splice m, Splice n => m =? n | _, _ => false end.
  Definition tterm_eqb (a b : tterm) : bool :=
    match a, b with
    | TWildcard, TWildcard => true
    | TVar n i, TVar m j => (n =? m) && (i =? j)
    | TApply n ts, TApply m us => (n =? m) && list_eqb N.eqb ts us
    | TList ps, TList qs => list_eqb part_eqb ps qs
    | TLit l, TLit k => literal_eqb l k
    | TFunc r, TFunc q => r =? q
    | TTuple ps, TTuple qs => list_eqb part_eqb ps qs
    | _, _ => false
    end.

  (** ** Resolving *)
  (** ast/resolve.rs:15-23 [Context] *)
  Record st := St {
    c_nodes : list tnode; c_regions : list tregion; c_terms : list tterm;
    c_vars : @var_table str; c_links : @link_table str; c_symbols : @sym_table str;
    c_imports : list (str * N); c_cache : list (tterm * N) }.
  Definition start : st := St [] [] [] vt_new lt_new st_new [] [].
  Definition with_vars (s : st) v := St (c_nodes s) (c_regions s) (c_terms s) v (c_links s) (c_symbols s) (c_imports s) (c_cache s).
  Definition with_links (s : st) l := St (c_nodes s) (c_regions s) (c_terms s) (c_vars s) l (c_symbols s) (c_imports s) (c_cache s).
  Definition with_symbols (s : st) y := St (c_nodes s) (c_regions s) (c_terms s) (c_vars s) (c_links s) y (c_imports s) (c_cache s).

  Definition comp (A : Type) := st -> out (A * st).
  Definition ret {A} (a : A) : comp A := fun s => Ok (a, s).
  Definition bind {A B} (x : comp A) (f : A -> comp B) : comp B := fun s =>
    match x s with Ok (a, s) => f a s | Err e => Err e | Crash => Crash end.
  Definition fail {A} (e : resolve_error) : comp A := fun _ => Err e.
  Definition crash {A} : comp A := fun _ => Crash.
  Notation "'do' x <- a ; b" := (bind a (fun x => b)) (at level 200, x name, a at level 100, b at level 200).
  Notation "a ;; b" := (bind a (fun _ => b)) (at level 100, b at level 200, right associativity).

  (** [try_alloc_slice] (ast/resolve.rs:383-393) *)
  Section Each.
    Context {A B : Type}.
    Variable f : A -> comp B.
    Fixpoint each (l : list A) : comp (list B) :=
      match l with [] => ret [] | a :: l => do b <- f a; do bs <- each l; ret (b :: bs) end.
  End Each.
  Definition opt_each {A B} (f : A -> comp B) (o : option A) : comp (option B) :=
    match o with Some a => do b <- f a; ret (Some b) | None => ret None end.
  (** [zip_eq] panics if the lengths differ. *)
  Section Zip.
    Variable f : N -> node -> comp unit.
    Fixpoint zip_each (ids : list N) (ns : list node) {struct ns} : comp unit :=
      match ns with
      | [] => match ids with [] => ret tt | _ :: _ => crash end
      | n :: ns => match ids with [] => crash | id :: ids => f id n;; zip_each ids ns end
      end.
  End Zip.

  (** table/mod.rs:92-97 [insert_node], :119-124 [insert_term], :139-144 [insert_region] *)
  Definition insert_node (n : tnode) : comp N := fun s =>
    Ok (N.of_nat (List.length (c_nodes s)), St (c_nodes s ++ [n]) (c_regions s) (c_terms s) (c_vars s) (c_links s) (c_symbols s) (c_imports s) (c_cache s)).
  Definition insert_region (r : tregion) : comp N := fun s =>
    Ok (N.of_nat (List.length (c_regions s)), St (c_nodes s) (c_regions s ++ [r]) (c_terms s) (c_vars s) (c_links s) (c_symbols s) (c_imports s) (c_cache s)).
  (** Assigning to [nodes[id]] and [regions[id]]; an index out of bounds panics *)
  Fixpoint list_set {A} (i : nat) (x : A) (l : list A) : option (list A) :=
    match l, i with
    | [], _ => None
    | _ :: l, O => Some (x :: l)
    | y :: l, S i => option_map (cons y) (list_set i x l)
    end.
  Definition set_node (id : N) (n : tnode) : comp unit := fun s =>
    match list_set (N.to_nat id) n (c_nodes s) with
    | Some ns => Ok (tt, St ns (c_regions s) (c_terms s) (c_vars s) (c_links s) (c_symbols s) (c_imports s) (c_cache s))
    | None => Crash
    end.
  Definition set_region (id : N) (r : tregion) : comp unit := fun s =>
    match list_set (N.to_nat id) r (c_regions s) with
    | Some rs => Ok (tt, St (c_nodes s) rs (c_terms s) (c_vars s) (c_links s) (c_symbols s) (c_imports s) (c_cache s))
    | None => Crash
    end.
  (** ast/resolve.rs:94-97, the end of [resolve_term]: equal terms are shared *)
  Definition share_term (t : tterm) : comp N := fun s =>
    match find (fun e => tterm_eqb t (fst e)) (c_cache s) with
    | Some e => Ok (snd e, s)
    | None =>
      let id := N.of_nat (List.length (c_terms s)) in
      Ok (id, St (c_nodes s) (c_regions s) (c_terms s ++ [t]) (c_vars s) (c_links s) (c_symbols s) (c_imports s) (c_cache s ++ [(t, id)]))
    end.

  (** The scope tables *)
  Definition enter_vars (n : N) : comp unit := fun s => Ok (tt, with_vars s (vt_enter n (c_vars s))).
  Definition exit_vars : comp unit := fun s => match vt_exit (c_vars s) with Some v => Ok (tt, with_vars s v) | None => Crash end.
  Definition enter_links (r : N) : comp unit := fun s => Ok (tt, with_links s (lt_enter r (c_links s))).
  Definition exit_links : comp (N * N) := fun s =>
    match lt_exit (c_links s) with Some (l, LCounts a b) => Ok ((a, b), with_links s l) | _ => Crash end.
  Definition enter_symbols (r : N) : comp unit := fun s => Ok (tt, with_symbols s (st_enter r (c_symbols s))).
  Definition exit_symbols : comp unit := fun s => match st_exit (c_symbols s) with Some y => Ok (tt, with_symbols s y) | None => Crash end.
  (** ast/resolve.rs:223-225 [resolve_link] *)
  Definition resolve_link (n : str) : comp N := fun s =>
    match lt_use str_eq_dec n (c_links s) with Some (l, LIndex i) => Ok (N.of_nat i, with_links s l) | _ => Crash end.
  (** ast/resolve.rs:333-337 [resolve_var] *)
  Definition resolve_var (n : str) : comp (N * N) := fun s =>
    match vt_resolve str_eq_dec n (c_vars s) with
    | Some (VId m i) => Ok ((m, i), s)
    | Some _ => Err (UnknownVar n)
    | None => Crash
    end.
  (** ast/resolve.rs:339-358 [resolve_symbol_name] *)
  Definition resolve_symbol_name (n : str) : comp N := fun s =>
    match st_resolve str_eq_dec n (c_symbols s) with
    | None => Crash
    | Some (SNode m) => Ok (m, s)
    | Some _ =>
      match find (fun e => str_eqb n (fst e)) (c_imports s) with
      | Some e => Ok (snd e, s)
      | None =>
        let id := N.of_nat (List.length (c_nodes s)) in
        Ok (id, St (c_nodes s ++ [TNode (Import n) [] [] [] [] None]) (c_regions s) (c_terms s) (c_vars s) (c_links s) (c_symbols s)
                   (c_imports s ++ [(n, id)]) (c_cache s))
      end
    end.

  (** ast/mod.rs:164-187 [symbol], [symbol_name] *)
  Definition op_symbol {T} (o : operation T) : option (symbol T) :=
    match o with
    | DefineFunc s | DeclareFunc s | DefineAlias s _ | DeclareAlias s | DeclareConstructor s | DeclareOperation s => Some s
    | _ => None
    end.
  Definition op_symbol_name {T} (o : operation T) : option str :=
    match o with Import n => Some n | _ => option_map s_name (op_symbol o) end.
  Definition node_op (n : node) : operation term := match n with Node o _ _ _ _ _ => o end.
  (** ast/resolve.rs:125-131, in [resolve_nodes] *)
  Definition declare (id : N) (n : node) : comp unit :=
    match op_symbol_name (node_op n) with
    | None => ret tt
    | Some k => fun s =>
      match st_insert str_eq_dec k id (c_symbols s) with
      | Some (y, SUnit) => Ok (tt, with_symbols s y)
      | Some (y, _) => Err (DuplicateSymbol k)
      | None => Crash
      end
    end.

  (** ast/resolve.rs:108-113 [resolve_seq_part] *)
  Definition resolve_part (rt : term -> comp N) (p : part term) : comp (part N) :=
    match p with Item t => do i <- rt t; ret (Item i) | Splice t => do i <- rt t; ret (Splice i) end.
  (** ast/resolve.rs:318-331 [resolve_param] *)
  Definition resolve_param (rt : term -> comp N) (p : str * term) : comp (str * N) :=
    do t <- rt (snd p);
    (fun s => match vt_insert str_eq_dec (fst p) (c_vars s) with
              | Some (v, VId _ _) => Ok (tt, with_vars s v)
              | Some _ => Err (DuplicateVar (fst p))
              | None => Crash
              end);;
    ret (fst p, t).
  (** ast/resolve.rs:290-304 [resolve_symbol] *)
  Definition resolve_symbol (rt : term -> comp N) (x : symbol term) : comp (symbol N) :=
    do ps <- each (resolve_param rt) (s_params x);
    do ws <- each rt (s_where x);
    do g <- rt (s_sig x);
    ret (Symbol (s_vis x) (s_name x) ps ws g).
  (** ast/resolve.rs:152-192, in [resolve_node] *)
  Definition resolve_operation (rt : term -> comp N) (o : operation term) : comp (operation N) :=
    match o with
    | Invalid => ret Invalid
    | Dfg => ret Dfg
    | Cfg => ret Cfg
    | Block => ret Block
    | TailLoop => ret TailLoop
    | Conditional => ret Conditional
    | DefineFunc x => do x <- resolve_symbol rt x; ret (DefineFunc x)
    | DeclareFunc x => do x <- resolve_symbol rt x; ret (DeclareFunc x)
    | DefineAlias x t => do x <- resolve_symbol rt x; do t <- rt t; ret (DefineAlias x t)
    | DeclareAlias x => do x <- resolve_symbol rt x; ret (DeclareAlias x)
    | DeclareConstructor x => do x <- resolve_symbol rt x; ret (DeclareConstructor x)
    | DeclareOperation x => do x <- resolve_symbol rt x; ret (DeclareOperation x)
    | Import n => ret (Import n)
    | Custom t => do t <- rt t; ret (Custom t)
    end.
  Definition is_define {T} (o : operation T) : bool := match o with DefineFunc _ => true | _ => false end.
  Definition has_symbol {T} (o : operation T) : bool := match op_symbol o with Some _ => true | None => false end.
  (** ast/resolve.rs:115-139 [resolve_nodes] *)
  Definition resolve_nodes (rn : N -> node -> comp unit) (ns : list node) : comp (list N) :=
    do ids <- each (fun _ => insert_node new_node) ns;
    zip_each declare ids ns;;
    zip_each rn ids ns;;
    ret ids.

  (** ast/resolve.rs:77-98 [resolve_term], :240-288 [resolve_region], :141-217 [resolve_node] *)
  Fixpoint resolve_term (t : term) {struct t} : comp N :=
    do x <- (match t with
             | Wildcard => ret TWildcard
             | Var n => do v <- resolve_var n; ret (TVar (fst v) (snd v))
             | Apply n ts => do m <- resolve_symbol_name n; do is <- each (fun t => resolve_term t) ts; ret (TApply m is)
             | List ps => do qs <- each (resolve_part (fun t => resolve_term t)) ps; ret (TList qs)
             | Lit l => ret (TLit l)
             | Tuple ps => do qs <- each (resolve_part (fun t => resolve_term t)) ps; ret (TTuple qs)
             | Func r => do i <- resolve_region true r; ret (TFunc i)
             end);
    share_term x
  with resolve_region (closed : bool) (r : region) {struct r} : comp N :=
    match r with
    | Region k src tgt ns ms g =>
      do ms <- each (fun t => resolve_term t) ms;
      do g <- opt_each (fun t => resolve_term t) g;
      do id <- insert_region new_region;
      enter_symbols id;;
      (if closed then enter_links id else ret tt);;
      do src <- each resolve_link src;
      do tgt <- each resolve_link tgt;
      do ns <- resolve_nodes (fun id n => resolve_node id n) ns;
      do sc <- (if closed then do c <- exit_links; ret (Some c) else ret None);
      exit_symbols;;
      set_region id (TRegion k src tgt ns ms g sc);;
      ret id
    end
  with resolve_node (id : N) (n : node) {struct n} : comp unit :=
    match n with
    | Node o ins outs rs ms g =>
      do ins <- each resolve_link ins;
      do outs <- each resolve_link outs;
      (if has_symbol o then enter_vars id else ret tt);;
      do o' <- resolve_operation (fun t => resolve_term t) o;
      do ms <- each (fun t => resolve_term t) ms;
      do rs <- each (fun r => resolve_region (is_define o) r) rs;
      do g <- opt_each (fun t => resolve_term t) g;
      (if has_symbol o then exit_vars else ret tt);;
      set_node id (TNode o' ins outs rs ms g)
    end.

  (** ast/resolve.rs:38-71 [resolve_module]; the root has id 0 *)
  Definition resolve_module (m : @module F) : comp N :=
    match m with
    | Region _ _ _ ns ms _ =>
      do root <- insert_region new_region;
      enter_symbols root;;
      enter_links root;;
      do ids <- resolve_nodes (fun id n => resolve_node id n) ns;
      do ms <- each (fun t => resolve_term t) ms;
      do sc <- exit_links;
      exit_symbols;;
      do im <- (fun s => Ok (map snd (drain (c_imports s)), St (c_nodes s) (c_regions s) (c_terms s) (c_vars s) (c_links s) (c_symbols s) [] (c_cache s)));
      set_region root (TRegion ModuleRegion [] [] (ids ++ im) ms None (Some sc));;
      ret root
    end.
  (** ast/mod.rs:90-97 [Module::resolve] *)
  Definition resolve (m : @module F) : out tmodule :=
    match resolve_module m start with
    | Ok (root, s) => Ok (TModule root (c_nodes s) (c_regions s) (c_terms s))
    | Err e => Err e
    | Crash => Crash
    end.

  (** ** Viewing *)
  Section MapM.
    Context {A B : Type}.
    Variable f : A -> option B.
    Fixpoint all_some (l : list A) : option (list B) :=
      match l with [] => Some [] | a :: l => match f a, all_some l with Some b, Some bs => Some (b :: bs) | _, _ => None end end.
  End MapM.
  Definition opt_some {A B} (f : A -> option B) (o : option A) : option (option B) :=
    match o with Some a => option_map Some (f a) | None => Some None end.
  Definition lookup {A} (l : list A) (i : N) : option A := nth_error l (N.to_nat i).

  Variable m : tmodule.
  (** ast/view.rs:77-81; [new_index] (v0/mod.rs:521-524) *)
  Definition view_link (i : N) : str := show_nat i.
  (** ast/view.rs:137-154: the name of a parameter *)
  Definition view_var (n i : N) : option str :=
    match lookup (tm_nodes m) n with
    | Some x => match op_symbol (tn_op x) with Some y => option_map fst (lookup (s_params y) i) | None => None end
    | None => None
    end.
  (** ast/view.rs:156-162, table/mod.rs:232-248 *)
  Definition view_symbol_name (n : N) : option str :=
    match lookup (tm_nodes m) n with Some x => op_symbol_name (tn_op x) | None => None end.
  (** ast/view.rs:83-90 *)
  Definition view_part (vt : N -> option term) (p : part N) : option (part term) :=
    match p with Item i => option_map Item (vt i) | Splice i => option_map Splice (vt i) end.
  (** ast/view.rs:92-115 *)
  Definition view_param (vt : N -> option term) (p : str * N) : option (str * term) := option_map (pair (fst p)) (vt (snd p)).
  Definition view_symbol (vt : N -> option term) (x : symbol N) : option (symbol term) :=
    match all_some (view_param vt) (s_params x), all_some vt (s_where x), vt (s_sig x) with
    | Some ps, Some ws, Some g => Some (Symbol (s_vis x) (s_name x) ps ws g)
    | _, _, _ => None
    end.
  (** ast/view.rs:29-57 *)
  Definition view_operation (vt : N -> option term) (o : operation N) : option (operation term) :=
    match o with
    | Invalid => Some Invalid
    | Dfg => Some Dfg
    | Cfg => Some Cfg
    | Block => Some Block
    | TailLoop => Some TailLoop
    | Conditional => Some Conditional
    | DefineFunc x => option_map DefineFunc (view_symbol vt x)
    | DeclareFunc x => option_map DeclareFunc (view_symbol vt x)
    | DefineAlias x t => match view_symbol vt x, vt t with Some x, Some t => Some (DefineAlias x t) | _, _ => None end
    | DeclareAlias x => option_map DeclareAlias (view_symbol vt x)
    | DeclareConstructor x => option_map DeclareConstructor (view_symbol vt x)
    | DeclareOperation x => option_map DeclareOperation (view_symbol vt x)
    | Import n => Some (Import n)
    | Custom t => option_map Custom (vt t)
    end.
  (** ast/view.rs:6-23 (terms), :117-134 (regions), :25-75 (nodes) *)
  Fixpoint view_term (fuel : nat) (id : N) : option term :=
    match fuel with
    | O => None
    | S fuel =>
      match lookup (tm_terms m) id with
      | None => None
      | Some t =>
        match t with
        | TWildcard => Some Wildcard
        | TVar n i => option_map Var (view_var n i)
        | TApply n ts => match view_symbol_name n, all_some (view_term fuel) ts with Some k, Some ts => Some (Apply k ts) | _, _ => None end
        | TList ps => option_map List (all_some (view_part (view_term fuel)) ps)
        | TLit l => Some (Lit l)
        | TTuple ps => option_map Tuple (all_some (view_part (view_term fuel)) ps)
        | TFunc r => option_map Func (view_region fuel r)
        end
      end
    end
  with view_region (fuel : nat) (id : N) : option region :=
    match fuel with
    | O => None
    | S fuel =>
      match lookup (tm_regions m) id with
      | None => None
      | Some r =>
        match all_some (view_term fuel) (tr_meta r), all_some (view_node fuel) (tr_children r), opt_some (view_term fuel) (tr_sig r) with
        | Some ms, Some ns, Some g => Some (Region (tr_kind r) (map view_link (tr_sources r)) (map view_link (tr_targets r)) ns ms g)
        | _, _, _ => None
        end
      end
    end
  with view_node (fuel : nat) (id : N) : option node :=
    match fuel with
    | O => None
    | S fuel =>
      match lookup (tm_nodes m) id with
      | None => None
      | Some n =>
        match view_operation (view_term fuel) (tn_op n), all_some (view_term fuel) (tn_meta n), opt_some (view_term fuel) (tn_sig n),
              all_some (view_region fuel) (tn_regions n) with
        | Some o, Some ms, Some g, Some rs => Some (Node o (map view_link (tn_in n)) (map view_link (tn_out n)) rs ms g)
        | _, _, _, _ => None
        end
      end
    end.
  (** table/mod.rs:151-157 [as_ast] *)
  Definition as_ast (fuel : nat) : option (@module F) := view_region fuel (tm_root m).
End Tables.

(** v0/mod.rs:566: the equality of [OrderedFloat<f64>], by the documentation of the ordered-float crate: that of the numbers, with
    NaN equal to itself *)
Definition ordered_eq (a b : spec_float) : bool :=
  match SFcompare a b with
  | Some Eq => true
  | Some _ => false
  | None => match a, b with S754_nan, S754_nan => true | _, _ => false end
  end.
