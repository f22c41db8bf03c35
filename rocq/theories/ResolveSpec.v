(** Well-scoped syntax trees, the names they leave open, and the numbering of their links. *)
From Coq Require Import String List Bool NArith Arith SpecFloat.
From Verif Require Import TextModel TextSpec.
Import ListNotations.
Open Scope list_scope.

(** ** Maps over the parts of a tree *)
Definition map_part {T U} (f : T -> U) (p : part T) : part U := match p with Item t => Item (f t) | Splice t => Splice (f t) end.
Definition map_symbol {T U} (f : T -> U) (x : symbol T) : symbol U :=
  Symbol (s_vis x) (s_name x) (map (fun p => (fst p, f (snd p))) (s_params x)) (map f (s_where x)) (f (s_sig x)).
Definition map_operation {T U} (f : T -> U) (o : operation T) : operation U :=
  match o with
  | Invalid => Invalid
  | Dfg => Dfg
  | Cfg => Cfg
  | Block => Block
  | DefineFunc x => DefineFunc (map_symbol f x)
  | DeclareFunc x => DeclareFunc (map_symbol f x)
  | Custom t => Custom (f t)
  | DefineAlias x t => DefineAlias (map_symbol f x) (f t)
  | DeclareAlias x => DeclareAlias (map_symbol f x)
  | TailLoop => TailLoop
  | Conditional => Conditional
  | DeclareConstructor x => DeclareConstructor (map_symbol f x)
  | DeclareOperation x => DeclareOperation (map_symbol f x)
  | Import n => Import n
  end.

(** Names in the order of their first occurrence, and the position of a name. *)
Fixpoint distinct_after (seen names : list str) : list str :=
  match names with
  | [] => seen
  | n :: names => distinct_after (if in_dec (list_eq_dec N.eq_dec) n seen then seen else seen ++ [n]) names
  end.
Fixpoint position (n : str) (l : list str) : nat :=
  match l with [] => 0 | a :: l => if list_eq_dec N.eq_dec n a then 0 else S (position n l) end.
(** The number of a name, as text. *)
Definition number_name (names : list str) (n : str) : str := show_nat (N.of_nat (position n (distinct_after [] names))).

Section Spec.
  Context {F : Type}.
  Notation term := (@term F).
  Notation region := (@region F).
  Notation node := (@node F).

  (** The symbol an operation introduces: its parameters are the variables inside of the node.  Only the bodies of
      function definitions have links of their own. *)
  Definition introduces {T} (o : operation T) : option (symbol T) :=
    match o with
    | DefineFunc x | DeclareFunc x | DefineAlias x _ | DeclareAlias x | DeclareConstructor x | DeclareOperation x => Some x
    | _ => None
    end.
  Definition declared_name (n : node) : list str :=
    match n with Node (Import k) _ _ _ _ _ => [k] | Node o _ _ _ _ _ => match introduces o with Some x => [s_name x] | None => [] end end.
  Definition declared_names (ns : list node) : list str := flat_map declared_name ns.
  Definition is_definition {T} (o : operation T) : bool := match o with DefineFunc _ => true | _ => false end.

  (** ** Links *)
  (** The links of a region, in order, without those of the functions in it. *)
  Fixpoint region_links (r : region) : list str :=
    match r with Region _ src tgt ns _ _ => src ++ tgt ++ flat_map node_links ns end
  with node_links (n : node) : list str :=
    match n with Node o ins outs rs _ _ => ins ++ outs ++ (if is_definition o then [] else flat_map region_links rs) end.

  (** The tree with links renamed: by [f], and by their numbers in function bodies and function constants ([None]). *)
  Fixpoint numbered_term (t : term) : term :=
    match t with
    | Apply n ts => Apply n (map numbered_term ts)
    | List ps => List (map (map_part numbered_term) ps)
    | Tuple ps => Tuple (map (map_part numbered_term) ps)
    | Func r => Func (numbered_region None r)
    | t => t
    end
  with numbered_region (f : option (str -> str)) (r : region) : region :=
    match r with
    | Region k src tgt ns ms g =>
      let f := match f with Some f => f | None => number_name (src ++ tgt ++ flat_map node_links ns) end in
      Region k (map f src) (map f tgt) (map (numbered_node f) ns) (map numbered_term ms) (option_map numbered_term g)
    end
  with numbered_node (f : str -> str) (n : node) : node :=
    match n with
    | Node o ins outs rs ms g =>
      Node (map_operation numbered_term o) (map f ins) (map f outs)
           (map (numbered_region (if is_definition o then None else Some f)) rs) (map numbered_term ms) (option_map numbered_term g)
    end.
  (** The links of a module are those of its nodes; a module has no ports and no signature. *)
  Definition numbered_module (m : @module F) : @module F :=
    match m with
    | Region _ _ _ ns ms _ => Region ModuleRegion [] [] (map (numbered_node (number_name (flat_map node_links ns))) ns) (map numbered_term ms) None
    end.

  (** Import declarations for the names [im] at the end of a module. *)
  Definition with_imports (m : @module F) (im : list str) : @module F :=
    match m with Region k src tgt ns ms g => Region k src tgt (ns ++ map (fun n => Node (Import n) [] [] [] [] None) im) ms g end.

  (** ** Floats *)
  Variable c : F -> F.
  Fixpoint floats_term (t : term) : term :=
    match t with
    | Apply n ts => Apply n (map floats_term ts)
    | List ps => List (map (map_part floats_term) ps)
    | Tuple ps => Tuple (map (map_part floats_term) ps)
    | Func r => Func (floats_region r)
    | Lit (LFloat f) => Lit (LFloat (c f))
    | t => t
    end
  with floats_region (r : region) : region :=
    match r with Region k src tgt ns ms g => Region k src tgt (map floats_node ns) (map floats_term ms) (option_map floats_term g) end
  with floats_node (n : node) : node :=
    match n with
    | Node o ins outs rs ms g => Node (map_operation floats_term o) ins outs (map floats_region rs) (map floats_term ms) (option_map floats_term g)
    end.

  (** ** Scopes *)
  Definition opt_holds {A} (P : A -> Prop) (o : option A) : Prop := match o with Some a => P a | None => True end.
  (** Parameters may be used in the types of later ones, and are distinct. *)
  Section Symbols.
    Variable P : list str -> term -> Prop.
    Fixpoint scoped_params (seen : list str) (ps : list (str * term)) : Prop :=
      match ps with [] => True | p :: ps => P seen (snd p) /\ ~ In (fst p) seen /\ scoped_params (seen ++ [fst p]) ps end.
    Definition scoped_symbol (x : symbol term) : Prop :=
      scoped_params [] (s_params x) /\ all (P (map fst (s_params x))) (s_where x) /\ P (map fst (s_params x)) (s_sig x).
    Definition scoped_operation (vars : list str) (o : operation term) : Prop :=
      match o with
      | DefineFunc x | DeclareFunc x | DeclareAlias x | DeclareConstructor x | DeclareOperation x => scoped_symbol x
      | DefineAlias x t => scoped_symbol x /\ P (map fst (s_params x)) t
      | Custom t => P vars t
      | _ => True
      end.
  End Symbols.
  Definition inner_vars (vars : list str) (o : operation term) : list str :=
    match introduces o with Some x => map fst (s_params x) | None => vars end.
  (** Variables are those in scope; no region declares a symbol twice. *)
  Fixpoint scoped_term (vars : list str) (t : term) : Prop :=
    match t with
    | Var n => In n vars
    | Apply _ ts => all (scoped_term vars) ts
    | List ps | Tuple ps => all (fun p => match p with Item t | Splice t => scoped_term vars t end) ps
    | Func r => scoped_region vars r
    | Wildcard | Lit _ => True
    end
  with scoped_region (vars : list str) (r : region) : Prop :=
    match r with
    | Region _ _ _ ns ms g =>
      all (scoped_term vars) ms /\ opt_holds (scoped_term vars) g /\ NoDup (declared_names ns) /\ all (scoped_node vars) ns
    end
  with scoped_node (vars : list str) (n : node) : Prop :=
    match n with
    | Node o _ _ rs ms g =>
      scoped_operation scoped_term vars o /\ all (scoped_term (inner_vars vars o)) ms /\
      all (scoped_region (inner_vars vars o)) rs /\ opt_holds (scoped_term (inner_vars vars o)) g
    end.
  Definition scoped_module (m : @module F) : Prop :=
    match m with Region _ _ _ ns ms _ => NoDup (declared_names ns) /\ all (scoped_node []) ns /\ all (scoped_term []) ms end.

  (** ** Open names *)
  (** The symbols that are used where no enclosing region declares them. *)
  Definition opt_list {A B} (f : A -> list B) (o : option A) : list B := match o with Some a => f a | None => [] end.
  Definition open_symbol (f : term -> list str) (x : symbol term) : list str :=
    flat_map (fun p => f (snd p)) (s_params x) ++ flat_map f (s_where x) ++ f (s_sig x).
  Definition open_operation (f : term -> list str) (o : operation term) : list str :=
    match o with
    | DefineFunc x | DeclareFunc x | DeclareAlias x | DeclareConstructor x | DeclareOperation x => open_symbol f x
    | DefineAlias x t => open_symbol f x ++ f t
    | Custom t => f t
    | _ => []
    end.
  Fixpoint open_term (bound : list str) (t : term) : list str :=
    match t with
    | Apply n ts => (if in_dec (list_eq_dec N.eq_dec) n bound then [] else [n]) ++ flat_map (open_term bound) ts
    | List ps | Tuple ps => flat_map (fun p => match p with Item t | Splice t => open_term bound t end) ps
    | Func r => open_region bound r
    | Wildcard | Var _ | Lit _ => []
    end
  with open_region (bound : list str) (r : region) : list str :=
    match r with
    | Region _ _ _ ns ms g =>
      flat_map (open_term bound) ms ++ opt_list (open_term bound) g ++ flat_map (open_node (declared_names ns ++ bound)) ns
    end
  with open_node (bound : list str) (n : node) : list str :=
    match n with
    | Node o _ _ rs ms g =>
      open_operation (open_term bound) o ++ flat_map (open_term bound) ms ++ flat_map (open_region bound) rs ++ opt_list (open_term bound) g
    end.
  Definition open_module (m : @module F) : list str :=
    match m with
    | Region _ _ _ ns ms _ => flat_map (open_node (declared_names ns)) ns ++ flat_map (open_term (declared_names ns)) ms
    end.

  (** ** Sizes *)
  (** Counters of 16 and 32 bits suffice: fewer than 2^16 parameters and nested regions, fewer than 2^32 ports. *)
  Definition fits_symbol (P : term -> Prop) (x : symbol term) : Prop :=
    (N.of_nat (List.length (s_params x)) < 65536)%N /\ all (fun p => P (snd p)) (s_params x) /\ all P (s_where x) /\ P (s_sig x).
  Definition fits_operation (P : term -> Prop) (o : operation term) : Prop :=
    match o with
    | DefineFunc x | DeclareFunc x | DeclareAlias x | DeclareConstructor x | DeclareOperation x => fits_symbol P x
    | DefineAlias x t => fits_symbol P x /\ P t
    | Custom t => P t
    | _ => True
    end.
  Fixpoint fits_term (depth : N) (t : term) : Prop :=
    match t with
    | Apply _ ts => all (fits_term depth) ts
    | List ps | Tuple ps => all (fun p => match p with Item t | Splice t => fits_term depth t end) ps
    | Func r => fits_region true depth r
    | Wildcard | Var _ | Lit _ => True
    end
  with fits_region (closed : bool) (depth : N) (r : region) : Prop :=
    match r with
    | Region _ src tgt ns ms g =>
      (depth < 65535)%N /\ (closed = true -> N.of_nat (List.length (src ++ tgt ++ flat_map node_links ns)) < 4294967296)%N /\
      all (fits_term depth) ms /\ opt_holds (fits_term depth) g /\ all (fits_node (depth + 1)) ns
    end
  with fits_node (depth : N) (n : node) : Prop :=
    match n with
    | Node o _ _ rs ms g =>
      fits_operation (fits_term depth) o /\ all (fits_term depth) ms /\ all (fits_region (is_definition o) depth) rs /\ opt_holds (fits_term depth) g
    end.
  Definition fits_module (m : @module F) : Prop :=
    match m with
    | Region _ _ _ ns ms _ =>
      (N.of_nat (List.length (flat_map node_links ns)) < 4294967296)%N /\ all (fits_node 1) ns /\ all (fits_term 1) ms
    end.
End Spec.

(** A float without the sign of zero. *)
Definition unsigned_zero (a : spec_float) : spec_float := match a with S754_zero _ => S754_zero false | a => a end.
