(** Model of the three scope tables of the text/module resolver.
    Source: hugr-model/src/v0/scope/{vars,link,symbol}.rs.

    [IndexSet]/[IndexMap] (indexmap crate) are lists in insertion order: [insert] of a present
    key keeps its position, [drain(i..)] is [firstn i], [pop] removes the last entry.  Node and
    region ids are numbers.  [None] from a step is a panic. *)
From Coq Require Import List Bool NArith Arith.
Import ListNotations.

Section Index.
  Context {A : Type} (eqd : forall a b : A, {a = b} + {a <> b}).
  (** [IndexSet::get_index_of]. *)
  Fixpoint ix_of (a : A) (l : list A) : option nat :=
    match l with
    | [] => None
    | b :: l' => if eqd a b then Some 0 else option_map S (ix_of a l')
    end.
  (** [IndexSet::insert_full]: (set, index, inserted?). *)
  Definition ix_insert (a : A) (l : list A) : list A * nat * bool :=
    match ix_of a l with
    | Some i => (l, i, false)
    | None => (l ++ [a], length l, true)
    end.
End Index.

Definition u16 (n : N) : N := (n mod 65536)%N.
Definition u32 (n : N) : N := (n mod 4294967296)%N.

Section Tables.
  Context {K : Type} (keq : forall a b : K, {a = b} + {a <> b}).

  Definition pair_eq (a b : N * K) : {a = b} + {a <> b}.
  Proof.
    destruct a as [n k], b as [m j]. destruct (N.eq_dec n m) as [->|H]; [|right; congruence].
    destruct (keq k j) as [->|H]; [left; reflexivity|right; congruence].
  Defined.

  (** *** Variables: vars.rs *)

  (** l.130-138. Counters are [u16]; the release-mode wrap is used (debug builds abort). *)
  Record var_scope := mk_vscope { vs_node : N; vs_count : N; vs_stack : nat }.
  (** l.40-49; the scope stack has its top at the head. *)
  Record var_table := mk_vt { vt_vars : list (N * K); vt_scopes : list var_scope }.
  Definition vt_new : var_table := mk_vt [] [].

  Inductive var_out :=
  | VUnit | VId (node idx : N) | VBool (b : bool)
  | VErrRoot (k : K) | VErrWithin (node : N) (k : K) | VErrDup (node : N) (k : K).

  (** l.58-64. *)
  Definition vt_enter (n : N) (t : var_table) : var_table :=
    mk_vt (vt_vars t) (mk_vscope n 0 (length (vt_vars t)) :: vt_scopes t).
  (** l.71-74: [unwrap] panics without open scope. *)
  Definition vt_exit (t : var_table) : option var_table :=
    match vt_scopes t with
    | [] => None
    | s :: ss => Some (mk_vt (firstn (vs_stack s) (vt_vars t)) ss)
    end.
  (** l.81-89: [set_index - var_stack] is a [usize] subtraction (underflow panics/wraps). *)
  Definition vt_resolve (k : K) (t : var_table) : option var_out :=
    match vt_scopes t with
    | [] => Some (VErrRoot k)
    | s :: _ =>
        match ix_of pair_eq (vs_node s, k) (vt_vars t) with
        | None => Some (VErrWithin (vs_node s) k)
        | Some i => if i <? vs_stack s then None
                    else Some (VId (vs_node s) (u16 (N.of_nat (i - vs_stack s))))
        end
    end.
  (** l.93-99. *)
  Definition vt_visible (n i : N) (t : var_table) : bool :=
    match vt_scopes t with
    | [] => false
    | s :: _ => (vs_node s =? n)%N && (i <? vs_count s)%N
    end.
  (** l.110-121. *)
  Definition vt_insert (k : K) (t : var_table) : option (var_table * var_out) :=
    match vt_scopes t with
    | [] => None
    | s :: ss =>
        let '(vars, _, inserted) := ix_insert pair_eq (vs_node s, k) (vt_vars t) in
        if inserted then
          Some (mk_vt vars (mk_vscope (vs_node s) (u16 (vs_count s + 1)) (vs_stack s) :: ss),
                VId (vs_node s) (vs_count s))
        else Some (mk_vt vars (vt_scopes t), VErrDup (vs_node s) k)
    end.

  Inductive var_op :=
  | VEnter (n : N) | VExit | VResolve (k : K) | VVisible (n i : N) | VInsert (k : K) | VClear.

  Definition vt_step (t : var_table) (o : var_op) : option (var_table * var_out) :=
    match o with
    | VEnter n => Some (vt_enter n t, VUnit)
    | VExit => option_map (fun t' => (t', VUnit)) (vt_exit t)
    | VResolve k => option_map (fun r => (t, r)) (vt_resolve k t)
    | VVisible n i => Some (t, VBool (vt_visible n i t))
    | VInsert k => vt_insert k t
    | VClear => Some (vt_new, VUnit)                                     (* l.124-127 *)
    end.

  (** *** Links: link.rs *)

  (** l.116-126. *)
  Record link_scope := mk_lscope { ls_stack : nat; ls_links : N; ls_ports : N; ls_region : N }.
  (** l.39-48. *)
  Record link_table := mk_lt { lt_links : list (N * K); lt_scopes : list link_scope }.
  Definition lt_new : link_table := mk_lt [] [].

  Inductive link_out := LUnit | LIndex (i : nat) | LCounts (links ports : N).

  (** l.64-71. *)
  Definition lt_enter (r : N) (t : link_table) : link_table :=
    mk_lt (lt_links t) (mk_lscope (length (lt_links t)) 0 0 r :: lt_scopes t).
  (** l.74-79. *)
  Definition lt_exit (t : link_table) : option (link_table * link_out) :=
    match lt_scopes t with
    | [] => None
    | s :: ss => Some (mk_lt (firstn (ls_stack s) (lt_links t)) ss, LCounts (ls_links s) (ls_ports s))
    end.
  (** l.88-98.  [LinkIndex::new] of the [usize] difference (underflow panics/wraps). *)
  Definition lt_use (k : K) (t : link_table) : option (link_table * link_out) :=
    match lt_scopes t with
    | [] => None
    | s :: ss =>
        let '(links, i, inserted) := ix_insert pair_eq (ls_region s, k) (lt_links t) in
        let s' := mk_lscope (ls_stack s) (if inserted then u32 (ls_links s + 1) else ls_links s)
                            (u32 (ls_ports s + 1)) (ls_region s) in
        if i <? ls_stack s then None
        else Some (mk_lt links (s' :: ss), LIndex (i - ls_stack s))
    end.

  Inductive link_op := LEnter (r : N) | LExit | LUse (k : K) | LClear.

  Definition lt_step (t : link_table) (o : link_op) : option (link_table * link_out) :=
    match o with
    | LEnter r => Some (lt_enter r t, LUnit)
    | LExit => lt_exit t
    | LUse k => lt_use k t
    | LClear => Some (lt_new, LUnit)
    end.

  (** *** Symbols: symbol.rs *)

  (** l.167-180. *)
  Record binding := mk_bind { b_depth : N; b_shadows : option nat; b_sym : nat }.
  (** l.43-48; [scopes] maps region to [binding_stack]. *)
  Record sym_table := mk_st {
    st_symbols : list (K * nat);
    st_bindings : list (N * binding);
    st_scopes : list (N * nat)
  }.
  Definition st_new : sym_table := mk_st [] [] [].

  Inductive sym_out :=
  | SUnit | SNode (n : N) | SBool (b : bool) | SOptN (o : option N)
  | SErrUnknown (k : K) | SErrDup (k : K) (node other : N).

  (** [IndexMap::insert] on association lists in insertion order: replaces in place. *)
  Fixpoint im_insert {A B : Type} (eqd : forall a b : A, {a = b} + {a <> b}) (a : A) (v : B)
           (l : list (A * B)) : list (A * B) :=
    match l with
    | [] => [(a, v)]
    | (b, w) :: l' => if eqd a b then (b, v) :: l' else (b, w) :: im_insert eqd a v l'
    end.
  Definition im_index {A B : Type} (eqd : forall a b : A, {a = b} + {a <> b}) (a : A)
             (l : list (A * B)) : option nat := ix_of eqd a (map fst l).
  Definition im_get {A B : Type} (eqd : forall a b : A, {a = b} + {a <> b}) (a : A)
             (l : list (A * B)) : option B :=
    match im_index eqd a l with
    | Some i => option_map snd (nth_error l i)
    | None => None
    end.
  (** [map[i] = v] by position (panics out of bounds). *)
  Fixpoint im_set_index {A B : Type} (i : nat) (v : B) (l : list (A * B)) : option (list (A * B)) :=
    match i, l with
    | _, [] => None
    | 0, (a, _) :: l' => Some ((a, v) :: l')
    | S i', p :: l' => option_map (cons p) (im_set_index i' v l')
    end.

  (** l.57-64. *)
  Definition st_enter (r : N) (t : sym_table) : sym_table :=
    mk_st (st_symbols t) (st_bindings t)
          (im_insert N.eq_dec r (length (st_bindings t)) (st_scopes t)).

  (** One round of the loop l.74-83. *)
  Definition st_pop_binding (t : sym_table) : option sym_table :=
    match rev (st_bindings t) with
    | [] => None
    | (_, b) :: _ =>
        let bs := removelast (st_bindings t) in
        match b_shadows b with
        | Some sh => option_map (fun sy => mk_st sy bs (st_scopes t))
                                (im_set_index (b_sym b) sh (st_symbols t))
        | None => Some (mk_st (removelast (st_symbols t)) bs (st_scopes t))
        end
    end.
  Fixpoint st_pop_n (n : nat) (t : sym_table) : option sym_table :=
    match n with
    | 0 => Some t
    | S n' => match st_pop_binding t with Some t' => st_pop_n n' t' | None => None end
    end.
  (** l.71-84. *)
  Definition st_exit (t : sym_table) : option sym_table :=
    match rev (st_scopes t) with
    | [] => None
    | (_, base) :: _ =>
        st_pop_n (length (st_bindings t) - base)
                 (mk_st (st_symbols t) (st_bindings t) (removelast (st_scopes t)))
    end.

  (** l.96-119. [scopes.len() as u16 - 1] panics (debug) when no scope is open. *)
  Definition st_insert (k : K) (node : N) (t : sym_table) : option (sym_table * sym_out) :=
    let d := u16 (N.of_nat (length (st_scopes t))) in
    if (d =? 0)%N then None else
    let depth := (d - 1)%N in
    let shadowed := im_get keq k (st_symbols t) in
    let symbols := im_insert keq k (length (st_bindings t)) (st_symbols t) in
    match im_index keq k symbols with
    | None => None   (* unreachable: just inserted *)
    | Some symbol_index =>
      match shadowed with
      | Some sh =>
          match nth_error (st_bindings t) sh with
          | None => None
          | Some (shnode, shb) =>
              if (b_depth shb =? depth)%N
              then Some (mk_st (im_insert keq k sh symbols) (st_bindings t) (st_scopes t),
                         SErrDup k node shnode)
              else Some (mk_st symbols
                           (im_insert N.eq_dec node (mk_bind depth shadowed symbol_index) (st_bindings t))
                           (st_scopes t), SUnit)
          end
      | None => Some (mk_st symbols
                        (im_insert N.eq_dec node (mk_bind depth None symbol_index) (st_bindings t))
                        (st_scopes t), SUnit)
      end
    end.

  (** l.122-129: compares the table entry with [binding.symbol_index], as written. *)
  Definition st_visible (node : N) (t : sym_table) : option bool :=
    match im_get N.eq_dec node (st_bindings t) with
    | None => Some false
    | Some b => match nth_error (st_symbols t) (b_sym b) with
                | Some (_, v) => Some (v =? b_sym b)
                | None => None
                end
    end.

  (** l.132-143. *)
  Definition st_resolve (k : K) (t : sym_table) : option sym_out :=
    match im_get keq k (st_symbols t) with
    | None => Some (SErrUnknown k)
    | Some i => option_map (fun p => SNode (fst p)) (nth_error (st_bindings t) i)
    end.

  (** l.146-156. [as u16] on the index. *)
  Definition st_region_to_depth (r : N) (t : sym_table) : option N :=
    option_map (fun i => u16 (N.of_nat i)) (im_index N.eq_dec r (st_scopes t)).
  Definition st_depth_to_region (d : N) (t : sym_table) : option N :=
    option_map fst (nth_error (st_scopes t) (N.to_nat d)).

  Inductive sym_op :=
  | SEnter (r : N) | SExit | SInsert (k : K) (n : N) | SResolve (k : K) | SVisible (n : N)
  | SRegionDepth (r : N) | SDepthRegion (d : N) | SClear.

  Definition st_step (t : sym_table) (o : sym_op) : option (sym_table * sym_out) :=
    match o with
    | SEnter r => Some (st_enter r t, SUnit)
    | SExit => option_map (fun t' => (t', SUnit)) (st_exit t)
    | SInsert k n => st_insert k n t
    | SResolve k => option_map (fun r => (t, r)) (st_resolve k t)
    | SVisible n => option_map (fun b => (t, SBool b)) (st_visible n t)
    | SRegionDepth r => Some (t, SOptN (st_region_to_depth r t))
    | SDepthRegion d => Some (t, SOptN (st_depth_to_region d t))
    | SClear => Some (st_new, SUnit)
    end.
End Tables.

(** Observable behaviour of a history: the answers up to (excluding) the first panic, and whether
    it panicked. *)
Fixpoint trace {S O R : Type} (step : S -> O -> option (S * R)) (s : S) (ops : list O) : list R * bool :=
  match ops with
  | [] => ([], false)
  | o :: ops' => match step s o with
                 | None => ([], true)
                 | Some (s', r) => let (rs, p) := trace step s' ops' in (r :: rs, p)
                 end
  end.
