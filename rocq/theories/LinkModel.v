(** Model of linking one HUGR into another by node.
    Source: hugr-core/src/hugr/linking.rs:1-283.

    A hash map is a list of entries without repeated keys, in the order in which it happens to be
    iterated.  The maps built on the way ([Transfers]) are iterated in an order of their own: the two
    functions [su], [sr] rearrange their entries (they are applied to the entries in the order of
    insertion and assumed to give a permutation).  A panic is [LPanic].  As for [insert_forest], the
    indices of new nodes are handed out by the allocator, and used extensions are not modelled.
    [debug_assert]s are not modelled. *)
From Coq Require Import List Bool NArith Arith.
From Verif Require Import GraphModel InsertModel.
Import ListNotations.

(** linking.rs:141-165 [NodeLinkingDirective] *)
Inductive directive :=
| Add (replace : list N)
| UseExisting (tn : N).
Definition is_add (d : directive) : bool := match d with Add _ => true | UseExisting _ => false end.

(** linking.rs:118-136 [NodeLinkingError] *)
Inductive link_error :=
| ChildOfEntrypoint (sn : N)
| ChildContainsEntrypoint (sn : N)
| NotChildOfRoot (sn : N)
| NodeMultiplyReplaced (tn a b : N).

(** linking.rs:196-199 [Transfers] *)
Record transfers := mkTransfers { t_use : list (N * N) (* source, target *); t_rep : list (N * N) (* target, source *) }.

Inductive link_result (A : Type) :=
| Linked (a : A)
| Rejected (e : link_error)
| LPanic.
Arguments Linked {A}. Arguments Rejected {A}. Arguments LPanic {A}.

Section Linking.
  Context {O M : Type}.
  Variable o_default : O.
  Variable o_in o_out : O -> nat.
  Variable m_empty : M -> bool.
  Notation hugr := (hugr O M).

  (** linking.rs:223-228, the loop over the ancestors of the entrypoint; the fuel is the number of nodes. *)
  Fixpoint add_above (other : hugr) (children : list (N * directive)) (fuel : nat) (n : N) : option N :=
    match fuel with
    | 0 => None
    | S fuel =>
      match get_parent other n with
      | None => None
      | Some p =>
        match lookup children p with
        | Some (Add _) => Some p
        | _ => add_above other children fuel p
        end
      end
    end.

  (** linking.rs:206-229 *)
  Definition check_entry (other : hugr) (children : list (N * directive)) : option link_error :=
    if N.eqb (h_entry other) (h_root other) then
      match children with (c, _) :: _ => Some (ChildOfEntrypoint c) | [] => None end
    else
      match lookup children (h_entry other) with
      | Some _ => Some (ChildContainsEntrypoint (h_entry other))
      | None => option_map ChildContainsEntrypoint (add_above other children (length (h_nodes other)) (h_entry other))
      end.

  (** linking.rs:240-244 *)
  Fixpoint record_replace (rep : list (N * N)) (sn : N) (replace : list N) : list (N * N) + link_error :=
    match replace with
    | [] => inl rep
    | r :: replace =>
      match lookup rep r with
      | Some old => inr (NodeMultiplyReplaced r old sn)
      | None => record_replace (rep ++ [(r, sn)]) sn replace
      end
    end.

  (** linking.rs:234-250 *)
  Fixpoint record_all (other : hugr) (tr : transfers) (children : list (N * directive)) : transfers + link_error :=
    match children with
    | [] => inl tr
    | (sn, d) :: children =>
      if match get_parent other sn with Some p => N.eqb p (h_root other) | None => false end then
        match d with
        | Add replace =>
          match record_replace (t_rep tr) sn replace with
          | inl rep => record_all other (mkTransfers (t_use tr) rep) children
          | inr e => inr e
          end
        | UseExisting tn => record_all other (mkTransfers (t_use tr ++ [(sn, tn)]) (t_rep tr)) children
        end
      else inr (NotChildOfRoot sn)
    end.

  (** linking.rs:201-252 [check_directives] *)
  Definition check_directives (other : hugr) (parent : option N) (children : list (N * directive)) : transfers + link_error :=
    match match parent with Some _ => check_entry other children | None => None end with
    | Some e => inr e
    | None => record_all other (mkTransfers [] []) children
    end.

  (** views.rs:184-222 [all_linked_inputs]: the ports linked to the outputs of a node, port by port. *)
  Definition all_linked_inputs (h : hugr) (n : N) : list endpoint :=
    flat_map (linked_inputs h n) (seq 0 (h_out h n)).

  (** linking.rs:275-280, the loop; views.rs:226-243 [single_linked_output]. *)
  Fixpoint redirect (h : hugr) (new : N) (targets : list endpoint) : option hugr :=
    match targets with
    | [] => Some h
    | (t, j) :: targets =>
      match linked_outputs h t j with
      | [(_, i)] =>
        match disconnect h t Inc j with
        | Some h => match connect h new i t j with Some h => redirect h new targets | None => None end
        | None => None
        end
      | _ => None
      end
    end.

  (** linking.rs:273-282 [replace_static_src] *)
  Definition replace_static_src (h : hugr) (old new : N) : option hugr :=
    match redirect h new (all_linked_inputs h old) with
    | Some h => remove_subtree o_default h old
    | None => None
    end.

  Definition del_key {A} (n : N) (m : list (N * A)) : list (N * A) := filter (fun e => negb (N.eqb (fst e) n)) m.

  (** linking.rs:261-266 *)
  Fixpoint link_existing (h : hugr) (m : list (N * N)) (use : list (N * N)) : option (hugr * list (N * N)) :=
    match use with
    | [] => Some (h, m)
    | (sn, tn) :: use =>
      match lookup m sn with
      | None => None
      | Some copy => match replace_static_src h copy tn with Some h => link_existing h (del_key sn m) use | None => None end
      end
    end.
  (** linking.rs:267-270 *)
  Fixpoint link_replaced (h : hugr) (m : list (N * N)) (rep : list (N * N)) : option hugr :=
    match rep with
    | [] => Some h
    | (tn, sn) :: rep =>
      match lookup m sn with
      | None => None
      | Some new => match replace_static_src h tn new with Some h => link_replaced h m rep | None => None end
      end
    end.

  (** linking.rs:254-271 [link_by_node] *)
  Definition link_by_node (h : hugr) (tr : transfers) (m : list (N * N)) : option (hugr * list (N * N)) :=
    match link_existing h m (t_use tr) with
    | None => None
    | Some (h, m) => match link_replaced h m (t_rep tr) with Some h => Some (h, m) | None => None end
    end.

  (** The orders of iteration of the two maps. *)
  Variable su sr : list (N * N) -> list (N * N).
  Definition shuffled (tr : transfers) : transfers := mkTransfers (su (t_use tr)) (sr (t_rep tr)).

  (** linking.rs:44-50: the nodes that are copied. *)
  Definition view_nodes (other : hugr) (parent : option N) (children : list (N * directive)) : list N :=
    match parent with Some _ => descendants other (h_entry other) | None => [] end ++
    flat_map (fun c => if is_add (snd c) then descendants other (fst c) else [fst c]) children.

  (** linking.rs:51-57, :87-93: the roots.  Keys are distinct as the entrypoint is not among the children
      (otherwise the directives are rejected). *)
  Definition link_roots (h other : hugr) (parent : option N) (children : list (N * directive)) : list (N * N) :=
    match parent with Some p => [(h_entry other, p)] | None => [] end ++
    map (fun c => (fst c, h_root h)) children.

  (** linking.rs:36-64 [insert_link_view_by_node]; the roots are a hash map again: [so] gives its order. *)
  Definition insert_link_view (so : list (N * N) -> list (N * N)) (h other : hugr) (fresh : list N) (parent : option N)
    (children : list (N * directive)) : link_result (hugr * list (N * N)) :=
    match check_directives other parent children with
    | inr e => Rejected e
    | inl tr =>
      match insert_view_forest o_default o_in o_out m_empty h other (view_nodes other parent children) fresh
                               (so (link_roots h other parent children)) with
      | Done (h, m) => match link_by_node h (shuffled tr) m with Some r => Linked r | None => LPanic end
      | _ => LPanic
      end
    end.

  (** linking.rs:96-99: removes the children of a node, one after another. *)
  Fixpoint remove_kids (fuel : nat) (other : hugr) (n : N) : option hugr :=
    match h_kids other n with
    | [] => Some other
    | c :: _ =>
      match fuel with
      | 0 => None
      | S fuel => match remove_node o_default other c with Some other => remove_kids fuel other n | None => None end
      end
    end.
  (** linking.rs:91-101 *)
  Fixpoint strip (other : hugr) (children : list (N * directive)) : option hugr :=
    match children with
    | [] => Some other
    | (c, d) :: children =>
      if is_add d then strip other children
      else match remove_kids (length (h_nodes other)) other c with Some other => strip other children | None => None end
    end.

  (** linking.rs:80-108 [insert_link_hugr_by_node] *)
  Definition insert_link_hugr (so : list (N * N) -> list (N * N)) (h other : hugr) (fresh : list N) (parent : option N)
    (children : list (N * directive)) : link_result (hugr * list (N * N)) :=
    match check_directives other parent children with
    | inr e => Rejected e
    | inl tr =>
      match match parent with Some _ => set_parent other (h_entry other) (h_root other) | None => Some other end with
      | None => LPanic
      | Some other1 =>
        match strip other1 children with
        | None => LPanic
        | Some other2 =>
          match insert_forest o_default o_in o_out h other2 fresh (so (link_roots h other parent children)) with
          | Done (h, m) => match link_by_node h (shuffled tr) m with Some r => Linked r | None => LPanic end
          | _ => LPanic
          end
        end
      end
    end.
End Linking.
