(** Model of dead code elimination and of the removal of unreachable functions.
    Source: hugr-passes/src/dead_code.rs, hugr-passes/src/dead_funcs.rs, hugr-core/src/module_graph.rs.
    Hash maps and sets are lists used as maps and sets.  Loops take fuel; the theorems show that it
    suffices.  The traversal of the static graph is petgraph's [Dfs] (external), modelled as visiting
    what can be reached. *)
From Coq Require Import List Bool NArith Arith.
From Verif Require Import TagModel TypesModel GraphModel OpModel.
Import ListNotations.

(** dead_code.rs:56-67 [PreserveNode] *)
Inductive preserve := MustKeep | CanRemoveIgnoringChildren | DeferToChildren.

(** dead_code.rs:85-90 [DeadCodeElimError] or a result; [Stuck] is only used when fuel runs out. *)
Inductive outcome (A : Type) := Done (a : A) | NodeNotFound (n : N) | Stuck.
Arguments Done {A}. Arguments NodeNotFound {A}. Arguments Stuck {A}.

Section Dead.
  Context {M : Type}.
  Notation hugr := (hugr op M).

  (** dead_code.rs:67-81 [PreserveNode::default_for] *)
  Definition default_for (h : hugr) (n : N) : preserve :=
    match h_ops h n with OCfg _ | OTailLoop _ _ _ | OCall _ _ _ => MustKeep | _ => DeferToChildren end.

  Section Code.
    Variable cb : hugr -> N -> preserve.

    Fixpoint lookup (n : N) (cache : list (N * bool)) : option bool :=
      match cache with
      | [] => None
      | (m, b) :: cache => if N.eqb m n then Some b else lookup n cache
      end.

    (** dead_code.rs:157-170 [must_preserve]; the cache is returned.  [any] stops at the first child. *)
    Fixpoint must_preserve (fuel : nat) (h : hugr) (cache : list (N * bool)) (n : N) : bool * list (N * bool) :=
      match fuel with
      | 0 => (false, cache)
      | S fuel =>
        match lookup n cache with
        | Some r => (r, cache)
        | None =>
          let (r, cache) :=
            match cb h n with
            | MustKeep => (true, cache)
            | CanRemoveIgnoringChildren => (false, cache)
            | DeferToChildren =>
              (fix any cache cs :=
                 match cs with
                 | [] => (false, cache)
                 | c :: cs => let (r, cache) := must_preserve fuel h cache c in if r then (true, cache) else any cache cs
                 end) cache (h_kids h n)
            end in
          (r, (n, r) :: cache)
        end
      end.

    (** dead_code.rs:123-134, the operations that are always included. *)
    Definition structural (o : op) : bool :=
      match o with
      | OCase _ | OBlock _ _ _ | OExit _ | OAliasDecl _ _ | OAliasDefn _ _ | OInput _ | OOutput _ => true
      | _ => false
      end.

    (** dead_code.rs:121-138, the loop over the children. *)
    Fixpoint needed_kids (h : hugr) (cache : list (N * bool)) (cs : list N) : list N * list (N * bool) :=
      match cs with
      | [] => ([], cache)
      | c :: cs =>
        let (r, cache) := must_preserve (length (h_nodes h)) h cache c in
        let (l, cache) := needed_kids h cache cs in
        ((if r || structural (h_ops h c) then [c] else []) ++ l, cache)
      end.

    (** views.rs:325-327 [input_neighbours], port by port. *)
    Definition input_neighbours (h : hugr) (n : N) : list N :=
      flat_map (fun i => map fst (linked_outputs h n i)) (seq 0 (h_in h n)).

    (** dead_code.rs:145-152, the consumers of linear outputs. *)
    Definition linear_consumers (h : hugr) (n : N) : list N :=
      match dataflow_signature (h_ops h n) with
      | None => []
      | Some s =>
        flat_map (fun x => if negb (copyable (snd x)) then map fst (linked_inputs h n (fst x)) else [])
                 (combine (seq 0 (length (snd s))) (snd s))
      end.

    (** dead_code.rs:110-155 [find_needed_nodes]: the loop over the queue. *)
    Fixpoint find_loop (fuel : nat) (h : hugr) (cache : list (N * bool)) (needed q : list N) : outcome (list N) :=
      match q with
      | [] => Done needed
      | n :: q =>
        match fuel with
        | 0 => Stuck
        | S fuel =>
          if negb (contains h n) then NodeNotFound n
          else if memN n needed then find_loop fuel h cache needed q
          else
            let (l, cache) := needed_kids h cache (h_kids h n) in
            find_loop fuel h cache (n :: needed) (q ++ l ++ input_neighbours h n ++ linear_consumers h n)
        end
      end.

    Definition degree (h : hugr) (n : N) : nat :=
      length (h_kids h n) + length (input_neighbours h n) + length (linear_consumers h n).
    Definition find_needed (h : hugr) (entries : list N) : outcome (list N) :=
      find_loop (S (length entries) + list_sum (map (degree h) (h_nodes h))) h [] [] (h_entry h :: entries).

    Fixpoint remove_nodes (h : hugr) (ns : list N) : option hugr :=
      match ns with
      | [] => Some h
      | n :: ns => match remove_node OModule h n with Some h => remove_nodes h ns | None => None end
      end.

    (** dead_code.rs:177-187 [run]; [None] is a panic. *)
    Definition dce (h : hugr) (entries : list N) : option (outcome hugr) :=
      match find_needed h entries with
      | NodeNotFound n => Some (NodeNotFound n)
      | Stuck => Some Stuck
      | Done needed =>
        option_map Done (remove_nodes h (filter (fun n => negb (memN n needed)) (descendants h (h_entry h))))
      end.
  End Code.

  (** ** The static graph: hugr-core/src/module_graph.rs *)
  (** views.rs:455-459 [static_source] *)
  Definition static_source (h : hugr) (n : N) : option N :=
    match static_port (h_ops h n) Inc with
    | Some i => option_map fst (hd_error (linked_outputs h n i))
    | None => None
    end.

  Definition module_item (o : op) : bool := match o with OFuncDecl _ _ _ | OFuncDefn _ _ _ | OConst _ _ _ => true | _ => false end.
  Definition is_module (o : op) : bool := match o with OModule => true | _ => false end.

  (** module_graph.rs:61-77: the nodes of the static graph. *)
  Definition mg_nodes (h : hugr) : list N :=
    let items := filter (fun n => module_item (h_ops h n)) (h_kids h (h_root h)) in
    if negb (is_module (h_ops h (h_entry h))) && negb (memN (h_entry h) items) then items ++ [h_entry h] else items.

  (** module_graph.rs:88-105: the edge for one node, [None] for a panic. *)
  Definition mg_edge (h : hugr) (ch : N) : option (list N) :=
    match h_ops h ch with
    | OCall _ _ _ | OLoadFunction _ _ _ | OLoadConstant _ =>
      match static_source h ch with
      | None => Some []
      | Some t =>
        if match get_parent h t with Some p => N.eqb p (h_root h) | None => false end then
          if memN t (mg_nodes h) then Some [t] else None
        else
          if negb (memN t (mg_nodes h)) &&
             (match h_ops h ch with OLoadConstant _ => true | _ => false end) &&
             (match h_ops h t with OConst _ _ _ => true | _ => false end)
          then Some [] else None
      end
    | _ => Some []
    end.

  Fixpoint concat_some {A} (l : list (option (list A))) : option (list A) :=
    match l with
    | [] => Some []
    | None :: _ => None
    | Some x :: l => option_map (app x) (concat_some l)
    end.

  (** module_graph.rs:79-107 [traverse]: the targets used below a node (the order does not matter). *)
  Definition mg_uses (h : hugr) (f : N) : option (list N) := concat_some (map (mg_edge h) (tl (descendants h f))).

  (** module_graph.rs:59-109 [ModuleGraph::new], as the list of targets of every node. *)
  Fixpoint mg_table (h : hugr) (fs : list N) : option (list (N * list N)) :=
    match fs with
    | [] => Some []
    | f :: fs => match mg_uses h f, mg_table h fs with Some us, Some t => Some ((f, us) :: t) | _, _ => None end
    end.

  Fixpoint targets (t : list (N * list N)) (f : N) : list N :=
    match t with
    | [] => []
    | (g, us) :: t => if N.eqb g f then us else targets t f
    end.

  (** petgraph's [Dfs] from a stack. *)
  Fixpoint dfs (fuel : nat) (next : N -> list N) (seen stack : list N) : option (list N) :=
    match stack with
    | [] => Some seen
    | n :: stack =>
      match fuel with
      | 0 => None
      | S fuel => if memN n seen then dfs fuel next seen stack else dfs fuel next (n :: seen) (next n ++ stack)
      end
    end.

  Inductive dead_result := DfOk (h : hugr) | DfInvalid (n : N) | DfPanic.

  Fixpoint invalid_entry (h : hugr) (entries : list N) : option dead_result :=
    match entries with
    | [] => None
    | n :: entries =>
      match get_optype h n with
      | None => Some DfPanic
      | Some (OFuncDefn _ _ _) => invalid_entry h entries
      | Some _ => Some (DfInvalid n)
      end
    end.

  Fixpoint remove_trees (h : hugr) (ns : list N) : option hugr :=
    match ns with
    | [] => Some h
    | n :: ns => match remove_subtree OModule h n with Some h => remove_trees h ns | None => None end
    end.

  (** dead_funcs.rs:95-102: the children of the root above the entrypoint. *)
  Fixpoint climb_to_module (h : hugr) (fuel : nat) (n : N) : list N :=
    match fuel with
    | 0 => []
    | S fuel =>
      match get_parent h n with
      | Some p => if N.eqb p (h_root h) then n :: climb_to_module h fuel p else climb_to_module h fuel p
      | None => []
      end
    end.

  (** dead_funcs.rs:32-49 [reachable_funcs], :74-116 [run] *)
  Definition dead_funcs (h : hugr) (entries : list N) : dead_result :=
    match invalid_entry h entries with
    | Some r => r
    | None =>
      let entries := entries ++ (if N.eqb (h_entry h) (h_root h) then [] else [h_entry h]) in
      match mg_table h (mg_nodes h) with
      | None => DfPanic
      | Some t =>
        if negb (forallb (fun n => memN n (mg_nodes h)) entries) then DfPanic
        else
          match dfs (length entries + list_sum (map (fun x => length (snd x)) t)) (targets t) [] (rev entries) with
          | None => DfPanic
          | Some seen =>
            let reachable := filter (fun n => match h_ops h n with OConst _ _ _ => false | _ => true end) seen
                             ++ climb_to_module h (length (h_nodes h)) (h_entry h) in
            let dead := filter (fun n => within TFunction (op_tag (h_ops h n)) && negb (memN n reachable)) (h_kids h (h_root h)) in
            match remove_trees h dead with Some h' => DfOk h' | None => DfPanic end
          end
      end
    end.
End Dead.
Arguments DfOk {M}. Arguments DfInvalid {M}. Arguments DfPanic {M}.
