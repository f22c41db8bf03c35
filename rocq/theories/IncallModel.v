(** Model of the inlining of a call.
    Source: hugr-core/src/hugr/patch/inline_call.rs:13-112, hugr-core/src/hugr/hugrmut.rs:610-644.

    The copy of nodes within a graph is that of portgraph ([Subgraph::copy_in_parent]), by its
    documentation: links between copied nodes are copied, and links to other nodes are copied
    with the same other end.  The indices of the new nodes are a parameter.  The last loop of
    [copy_descendants], which sets parents, operations and metadata node by node, is split in two:
    first all parents, then the rest.  It runs over the nodes in the order of the copy rather than by index;
    neither matters, as the children of a node get their parent together. *)
From Coq Require Import List Bool NArith Arith.
From Verif Require Import TypesModel GraphModel OpModel DeadModel InlineModel InsertModel InsertSpec InsertProofs.
Import ListNotations.

Section Incall.
  Context {M : Type}.
  Notation hugr := (hugr op M).
  Variable env : N -> N -> option typedef.

  (** One end of a link is among the nodes. *)
  Definition touching (nodes : list N) (l : link) : bool := memN (fst (fst l)) nodes || memN (fst (snd l)) nodes.
  (** The node of which [n] is a copy. *)
  Definition original (m : list (N * N)) (n : N) : N := match lookup (map (fun e => (snd e, fst e)) m) n with Some x => x | None => n end.

  (** portgraph [Subgraph::copy_in_parent] *)
  Definition copy_in_parent (h : hugr) (m : list (N * N)) : hugr :=
    set_links (set_ports (set_nodes h (map snd m ++ h_nodes h)) (fun n => h_in h (original m n)) (fun n => h_out h (original m n)))
              (h_links h ++ map (move_link (image_of m)) (filter (touching (map fst m)) (h_links h))).

  (** hugrmut.rs:626-628, 632-634: the copies of the children of [n] become children of [p]. *)
  Definition place_kids (m : list (N * N)) (h : hugr) (n p : N) : option hugr :=
    each (fun h k => match lookup m k with Some k' => set_parent h k' p | None => None end) (h_kids h n) h.

  (** hugrmut.rs:635-641; [None] if the substitution panics. *)
  Fixpoint copy_ops (args : option (list term)) (m : list (N * N)) (h : hugr) : option hugr :=
    match m with
    | [] => Some h
    | (old, new) :: m =>
      match match args with None => Some (h_ops h old) | Some s => op_substitute env s (h_ops h old) end with
      | None => None
      | Some o => copy_ops args m (set_meta (set_ops h (upd (h_ops h) new o)) (upd (h_meta h) new (h_meta h old)))
      end
    end.

  (** hugrmut.rs:610-644 [copy_descendants] *)
  Definition copy_descendants (h : hugr) (root parent : N) (args : option (list term)) (ids : list N) : option (hugr * list (N * N)) :=
    let m := combine (tl (descendants h root)) ids in
    match place_kids m (copy_in_parent h m) root parent with
    | None => None
    | Some h =>
      match each (fun h e => place_kids m h (fst e) (snd e)) m h with
      | None => None
      | Some h => option_map (fun h => (h, m)) (copy_ops args m h)
      end
    end.

  (** inline_call.rs:14-26 [InlineCallError] *)
  Inductive incalled :=
  | NotCallNode (n : N) (o : op)
  | CallTargetNotFuncDefn (f : N) (o : op)
  | CallInlined (h : hugr) (m : list (N * N))
  | CallPanic.

  (** inline_call.rs:64-93: the call becomes a dataflow graph without children. *)
  Definition empty_call (h : hugr) (n : N) (new_op : op) : option hugr :=
    match static_port (h_ops h n) Inc, other_port (h_ops h n) Inc, other_port new_op Inc with
    | Some sp, Some old_order, Some new_order =>
      match disconnect h n Inc sp with
      | None => None
      | Some h =>
        let preds := linked_outputs h n old_order in
        match disconnect h n Inc old_order with
        | None => None
        | Some h =>
          match replace_op h n new_op with
          | None => None
          | Some h =>
            match add_ports h n Inc 0 1 with
            | None => None
            | Some h => each (fun h s => connect h (fst s) (snd s) n new_order) preds h
            end
          end
        end
      end
    | _, _, _ => None
    end.

  (** inline_call.rs:39-54 [verify], :62-105 [apply_hugr_mut] *)
  Definition inline_call (h : hugr) (n : N) (ids : list N) : incalled :=
    if negb (contains h n) then CallPanic
    else match h_ops h n with
    | OCall g args inst =>
      match static_source h n with
      | None => CallPanic
      | Some f =>
        match h_ops h f with
        | OFuncDefn name sg pub =>
          match empty_call h n (ODfg (p_ins sg, p_outs sg)) with
          | None => CallPanic
          | Some h =>
            match copy_descendants h f n (match args with [] => None | _ => Some args end) ids with
            | None => CallPanic
            | Some (h, m) => CallInlined h m
            end
          end
        | o => CallTargetNotFuncDefn f o
        end
      end
    | o => NotCallNode n o
    end.
End Incall.
