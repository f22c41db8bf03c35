(** Model of the change of the signature of a dataflow graph.
    Source: hugr-core/src/hugr/views/root_checked/dfg.rs:52-342.

    The map of counts is a hash map: the order in which its keys are visited is the parameter [shuffle].
    The loop over ancestors has the number of nodes as its fuel; running out counts as a panic. *)
From Coq Require Import List Bool NArith Arith.
From Verif Require Import TypesModel GraphModel OpModel DeadModel InlineModel ReplaceModel.
Import ListNotations.

(** dfg.rs:325-342 [InvalidSignature]; the flag says that the position is one of an output. *)
Inductive bad_map :=
| MissingIO (pos : nat) (output : bool)
| UnknownIO (pos : nat) (output : bool)
| LinearityViolation (pos : nat)
| DuplicateInput (pos : nat)
| ExpectedCopyable (pos : nat).

Section Mapio.
  Context {M : Type}.
  Notation hugr := (hugr op M).
  Variable shuffle : list nat -> list nat.

  Inductive mapped :=
  | Mapped (h : hugr)
  | BadMap (e : bad_map)
  | MapPanic.

  Definition times (l : list nat) (k : nat) : nat := count_occ Nat.eq_dec l k.

  (** dfg.rs:268-273 and :298-303 *)
  Definition unknown (sg : row) (l : list nat) : option nat := find (fun k => Nat.leb (length sg) k) l.

  (** dfg.rs:263-292 [check_valid_inputs] *)
  Definition check_valid_inputs (ports : list (list endpoint)) (sg : row) (l : list nat) : option bad_map :=
    match unknown sg l with
    | Some k => Some (UnknownIO k false)
    | None =>
      match find (fun e => (negb (match snd e with [] => true | _ => false end) ||
                            match nth_error sg (fst e) with Some t => negb (copyable t) | None => false end) &&
                           Nat.eqb (times l (fst e)) 0) (enumerate ports) with
      | Some e => Some (MissingIO (fst e) false)
      | None =>
        match find (fun k => Nat.ltb 1 (times l k)) (shuffle (nodup Nat.eq_dec l)) with
        | Some k => Some (DuplicateInput k)
        | None => None
        end
      end
    end.

  (** dfg.rs:305-317: the loop over the outputs that are not copyable *)
  Fixpoint check_linear (l : list nat) (sg : list (nat * ty)) : option bad_map :=
    match sg with
    | [] => None
    | (k, t) :: sg =>
      if copyable t then check_linear l sg
      else match times l k with
           | 0 => Some (MissingIO k true)
           | 1 => check_linear l sg
           | _ => Some (LinearityViolation k)
           end
    end.
  (** dfg.rs:294-320 [check_valid_outputs] *)
  Definition check_valid_outputs (sg : row) (l : list nat) : option bad_map :=
    match unknown sg l with
    | Some k => Some (UnknownIO k true)
    | None => check_linear l (enumerate sg)
    end.

  (** dfg.rs:240-245 [disconnect_all] *)
  Definition disconnect_all (h : hugr) (n : N) : option hugr :=
    match each (fun h p => disconnect h n Inc p) (seq 0 (h_in h n)) h with
    | None => None
    | Some h => each (fun h p => disconnect h n Out p) (seq 0 (h_out h n)) h
    end.

  (** dfg.rs:247-261 [update_signature] *)
  Definition update_signature (sg : sig) (h : hugr) (n : N) : option hugr :=
    let put (o : op) :=
      match replace_op h n o with Some h => set_num_ports h n (in_count o) (out_count o) | None => None end in
    match h_ops h n with
    | ODfg _ => put (ODfg sg)
    | OFuncDefn nm _ pub => put (OFuncDefn nm {| p_params := []; p_ins := fst sg; p_outs := snd sg |} pub)
    | OInput _ => put (OInput (fst sg))
    | OOutput _ => put (OOutput (snd sg))
    | _ => None
    end.

  (** dfg.rs:221-238 [update_inner_dfg_links] *)
  Definition update_inner_dfg_links (h : hugr) (n : N) : option hugr :=
    match h_kids h n with
    | [inp; out; inner] =>
      match disconnect_all h inner with
      | None => None
      | Some h =>
        match each (fun h p => connect h inp p inner p) (seq 0 (value_port_count (h_ops h inp) Out)) h with
        | None => None
        | Some h => each (fun h p => connect h inner p out p) (seq 0 (value_port_count (h_ops h out) Inc)) h
        end
      end
    | _ => None
    end.

  Definition has_signature (o : op) : bool := match o with OFuncDefn _ _ _ | ODfg _ => true | _ => false end.

  (** dfg.rs:99-117 and :191-208: the loop over the node and its ancestors *)
  Fixpoint update_signatures (sg : sig) (fuel : nat) (is_ancestor : bool) (h : hugr) (n : N) : option hugr :=
    if has_signature (h_ops h n) then
      match fuel with
      | 0 => None
      | S fuel =>
        match get_io h n with
        | None => None
        | Some (i, o) =>
          match each (update_signature sg) [n; i; o] h with
          | None => None
          | Some h =>
            match (if is_ancestor then update_inner_dfg_links h n else Some h) with
            | None => None
            | Some h =>
              match get_parent h n with
              | Some p => update_signatures sg fuel true h p
              | None => Some h
              end
            end
          end
        end
      end
    else Some h.

  (** dfg.rs:119-129: the new edges at the input, with the map from old outputs to new inputs *)
  Definition link_inputs (old : list (list endpoint)) (inp out : N) (new_inputs : list nat) (h : hugr) : option hugr :=
    each (fun h e => each (fun h d => if N.eqb (fst d) out then Some h else connect h inp (fst e) (fst d) (snd d)) (nth (snd e) old []) h)
         (enumerate new_inputs) h.
  (** The last entry of the map for an output port wins. *)
  Definition straight (old : list (list endpoint)) (out : N) (new_inputs : list nat) : list (nat * nat) :=
    rev (flat_map (fun e => map (fun d => (snd d, fst e)) (filter (fun d => N.eqb (fst d) out) (nth (snd e) old []))) (enumerate new_inputs)).
  Definition new_input_of (m : list (nat * nat)) (port : nat) : option nat := option_map snd (find (fun e => Nat.eqb (fst e) port) m).

  (** dfg.rs:131-141: the new edges at the output *)
  Definition link_outputs (m : list (nat * nat)) (old : list (list endpoint)) (inp out : N) (new_outputs : list nat) (h : hugr) : option hugr :=
    each (fun h e => each (fun h s => if N.eqb (fst s) inp
                                      then match new_input_of m (snd e) with Some p => connect h inp p out (fst e) | None => None end
                                      else connect h (fst s) (snd s) out (fst e)) (nth (snd e) old []) h)
         (enumerate new_outputs) h.

  (** dfg.rs:83-91: the new types *)
  Fixpoint pick (sg : row) (l : list nat) : option row :=
    match l with
    | [] => Some []
    | k :: l => match nth_error sg k, pick sg l with Some t, Some r => Some (t :: r) | _, _ => None end
    end.

  (** dfg.rs:52-145 [map_function_type]; a panic of the checks cannot happen. *)
  Definition map_function_type (h : hugr) (new_inputs new_outputs : list nat) : mapped :=
    match get_io h (h_entry h) with
    | None => MapPanic
    | Some (inp, out) =>
      let old_in := map (linked_inputs h inp) (seq 0 (h_out h inp)) in
      let old_out := map (linked_outputs h out) (seq 0 (h_in h out)) in
      match dataflow_signature (h_ops h inp), dataflow_signature (h_ops h out) with
      | Some (_, ins), Some (outs, _) =>
        match check_valid_inputs old_in ins new_inputs with
        | Some e => BadMap e
        | None =>
          match check_valid_outputs outs new_outputs with
          | Some e => BadMap e
          | None =>
            match pick ins new_inputs, pick outs new_outputs with
            | Some r, Some s =>
              match disconnect_all h inp with
              | None => MapPanic
              | Some h =>
                match disconnect_all h out with
                | None => MapPanic
                | Some h =>
                  match update_signatures (r, s) (length (h_nodes h)) false h (h_entry h) with
                  | None => MapPanic
                  | Some h =>
                    match link_inputs old_in inp out new_inputs h with
                    | None => MapPanic
                    | Some h =>
                      match link_outputs (straight old_in out new_inputs) old_out inp out new_outputs h with
                      | None => MapPanic
                      | Some h => Mapped h
                      end
                    end
                  end
                end
              end
            | _, _ => MapPanic
            end
          end
        end
      | _, _ => MapPanic
      end
    end.

  (** dfg.rs:164-212 [extend_inputs] *)
  Definition extend_inputs (h : hugr) (new_inputs : row) : mapped :=
    match inner_signature (h_ops h (h_entry h)) with
    | None => MapPanic
    | Some (ins, outs) =>
      match find (fun e => negb (copyable (snd e))) (enumerate new_inputs) with
      | Some e => BadMap (ExpectedCopyable (length ins + fst e))
      | None =>
        match update_signatures (ins ++ new_inputs, outs) (length (h_nodes h)) false h (h_entry h) with
        | None => MapPanic
        | Some h => Mapped h
        end
      end
    end.
End Mapio.
Arguments Mapped {M}. Arguments BadMap {M}. Arguments MapPanic {M}.
