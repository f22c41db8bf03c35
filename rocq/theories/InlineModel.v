(** Model of the inlining of a dataflow graph.
    Source: hugr-core/src/hugr/patch/inline_dfg.rs.

    A panic of the code is [IPanic].  The debug assertions about order edges are not modelled.  The
    order in which the links of a port are visited is that of the list of links. *)
From Coq Require Import List Bool NArith Arith.
From Verif Require Import TagModel TypesModel GraphModel OpModel DeadModel.
Import ListNotations.

Section Inline.
  Context {M : Type}.
  Notation hugr := (hugr op M).

  (** inline_dfg.rs:13-30 [InlineDFGError], :55-57 [Outcome] *)
  Inductive inlined :=
  | NotDFG (n : N)
  | CantInlineEntrypoint (n : N)
  | Inlined (h : hugr) (removed : list N)
  | IPanic.

  (** A loop whose body may panic. *)
  Fixpoint each {A} (f : hugr -> A -> option hugr) (l : list A) (h : hugr) : option hugr :=
    match l with
    | [] => Some h
    | x :: l => match f h x with Some h => each f l h | None => None end
    end.

  (** hugrmut.rs:534-545 [add_other_edge] *)
  Definition add_other_edge (h : hugr) (s d : N) : option hugr :=
    match other_port (h_ops h s) Out, other_port (h_ops h d) Inc with
    | Some i, Some j => connect h s i d j
    | _, _ => None
    end.

  (** views.rs:226-243 [single_linked_output] *)
  Definition single_linked_output (h : hugr) (n : N) (i : nat) : option endpoint :=
    match linked_outputs h n i with [x] => Some x | _ => None end.

  (** views.rs:325-334 [input_neighbours], [output_neighbours] *)
  Definition input_neighbours (h : hugr) (n : N) : list N := map (fun l => fst (fst l)) (filter (fun l => N.eqb (fst (snd l)) n) (h_links h)).
  Definition output_neighbours (h : hugr) (n : N) : list N := map (fun l => fst (snd l)) (filter (fun l => N.eqb (fst (fst l)) n) (h_links h)).

  (** The links of the order input of the graph: inline_dfg.rs:81-88 *)
  Definition inline_order_in (input : N) (h : hugr) (s : endpoint) : option hugr :=
    each (fun h t => add_other_edge h (fst s) t) (output_neighbours h input) h.

  (** One value input: inline_dfg.rs:93-111 *)
  Definition inline_input (n input : N) (succs : list endpoint) (h : hugr) (p : nat) : option hugr :=
    match single_linked_output h n p with
    | None => None
    | Some s =>
      match disconnect h n Inc p with
      | None => None
      | Some h =>
        let targets := linked_inputs h input p in
        match disconnect h input Out p with
        | None => None
        | Some h =>
          match each (fun h t => connect h (fst s) (snd s) (fst t) (snd t)) targets h with
          | None => None
          | Some h => each (fun h t => add_other_edge h (fst s) (fst t)) succs h
          end
        end
      end
    end.

  (** inline_dfg.rs:113-118 *)
  Definition inline_order_out (output : N) (h : hugr) (t : endpoint) : option hugr :=
    each (fun h s => add_other_edge h s (fst t)) (input_neighbours h output) h.

  (** One value output: inline_dfg.rs:123-139 *)
  Definition inline_output (n output : N) (preds : list endpoint) (h : hugr) (p : nat) : option hugr :=
    match single_linked_output h output p with
    | None => None
    | Some s =>
      match disconnect h output Inc p with
      | None => None
      | Some h =>
        match each (fun h t =>
                match connect h (fst s) (snd s) (fst t) (snd t) with
                | None => None
                | Some h => each (fun h s => add_other_edge h (fst s) (fst t)) preds h
                end) (linked_inputs h n p) h with
        | None => None
        | Some h => disconnect h n Out p
        end
      end
    end.

  Definition others (count skip : nat) : list nat := filter (fun p => negb (Nat.eqb p skip)) (seq 0 count).

  (** The links of the graph, after the children have been moved: inline_dfg.rs:80-140 *)
  Definition inline_links (n input output : N) (oth_in oth_out ord_in ord_out : nat) (h : hugr) : option hugr :=
    match each (inline_order_in input) (linked_outputs h n oth_in) h with
    | None => None
    | Some h =>
      match each (inline_input n input (linked_inputs h input ord_in)) (others (h_in h n) oth_in) h with
      | None => None
      | Some h =>
        match each (inline_order_out output) (linked_inputs h n oth_out) h with
        | None => None
        | Some h => each (inline_output n output (linked_outputs h output ord_out)) (others (h_out h n) oth_out) h
        end
      end
    end.

  (** inline_dfg.rs:36-45 [verify], :61-144 [apply_hugr_mut] *)
  Definition inline_dfg (h : hugr) (n : N) : inlined :=
    if negb (contains h n) then IPanic
    else match h_ops h n with
    | ODfg _ =>
      if N.eqb n (h_entry h) then CantInlineEntrypoint n
      else
        match other_port (h_ops h n) Inc, other_port (h_ops h n) Out, get_parent h n, h_kids h n with
        | Some oth_in, Some oth_out, Some parent, input :: output :: rest =>
          match each (fun h c => set_parent h c parent) rest h with
          | None => IPanic
          | Some h =>
            match other_port (h_ops h input) Out, other_port (h_ops h output) Inc with
            | Some ord_in, Some ord_out =>
              match inline_links n input output oth_in oth_out ord_in ord_out h with
              | None => IPanic
              | Some h =>
                match remove_node OModule h input with
                | None => IPanic
                | Some h =>
                  match remove_node OModule h output with
                  | None => IPanic
                  | Some h =>
                    match h_kids h n with
                    | [] => match remove_node OModule h n with None => IPanic | Some h => Inlined h [n; input; output] end
                    | _ => IPanic
                    end
                  end
                end
              end
            | _, _ => IPanic
            end
          end
        | _, _, _, _ => IPanic
        end
    | _ => NotDFG n
    end.
End Inline.
