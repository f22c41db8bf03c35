(** Model of the canonical renumbering of the nodes.
    Source: hugr-core/src/hugr.rs:328-397 [canonical_order], [canonicalize_nodes].
    [swap_nodes] of the port graph and of the hierarchy (external) exchange two indices everywhere;
    the final [compact_nodes] moves only the internal copy nodes and is left out. *)
From Coq Require Import List Bool NArith Arith.
From Verif Require Import GraphModel InsertSpec.
Import ListNotations.

(** Exchange of two indices. *)
Definition swapN (a b n : N) : N := if N.eqb n a then b else if N.eqb n b then a else n.

Section Canon.
  Context {O M : Type}.
  Notation hugr := (hugr O M).

  (** hugr.rs:379-381: graph, operations and hierarchy are swapped; the metadata is not. *)
  Definition swap_nodes (h : hugr) (a b : N) : hugr :=
    let s := swapN a b in
    mkHugr (map s (h_nodes h)) (fun n => h_ops h (s n)) (h_meta h) (fun n => h_in h (s n)) (fun n => h_out h (s n))
           (map (move_link s) (h_links h)) (fun n => option_map s (h_parent h (s n))) (fun n => map s (h_kids h (s n)))
           (h_root h) (h_entry h).

  (** hugr.rs:373-375: follow the permutation.  [None] if the fuel runs out or an index is out of range. *)
  Fixpoint chase (ordered : list N) (position : N) (fuel : nat) (source : N) : option N :=
    match fuel with
    | 0 => None
    | S fuel =>
      if N.ltb source position then
        match nth_error ordered (N.to_nat source) with
        | Some source => chase ordered position fuel source
        | None => None
        end
      else Some source
    end.

  (** The loop, hugr.rs:361-385: the remaining nodes, the position of the first, the current graph, the
      new entrypoint, and the calls of [rekey] in reverse order. *)
  Fixpoint canon_loop (ordered todo : list N) (position : N) (h : hugr) (entry : option N) (calls : list (N * N))
    : option (hugr * option N * list (N * N)) :=
    match todo with
    | [] => Some (h, entry, calls)
    | source :: todo =>
      let entry := if N.eqb source (h_entry h) then Some position else entry in
      match chase ordered position (S (length ordered)) source with
      | None => None
      | Some source =>
        if N.eqb position source then canon_loop ordered todo (position + 1)%N h entry calls
        else canon_loop ordered todo (position + 1)%N (swap_nodes h position source) entry ((source, position) :: calls)
      end
    end.

  (** hugr.rs:335-345 [canonical_order] is [descendants]; :354-397 [canonicalize_nodes].  The result also
      lists the calls of [rekey]. *)
  Definition canonicalize_nodes (h : hugr) : option (hugr * list (N * N)) :=
    let ordered := descendants h (h_root h) in
    match canon_loop ordered ordered 0%N h None [] with
    | Some (h, Some entry, calls) => Some (set_entry (set_root h 0%N) entry, rev calls)
    | _ => None
    end.
End Canon.
