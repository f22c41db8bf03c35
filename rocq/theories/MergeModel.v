(** Model of the preconditions under which two basic blocks are merged.
    Source: hugr-passes/src/normalize_cfgs.rs:341-446, hugr-core/src/hugr/patch/replace.rs:207-223.

    The rest of the construction of the merged block is a parameter; [None] is a panic. *)
From Coq Require Import List Bool NArith.
From Verif Require Import TypesModel GraphModel OpModel.
Import ListNotations.

Section Merge.
  Context {M : Type}.
  Notation hugr := (hugr op M).
  Variable build : hugr -> N -> N -> option (hugr * N).

  (** normalize_cfgs.rs:341-348 [mk_rep] unwraps both blocks; both are adopted (:412), and a node that is adopted twice is an
      error (replace.rs:214-223), which is unwrapped (:56). *)
  Definition merge_blocks (h : hugr) (pred succ : N) : option (hugr * N) :=
    match h_ops h pred, h_ops h succ with
    | OBlock _ _ _, OBlock _ _ _ => if N.eqb pred succ then None else build h pred succ
    | _, _ => None
    end.
End Merge.
