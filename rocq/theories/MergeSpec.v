(** What the merging of basic blocks promises. *)
From Coq Require Import List NArith.
From Verif Require Import GraphModel OpModel.
Import ListNotations.

Section Spec.
  Context {M : Type}.
  Notation hugr := (hugr op M).

  (** One edge leads from [n] to [s]; no other edge leaves [n], none enters [s], and [s] is neither the entry nor the exit block. *)
  Definition mergeable (h : hugr) (n s : N) : Prop :=
    (exists i j before after, h_links h = before ++ ((n, i), (s, j)) :: after /\
       forall l, In l (before ++ after) -> fst (fst l) <> n /\ fst (snd l) <> s) /\
    forall before after, h_kids h (h_entry h) = before ++ s :: after -> 2 <= length before.

  Inductive merges (merge : hugr -> N -> N -> option (hugr * N)) : hugr -> nat -> hugr -> Prop :=
  | merges_none h : merges merge h 0 h
  | merges_one h h1 h2 n s b k : mergeable h n s -> merge h n s = Some (h1, b) -> merges merge h1 k h2 -> merges merge h (S k) h2.
End Spec.
