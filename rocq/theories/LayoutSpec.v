(** What is expected of the representation of sums. *)
From Coq Require Import List Bool Arith NArith.
From Verif Require Import LayoutModel.
Import ListNotations.

Section Spec.
Context {T : Type} (elide : T -> bool).

(** How often the type [t] occurs in a list of fields. *)
Context (teq : T -> T -> bool).
Definition occurs (t : T) (l : list T) : nat := length (filter (teq t) l).
(** The greatest number of fields of that type in a variant. *)
Definition need (t : T) (variants : list (list T)) : nat :=
  fold_right Nat.max 0 (map (occurs t) variants).

(** A layout: each variant can be stored in the fields without loss. *)
Definition good_indices (fields : list T) (variant : list T) (indices : list (option nat)) : Prop :=
  length indices = length variant /\
  (forall k t o, nth_error variant k = Some t -> nth_error indices k = Some o ->
     (if elide t then o = None else exists i, o = Some i /\ nth_error fields i = Some t)) /\
  (forall k k' i, nth_error indices k = Some (Some i) -> nth_error indices k' = Some (Some i) -> k = k').

(** A read field agrees with the stored one; a type that is elided has no information. *)
Context {V : Type} (typ : V -> T) (undef : T -> V).
Definition same_field (stored : V) (read : option V) : Prop :=
  if elide (typ stored) then read = Some (undef (typ stored)) else read = Some stored.
End Spec.
