(** The order generated by the declared parents. *)
From Coq Require Import List Relations.
From Verif Require Import TagModel.

Definition declared (child parent : tag) : Prop := In parent (immediate_supersets child).
(** [below a b]: [b] is reached from [a] through zero or more declared parents. *)
Definition below : tag -> tag -> Prop := clos_refl_trans tag declared.
(** [R] covers [T]: the documented meaning of "immediate superset" (tag.rs l.99-105). *)
Definition covers (r t : tag) : Prop :=
  below t r /\ r <> t /\ ~ exists q, below t q /\ below q r /\ q <> t /\ q <> r.
