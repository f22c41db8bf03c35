(** What a correct layout of a sum type is. *)
From Coq Require Import List Bool Arith NArith.
Import ListNotations.

Section Spec.
  Context {T : Type} (teq : forall a b : T, {a = b} + {a <> b}) (elide : T -> bool).

  (** How many stored fields of type [t] a variant has. *)
  Definition need (t : T) (variant : list T) : nat := if elide t then 0 else count_occ teq variant t.
  Definition max_need (t : T) (variants : list (list T)) : nat :=
    fold_right Nat.max 0 (map (need t) variants).

  (** [slots] places the fields of one variant in a struct with the given fields. *)
  Definition places (fields : list T) (variant : list T) (slots : list (option nat)) : Prop :=
    length slots = length variant /\
    (forall j t, nth_error variant j = Some t ->
       if elide t then nth_error slots j = Some None
       else exists p, nth_error slots j = Some (Some p) /\ nth_error fields p = Some t) /\
    (forall i j p, nth_error slots i = Some (Some p) -> nth_error slots j = Some (Some p) -> i = j).

  Definition good_layout (variants : list (list T)) (fields : list T) (layout : list (list (option nat))) : Prop :=
    Forall2 (places fields) variants layout /\
    (forall t, count_occ teq fields t = max_need t variants).

  (** Fields as read back from a stored variant: stored ones unchanged, elided ones rematerialised. *)
  Context {V : Type} (undef : T -> V).
  Definition readback (ts : list T) (vs : list V) : list V :=
    map (fun tv => if elide (fst tv) then undef (fst tv) else snd tv) (combine ts vs).
End Spec.
