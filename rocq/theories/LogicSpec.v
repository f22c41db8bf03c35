(** Specification of the boolean operations: what they compute from the booleans at their inputs, and
    what constants at some of the inputs say about them. *)
From Coq Require Import ZArith List Bool.
From Verif Require Import LogicModel.
Import ListNotations.
Open Scope Z_scope.

Definition logic_arity (op : logic_op) : Z := match op with Not => 1 | _ => 2 end.
(** The boolean at the output, from the booleans at the input ports. *)
Definition meaning (op : logic_op) (at_port : Z -> bool) : bool :=
  match op with
  | And => at_port 0 && at_port 1
  | Or => at_port 0 || at_port 1
  | Eq => Bool.eqb (at_port 0) (at_port 1)
  | Not => negb (at_port 0)
  | Xor => xorb (at_port 0) (at_port 1)
  end.
(** Boolean constants at some of the inputs, each port at most once, in any order. *)
Definition known (op : logic_op) (ks : list (Z * bool)) : Prop :=
  NoDup (map fst ks) /\ forall p b, In (p, b) ks -> 0 <= p < logic_arity op.
Definition agrees (at_port : Z -> bool) (ks : list (Z * bool)) : Prop :=
  forall p b, In (p, b) ks -> at_port p = b.
Definition constants (ks : list (Z * bool)) : linputs := map (fun k => (fst k, LBool (snd k))) ks.
