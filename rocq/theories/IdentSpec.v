(** C40, stated without the regular expression. *)
From Coq Require Import List Bool NArith.
Import ListNotations.

Section Spec.
  Variables word digit : N -> bool.

  (** A word: starts with a word character that is not a digit, and has only word characters. *)
  Definition is_component (s : list N) : Prop :=
    exists c t, s = c :: t /\ word c = true /\ digit c = false /\ forall d, In d t -> word d = true.

  (** Components joined with dots. *)
  Fixpoint join_dots (cs : list (list N)) : list N :=
    match cs with
    | [] => []
    | [c] => c
    | c :: rest => c ++ 46%N :: join_dots rest
    end.

  Definition is_path (s : list N) : Prop :=
    exists cs, cs <> [] /\ Forall is_component cs /\ s = join_dots cs.
End Spec.
