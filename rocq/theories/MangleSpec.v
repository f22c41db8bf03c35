(** Side conditions for C32. *)
From Coq Require Import List NArith.
From Verif Require Import MangleModel.
Import ListNotations.
Open Scope N_scope.

(** Strings whose brackets match. *)
Inductive balanced : list N -> Prop :=
| bal_nil : balanced []
| bal_char c s : c <> chr_open -> c <> chr_close -> balanced s -> balanced (c :: s)
| bal_pair s t : balanced s -> balanced t -> balanced (chr_open :: s ++ chr_close :: t).

Section Args.
  Variable T : Type.
  Variable show_type : T -> list N.

  (** Arguments that are not lists or tuples. *)
  Definition flat_arg (a : targ T) : Prop :=
    match a with ARuntime _ | ANat _ | AString _ => True | _ => False end.

  (** Arguments in which every string and every shown type is balanced. *)
  Inductive balanced_arg : targ T -> Prop :=
  | ba_type t : balanced (show_type t) -> balanced_arg (ARuntime t)
  | ba_nat n : balanced_arg (ANat n)
  | ba_string s : balanced s -> balanced_arg (AString s)
  | ba_list l : Forall balanced_arg l -> balanced_arg (AList l)
  | ba_tuple l : Forall balanced_arg l -> balanced_arg (ATuple l).

  (** Arguments without variables and unhandled terms. *)
  Inductive closed_arg : targ T -> Prop :=
  | ca_type t : closed_arg (ARuntime t)
  | ca_nat n : closed_arg (ANat n)
  | ca_string s : closed_arg (AString s)
  | ca_list l : Forall closed_arg l -> closed_arg (AList l)
  | ca_tuple l : Forall closed_arg l -> closed_arg (ATuple l).
End Args.
