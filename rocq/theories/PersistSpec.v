(** What a commit history must look like, stated on the commit objects only. *)
From Coq Require Import List Bool Arith.
From Verif Require Import PersistModel.
Import ListNotations.

(** [ancestor w c a]: [a] is [c] or is above it. *)
Inductive ancestor (w : world) : nat -> nat -> Prop :=
| anc_self c : ancestor w c c
| anc_up c p a : In p (parents w c) -> ancestor w p a -> ancestor w c a.

(** Reached from [c] by going up through commits where the walk is to go on. *)
Inductive reached (w : world) (cont : nat -> bool) : nat -> nat -> Prop :=
| reach_self c : reached w cont c c
| reach_up c p a : cont c = true -> In p (parents w c) -> reached w cont p a ->
                   reached w cont c a.

(** Worlds built by the two public ways of making a commit. *)
Inductive made : world -> Prop :=
| made_empty : made []
| made_base w s w' c : made w -> try_set_base w s = Some (w', c) -> made w'
| made_commit w s del extra w' c :
    made w -> NoDup del -> (forall x, In x extra -> x < length w) ->
    commit_try_new w s del extra = Ok (w', c) -> made w'.

(** The list puts every commit before each other commit above it. *)
Definition descendants_first (w : world) (l : list nat) : Prop :=
  forall l1 a l2 c, l = l1 ++ a :: l2 -> In c l2 -> ancestor w c a -> False.

(** No node is deleted by two different commits. *)
Definition compatible (w : world) (g : list nat) : Prop :=
  forall c d x, In c g -> In d g -> In x (deleted w c) -> In x (deleted w d) -> c = d.

Definition ancestors_present (w : world) (g : list nat) : Prop :=
  forall c a, In c g -> ancestor w c a -> In a g.

Definition one_base (w : world) (g : list nat) (b : nat) : Prop :=
  forall c, In c g -> (is_base w c = true <-> c = b).

(** What the history graph may do when asked to insert a commit. *)
Definition inserts (insert : world -> list nat -> nat -> list nat) : Prop :=
  forall w g c,
    In c (insert w g c) /\ (forall x, In x g -> In x (insert w g c)) /\
    (forall x, In x (insert w g c) -> In x g \/ ancestor w c x).

(** The children lists a history remembers are right. *)
Definition cache_right (w : world) (p : phugr) : Prop :=
  forall c l, assoc c (p_cache p) = Some l -> NoDup l /\
    forall d, In d l <-> In d (p_graph p) /\ In c (parents w d).

(** A good history. *)
Definition good (w : world) (p : phugr) : Prop :=
  (forall c, In c (p_graph p) -> c < length w) /\
  compatible w (p_graph p) /\ ancestors_present w (p_graph p) /\
  In (p_base p) (p_graph p) /\ one_base w (p_graph p) (p_base p) /\
  (forall c, In c (p_graph p) -> space_of w c = p_space p) /\ cache_right w p.

Section Histories.
  Variable insert : world -> list nat -> nat -> list nat.

  (** Everything a client can do while the history object only sees successful calls:
      new state spaces and commits may be made at any time. *)
  Inductive history : world -> phugr -> Prop :=
  | h_new w cs p : made w -> (forall c, In c cs -> c < length w) ->
      try_new insert w cs = Some (Ok p) -> history w p
  | h_base w p s w' c : history w p -> try_set_base w s = Some (w', c) -> history w' p
  | h_commit w p s del extra w' c : history w p -> NoDup del ->
      (forall x, In x extra -> x < length w) ->
      commit_try_new w s del extra = Ok (w', c) -> history w' p
  | h_add w p cs p' : history w p -> (forall c, In c cs -> c < length w) ->
      try_add_commits insert w p cs = Some (p', Ok tt) -> history w p'
  | h_replace w p del w' p' c : history w p -> NoDup del ->
      (forall x, In x del -> In (fst x) (p_graph p)) ->
      try_add_replacement insert w p del = Some (w', p', Ok c) -> history w' p'.
End Histories.
