(** Specification for the analysis of control-flow graphs, independent of the algorithms. *)
From Coq Require Import List Bool Arith NArith Relations.
From Verif Require Import NestModel.
Import ListNotations.
Open Scope N_scope.

(** A well-formed view: predecessors and successors agree and stay within the blocks, and the exit
    has no successor. *)
Record cfg_wf (g : cfg) : Prop := {
  wf_converse : forall a b, In b (succ g a) <-> In a (pred g b);
  wf_closed : forall a b, In b (succ g a) -> In a (blocks g) /\ In b (blocks g);
  wf_entry : In (entry g) (blocks g);
  wf_exit : In (exit g) (blocks g);
  wf_last : succ g (exit g) = [] }.

Definition edge (g : cfg) (e : N * N) : Prop := In (snd e) (succ g (fst e)).

(** The edges of the CFG together with the virtual edge from the exit to the entry. *)
Definition vedge (g : cfg) (e : N * N) : Prop := edge g e \/ e = (exit g, entry g).

(** A closed walk without a repeated block, as the list of its edges. *)
Fixpoint walk (g : cfg) (a : N) (l : list (N * N)) (b : N) : Prop :=
  match l with
  | [] => a = b
  | e :: l => fst e = a /\ vedge g e /\ walk g (snd e) l b
  end.
Definition cycle (g : cfg) (l : list (N * N)) : Prop :=
  exists a, l <> [] /\ walk g a l a /\ NoDup (map fst l).

(** Every cycle has both edges or neither. *)
Definition cycle_equivalent (g : cfg) (e f : N * N) : Prop :=
  forall l, cycle g l -> (In e l <-> In f l).

(** Control can go from [a] to [b] without taking the edge [ex]. *)
Definition within (g : cfg) (ex : N * N) (a b : N) : Prop :=
  clos_refl_trans N (fun x y => In y (succ g x) /\ (x, y) <> ex) a b.

(** Control can go from [a] to [b]. *)
Definition leads (g : cfg) (a b : N) : Prop := clos_refl_trans N (fun x y => In y (succ g x)) a b.

(** Two blocks are neighbours: an edge joins them, in one direction or the other. *)
Definition joined (g : cfg) (a b : N) : Prop := vedge g (a, b) \/ vedge g (b, a).
