(** Specification of well formed HUGR graphs, independent of the mutators. *)
From Coq Require Import List Bool NArith.
From Verif Require Import GraphModel.
Import ListNotations.

(** [up parent n a]: following parents from [n] leads to [a] (in zero or more steps). *)
Inductive up (parent : N -> option N) : N -> N -> Prop :=
| up_here n : up parent n n
| up_next n p a : parent n = Some p -> up parent p a -> up parent n a.

(** An existing port. *)
Definition out_port {O M} (h : hugr O M) (e : endpoint) : Prop := In (fst e) (h_nodes h) /\ snd e < h_out h (fst e).
Definition in_port {O M} (h : hugr O M) (e : endpoint) : Prop := In (fst e) (h_nodes h) /\ snd e < h_in h (fst e).

Record wf {O M} (h : hugr O M) : Prop := {
  wf_nodup : NoDup (h_nodes h);
  wf_root : In (h_root h) (h_nodes h);
  wf_entry : In (h_entry h) (h_nodes h);
  (** Every node except the root has a parent, which exists. *)
  wf_top : h_parent h (h_root h) = None;
  wf_parent : forall n, In n (h_nodes h) -> n <> h_root h ->
              exists p, h_parent h n = Some p /\ In p (h_nodes h);
  (** The children of a node are listed exactly once, and only by their parent. *)
  wf_kids : forall p c, In c (h_kids h p) <-> h_parent h c = Some p;
  wf_kids_once : forall p, NoDup (h_kids h p);
  (** Nothing is recorded for indices that are not in use. *)
  wf_unused : forall n, ~ In n (h_nodes h) -> h_parent h n = None /\ h_kids h n = [];
  (** Following parents leads to the root. *)
  wf_reach : forall n, In n (h_nodes h) -> up (h_parent h) n (h_root h);
  (** Links join existing ports. *)
  wf_links : forall l, In l (h_links h) -> out_port h (fst l) /\ in_port h (snd l) }.

(** The documented preconditions of the mutators that the code does not check itself. *)
Definition legal {O M} (h : hugr O M) (a : act (O := O) (M := M)) : Prop :=
  match a with
  | AddChild _ p _ => In p (h_nodes h)
  | RemoveNode n => n <> h_root h /\ h_kids h n = []
  | _ => True
  end.

Fixpoint legal_run {O M} (d : O) (i o : O -> nat) (h : hugr O M) (acts : list act) : Prop :=
  match acts with
  | [] => True
  | a :: acts => legal h a /\
                 match step d i o h a with Some h' => legal_run d i o h' acts | None => True end
  end.

(** [m] is [n] or below [n]. *)
Definition below {O M} (h : hugr O M) (m n : N) : Prop := up (h_parent h) m n.

(** Nothing observable about [m] has changed, except possibly its children and links. *)
Definition same_node {O M} (h h' : hugr O M) (m : N) : Prop :=
  h_ops h' m = h_ops h m /\ h_meta h' m = h_meta h m /\ h_in h' m = h_in h m /\ h_out h' m = h_out h m /\
  h_parent h' m = h_parent h m.
