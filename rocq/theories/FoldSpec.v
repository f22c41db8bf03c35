(** What constant folding promises: what functions compute stays. *)
From Coq Require Import List Bool NArith Arith.
From Verif Require Import PValModel TypesModel GraphModel GraphSpec PValSpec OpModel DeadModel InlineModel ReplaceModel FlowModel FlowSpec FoldModel.
Import ListNotations.

Section Promise.
  Context {W V E F M : Type}.
  Variable meaning : V -> W.
  Variable sem : @semantics W E F.
  Variable ctx : @context V E F.

  (** Running function [f] with inputs [ins] can give [outs] without calls of declared functions. *)
  Definition evaluates (h : hugr op M) (f : N) (ins outs : list (conc W N unit)) : Prop :=
    exists i o fr, get_io h f = Some (i, o) /\ fits h i ins /\ steps sem ctx h [(new_frame f i ins, None)] [(fr, None)] /\ inputs h fr o outs.

  (** The constants that are made of abstract values mean the same, and are found where they are put. *)
  Definition leaves_ok (leaf : V -> value E F) : Prop := forall v, const_value sem (leaf v) = CVal (meaning v).
  Definition stored (store : value E F -> N) (vs : list (value E F)) : Prop := forall v, In v vs -> content ctx (store v) = v.
  (** No indirect calls of which the analysis does not know the function. *)
  Definition all_resolved (h : hugr op M) (s : facts) : Prop := forall n, ~ unresolved (V := V) h s n.
End Promise.
