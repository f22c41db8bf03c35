(** What moving blocks into a nested control-flow graph promises. *)
From Coq Require Import List Bool NArith Permutation.
From Verif Require Import TypesModel GraphModel GraphSpec OpModel OutlineModel.
Import ListNotations.

Section Spec.
  Context {M : Type}.
  Notation hugr := (hugr op M).

  (** A block of the set at which control can come in: the first block of the graph, or one with an edge from outside. *)
  Definition entry_of (h : hugr) (p : N) (blocks : list N) (n : N) : Prop :=
    In n blocks /\ ((exists rest, h_kids h p = n :: rest) \/ exists s i j, In ((s, i), (n, j)) (h_links h) /\ ~ In s blocks).
  Definition leaves (blocks : list N) (l : link) : Prop := In (fst (fst l)) blocks /\ ~ In (fst (snd l)) blocks.

  Definition siblings (h : hugr) (blocks : list N) (p : N) : Prop := blocks <> [] /\ forall n, In n blocks -> h_parent h n = Some p.

  (** The set can be moved: it has one entry [e], and one edge leads out of it, from [x] to [o]. *)
  Record movable (h : hugr) (blocks : list N) (p e x o : N) : Prop := {
    mv_siblings : siblings h blocks p;
    mv_cfg : exists s, h_ops h p = OCfg s;
    mv_entry : forall n, entry_of h p blocks n <-> n = e;
    mv_exit : exists i j before after, h_links h = before ++ ((x, i), (o, j)) :: after /\ leaves blocks ((x, i), (o, j)) /\
                (forall l, In l before -> ~ leaves blocks l) /\ (forall l, In l after -> ~ leaves blocks l)
  }.

  (** What an error says. *)
  Definition explains (h : hugr) (blocks : list N) (e : outline_error) : Prop :=
    match e with
    | NotSiblings => forall p, ~ siblings h blocks p
    | ParentNotCfg p => siblings h blocks p /\ forall s, h_ops h p <> OCfg s
    | MultipleEntryNodes a b => a <> b /\ forall p, siblings h blocks p -> entry_of h p blocks a /\ entry_of h p blocks b
    | MultipleExitNodes a b => a <> b /\ exists i c j k d l, In ((a, i), (c, j)) (h_links h) /\ leaves blocks ((a, i), (c, j)) /\
                                 In ((b, k), (d, l)) (h_links h) /\ leaves blocks ((b, k), (d, l))
    | MultipleExitEdges n succs => 2 <= length succs /\ exists ls, map (fun l : link => fst (snd l)) ls = succs /\
                                   (forall l, In l ls -> fst (fst l) = n /\ leaves blocks l) /\
                                   exists keep, ls = filter keep (h_links h)
    | NoEntryNode => forall p n, siblings h blocks p -> ~ entry_of h p blocks n
    | NoExitNode => forall l, In l (h_links h) -> ~ leaves blocks l
    end.

  Definition fresh_nodes (f : fresh) : list N := [f_block f; f_in f; f_out f; f_cfg f; f_exit f; f_const f; f_load f].
  (** The edges in the new block. *)
  Definition inner_links (f : fresh) (ins outs : row) : list link :=
    map (fun k => ((f_in f, k), (f_cfg f, k))) (seq 0 (length ins)) ++ [((f_const f, 0), (f_load f, 0)); ((f_load f, 0), (f_out f, 0))] ++
    map (fun k => ((f_cfg f, k), (f_out f, S k))) (seq 0 (length outs)).
  (** Where an edge leads afterwards: edges from outside to the entry go to the new block, the edge out of the set goes
      to the new exit. *)
  Definition redirect (f : fresh) (blocks : list N) (e x : N) (i : nat) (l : link) : link :=
    if ep_eqb (snd l) (e, 0) && negb (memN (fst (fst l)) blocks) then (fst l, (f_block f, 0))
    else if ep_eqb (fst l) (x, i) then (fst l, (f_exit f, 0)) else l.

  Record outlined_as (f : fresh) (h : hugr) (blocks : list N) (p e x o : N) (ins outs : row) (h' : hugr) : Prop := {
    oa_fresh : NoDup (fresh_nodes f) /\ forall y, In y (fresh_nodes f) -> ~ In y (h_nodes h);
    oa_nodes : forall y, In y (h_nodes h') <-> In y (fresh_nodes f) \/ In y (h_nodes h);
    oa_root : h_root h' = h_root h;
    oa_entry : h_entry h' = h_entry h;
    oa_old : forall y, In y (h_nodes h) -> h_ops h' y = h_ops h y /\ h_in h' y = h_in h y /\ h_out h' y = h_out h y;
    oa_new : h_ops h' (f_block f) = OBlock ins outs [[]] /\ h_ops h' (f_in f) = OInput ins /\ h_ops h' (f_out f) = OOutput (unit_sum :: outs) /\
             h_ops h' (f_cfg f) = OCfg (ins, outs) /\ h_ops h' (f_exit f) = OExit outs /\ h_ops h' (f_const f) = OConst 0 unit_sum true /\
             h_ops h' (f_load f) = OLoadConstant unit_sum;
    oa_moved : forall y, In y blocks -> h_parent h' y = Some (f_cfg f);
    oa_kept : forall y, In y (h_nodes h) -> ~ In y blocks -> h_parent h' y = h_parent h y;
    oa_placed : h_parent h' (f_block f) = Some p /\ h_parent h' (f_exit f) = Some (f_cfg f) /\
                forall y, In y [f_in f; f_out f; f_cfg f; f_const f; f_load f] -> h_parent h' y = Some (f_block f);
    oa_kids_cfg : h_kids h' (f_cfg f) = e :: f_exit f :: delN e blocks;
    oa_kids_block : h_kids h' (f_block f) = [f_in f; f_out f; f_cfg f; f_const f; f_load f];
    oa_kids_outer : let others := filter (fun y => negb (memN y blocks)) (h_kids h p) in
                    h_kids h' p = if match h_kids h p with first :: _ => N.eqb e first | [] => false end then f_block f :: others else others ++ [f_block f];
    oa_kids_old : forall y, In y (h_nodes h) -> y <> p -> h_kids h' y = h_kids h y;
    oa_links : exists i, In ((x, i), (o, 0)) (h_links h) /\
               Permutation (h_links h') (map (redirect f blocks e x i) (h_links h) ++ ((f_block f, 0), (o, 0)) :: inner_links f ins outs)
  }.
End Spec.
