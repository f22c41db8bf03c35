(** What changing the signature of a function should do, independently of the code. *)
From Coq Require Import List Bool NArith Arith Permutation.
From Verif Require Import TypesModel GraphModel GraphSpec OpModel ValidSpec MapioModel.
Import ListNotations.

(** The first position of [k]. *)
Fixpoint place (k : nat) (l : list nat) : nat :=
  match l with [] => 0 | x :: l => if Nat.eqb x k then 0 else S (place k l) end.

(** Where a value comes from if the inputs [ins] of node [i], by their old positions, are the new ones. *)
Definition moved (i : N) (ins : list nat) (e : endpoint) : endpoint :=
  if N.eqb (fst e) i then (i, place (snd e) ins) else e.

Definition picked (r : row) (l : list nat) (r' : row) : Prop := Forall2 (fun k t => nth_error r k = Some t) l r'.

(** The links that there should be: those that do not lead to the outputs, and those of the output at the old position for each new output. *)
Definition expected_links {M} (h : hugr op M) (i o : N) (ins outs : list nat) : list link :=
  map (fun l : link => (moved i ins (fst l), snd l)) (filter (fun l : link => negb (N.eqb (fst (snd l)) o)) (h_links h)) ++
  flat_map (fun e : nat * nat => map (fun l : link => (moved i ins (fst l), (o, fst e))) (in_links h (o, snd e))) (combine (seq 0 (length outs)) outs).

(** The function [f], with boundary nodes [i] and [o], takes the old inputs [ins] and gives the old outputs [outs]; nothing else has changed. *)
Record io_mapped {M} (h : hugr op M) (f i o : N) (nm : N) (sg : poly) (pub : bool) (ins outs : list nat) (h' : hugr op M) : Prop := {
  im_nodes : h_nodes h' = h_nodes h;
  im_root : h_root h' = h_root h;
  im_entry : h_entry h' = h_entry h;
  im_meta : h_meta h' = h_meta h;
  im_parent : h_parent h' = h_parent h;
  im_kids : h_kids h' = h_kids h;
  im_other : forall n, n <> f -> n <> i -> n <> o -> h_ops h' n = h_ops h n /\ h_in h' n = h_in h n /\ h_out h' n = h_out h n;
  im_ops : exists r s, picked (p_ins sg) ins r /\ picked (p_outs sg) outs s /\
    h_ops h' f = OFuncDefn nm {| p_params := []; p_ins := r; p_outs := s |} pub /\ h_ops h' i = OInput r /\ h_ops h' o = OOutput s;
  im_ports : h_in h' f = 0 /\ h_out h' f = 1 /\ h_in h' i = 0 /\ h_out h' i = S (length ins) /\ h_in h' o = S (length outs) /\ h_out h' o = 0;
  im_links : Permutation (h_links h') (expected_links h i o ins outs);
  im_kept : forall n k, n <> o -> (forall l, In l (in_links h (n, k)) -> fst (fst l) <> i) -> in_links h' (n, k) = in_links h (n, k) }.

(** The function [f] takes further inputs; nothing else has changed. *)
Record io_extended {M} (h : hugr op M) (f i o : N) (nm : N) (sg : poly) (pub : bool) (more : row) (h' : hugr op M) : Prop := {
  ie_nodes : h_nodes h' = h_nodes h;
  ie_root : h_root h' = h_root h;
  ie_entry : h_entry h' = h_entry h;
  ie_meta : h_meta h' = h_meta h;
  ie_parent : h_parent h' = h_parent h;
  ie_kids : h_kids h' = h_kids h;
  ie_other : forall n, n <> f -> n <> i -> h_ops h' n = h_ops h n /\ h_in h' n = h_in h n /\ h_out h' n = h_out h n;
  ie_ops : h_ops h' f = OFuncDefn nm {| p_params := []; p_ins := p_ins sg ++ more; p_outs := p_outs sg |} pub /\ h_ops h' i = OInput (p_ins sg ++ more);
  ie_ports : h_in h' f = 0 /\ h_out h' f = 1 /\ h_in h' i = 0 /\ h_out h' i = S (length (p_ins sg) + length more);
  ie_links : h_links h' = h_links h }.

(** When this is possible: positions exist, inputs are not repeated, inputs that are used (also by an order edge) or linear are kept,
    and linear outputs occur once. *)
Record good_map {M} (h : hugr op M) (i : N) (r s : row) (ins outs : list nat) : Prop := {
  gm_known_in : forall k, In k ins -> k < length r;
  gm_known_out : forall k, In k outs -> k < length s;
  gm_once : NoDup ins;
  gm_used : forall k d, In ((i, k), d) (h_links h) -> In k ins;
  gm_linear_in : forall k t, nth_error r k = Some t -> lub t = Linear -> In k ins;
  gm_linear_out : forall k t, nth_error s k = Some t -> lub t = Linear -> count_occ Nat.eq_dec outs k = 1 }.

(** What an error says. *)
Definition explains {M} (h : hugr op M) (i : N) (r s : row) (ins outs : list nat) (e : bad_map) : Prop :=
  match e with
  | UnknownIO k false => In k ins /\ length r <= k
  | UnknownIO k true => In k outs /\ length s <= k
  | MissingIO k false => ~ In k ins /\ ((exists d, In ((i, k), d) (h_links h)) \/ exists t, nth_error r k = Some t /\ lub t = Linear)
  | MissingIO k true => ~ In k outs /\ exists t, nth_error s k = Some t /\ lub t = Linear
  | LinearityViolation k => 1 < count_occ Nat.eq_dec outs k /\ exists t, nth_error s k = Some t /\ lub t = Linear
  | DuplicateInput k => 1 < count_occ Nat.eq_dec ins k
  | ExpectedCopyable _ => False
  end.
