(** Theorems about the normalization of control flow graphs. *)
From Coq Require Import List Bool NArith Arith Lia.
From Verif Require Import TypesModel GraphModel GraphSpec OpModel DeadModel DeadProps InlineModel ReplaceModel
  ValidModel ValidSpec ValidProps NormModel.
Import ListNotations.
Open Scope nat_scope.

Definition no_merge (h : hugr op N) (a b : N) : option (hugr op N * N) := None.
Definition unpack (r : row) : op := OExt 1 9 [] ([new_sum [r]], r).
Definition next_node (h : hugr op N) : N := N.succ (fold_right N.max 0%N (h_nodes h)).
Definition normalize : hugr op N -> option (hugr op N * norm_result) := normalize_cfg no_merge unpack next_node.
Definition report (h : hugr op N) := option_map (fun x => (snd x, validate no_types simple_ops (fst x))) (normalize h).

Definition unit_fn : op := OFuncDefn 0 {| p_params := []; p_ins := []; p_outs := [] |} false.
(** A block without inputs that goes on with no values. *)
Definition jump (b p : N) : list (act (O := op) (M := N)) :=
  [AddChild b p (OBlock [] [] [[]]); AddChild (b + 1)%N b (OInput []); AddChild (b + 2)%N b (OOutput [new_sum [[]]]);
   AddChild (b + 3)%N b (OTag 0 [[]]); Connect (b + 3)%N 0 (b + 2)%N 0].
(** The entry block, which has a predecessor that cannot be reached, is the only way to the exit. *)
Definition w1 : hugr op N := graph_of (make
  ([AddChild 1%N 0%N unit_fn; AddChild 2%N 1%N (OInput []); AddChild 3%N 1%N (OOutput []); AddChild 4%N 1%N (OCfg ([], []))] ++
   jump 5 4 ++ [AddChild 9%N 4%N (OExit [])] ++ jump 10 4 ++ [Connect 5%N 0 9%N 0; Connect 10%N 0 5%N 0; SetEntry 4%N])).

Definition gen : op := OExt 3 0 [] ([], [bit]).
(** A graph inside of the last block uses a value of another block. *)
Definition w2 : hugr op N := graph_of (make
  ([AddChild 1%N 0%N (OFuncDefn 0 {| p_params := []; p_ins := []; p_outs := [bit] |} false); AddChild 2%N 1%N (OInput []); AddChild 3%N 1%N (OOutput [bit]); AddChild 4%N 1%N (OCfg ([], [bit]));
    Connect 4%N 0 3%N 0;
    AddChild 5%N 4%N (OBlock [] [] two); AddChild 6%N 5%N (OInput []); AddChild 7%N 5%N (OOutput [new_sum two]); AddChild 8%N 5%N (OTag 1 two); Connect 8%N 0 7%N 0;
    AddChild 9%N 4%N (OExit [bit]); AddChild 10%N 5%N gen] ++ jump 11 4 ++
   [AddChild 15%N 4%N (OBlock [] [bit] [[]]); AddChild 16%N 15%N (OInput []); AddChild 17%N 15%N (OOutput [new_sum [[]]; bit]); AddChild 18%N 15%N (OTag 0 [[]]); Connect 18%N 0 17%N 0;
    AddChild 19%N 15%N (ODfg ([], [bit])); AddChild 20%N 19%N (OInput []); AddChild 21%N 19%N (OOutput [bit]); Connect 10%N 0 21%N 0; Connect 19%N 0 17%N 1;
    Connect 5%N 0 11%N 0; Connect 11%N 0 5%N 0; Connect 5%N 1 15%N 0; Connect 15%N 0 9%N 0; SetEntry 4%N])).

(** The last block uses a value from outside of the control flow graph. *)
Definition w3 : hugr op N := graph_of (make
  ([AddChild 1%N 0%N (fn 0); AddChild 2%N 1%N (OInput [bit]); AddChild 3%N 1%N (OOutput [bit]); AddChild 4%N 1%N (OCfg ([], [bit]));
    Connect 4%N 0 3%N 0; Connect 2%N 1 4%N 0;
    AddChild 5%N 4%N (OBlock [] [] two); AddChild 6%N 5%N (OInput []); AddChild 7%N 5%N (OOutput [new_sum two]); AddChild 8%N 5%N (OTag 1 two); Connect 8%N 0 7%N 0;
    AddChild 9%N 4%N (OExit [bit])] ++ jump 11 4 ++
   [AddChild 15%N 4%N (OBlock [] [bit] [[]]); AddChild 16%N 15%N (OInput []); AddChild 17%N 15%N (OOutput [new_sum [[]]; bit]); AddChild 18%N 15%N (OTag 0 [[]]); Connect 18%N 0 17%N 0;
    Connect 2%N 0 17%N 1;
    Connect 5%N 0 11%N 0; Connect 11%N 0 5%N 0; Connect 5%N 1 15%N 0; Connect 15%N 0 9%N 0; SetEntry 4%N])).

Lemma normalized_to : forall (h : hugr op N) (P : hugr op N -> Prop), match normalize h with Some (h', _) => P h' | None => False end -> exists h' r, normalize h = Some (h', r) /\ P h'.
Proof. intros h P H. destruct (normalize h) as [[h' r]|]; [|destruct H]. exists h', r. auto. Qed.
Lemma w1_wf : GraphSpec.wf w1.
Proof. apply built_wf. vm_compute. tauto. Qed.
Lemma w2_wf : GraphSpec.wf w2.
Proof. apply built_wf. vm_compute. tauto. Qed.
Lemma w3_wf : GraphSpec.wf w3.
Proof. apply built_wf. vm_compute. tauto. Qed.
Lemma w1_ok : validate no_types simple_ops w1 = VOk.
Proof. vm_compute. reflexivity. Qed.
Lemma w2_ok : validate no_types simple_ops w2 = VOk.
Proof. vm_compute. reflexivity. Qed.
Lemma w3_ok : validate no_types simple_ops w3 = VOk.
Proof. vm_compute. reflexivity. Qed.
Lemma w1_result : match normalize w1 with Some (h', _) => validate no_types simple_ops h' = VErr (InvalidInitialChild 4%N false) /\ h_ops h' (hd 0%N (h_kids h' 4%N)) = OExit [] | None => False end.
Proof. vm_compute. auto. Qed.
Definition no_relation (v : vres) : bool := match v with VErr (NoRelation _ _) => true | _ => false end.
Definition missing_order (v : vres) : bool := match v with VErr (MissingOrderEdge _ _ _) => true | _ => false end.
Lemma w2_result : match normalize w2 with Some (h', _) => no_relation (validate no_types simple_ops h') = true | None => False end.
Proof. vm_compute. reflexivity. Qed.
Lemma w3_result : match normalize w3 with Some (h', _) => missing_order (validate no_types simple_ops h') = true | None => False end.
Proof. vm_compute. reflexivity. Qed.

(** C59: the normalization of a valid HUGR need not be valid.  The block that has become the exit block is the first child, ... *)
Theorem normalize_entry_refuted : exists (h h' : hugr op N) r, GraphSpec.wf h /\ valid no_types simple_ops h /\ normalize h = Some (h', r) /\
  validate no_types simple_ops h' = VErr (InvalidInitialChild 4%N false) /\ h_ops h' (hd 0%N (h_kids h' 4%N)) = OExit [].
Proof.
  generalize w1_wf w1_ok w1_result. generalize w1. intros h Wf V R. destruct (normalized_to h _ R) as (h' & r & E & A & B).
  exists h, h', r. split; [exact Wf|]. split; [apply validate_accepts; assumption|]. auto.
Qed.
(** ... an edge from a block comes out of the control flow graph, ... *)
Theorem normalize_dom_refuted : exists (h h' : hugr op N) r s d, GraphSpec.wf h /\ valid no_types simple_ops h /\ normalize h = Some (h', r) /\
  validate no_types simple_ops h' = VErr (NoRelation s d).
Proof.
  generalize w2_wf w2_ok w2_result. generalize w2. intros h Wf V R. destruct (normalized_to h _ R) as (h' & r & E & A).
  destruct (validate no_types simple_ops h') as [|[]|] eqn:B; try discriminate A. do 5 eexists. split; [exact Wf|]. split; [apply validate_accepts; assumption|]. split; [exact E|exact B].
Qed.
(** ... or an edge into the new graph has no order edge beside it. *)
Theorem normalize_ext_refuted : exists (h h' : hugr op N) r s d n, GraphSpec.wf h /\ valid no_types simple_ops h /\ normalize h = Some (h', r) /\
  validate no_types simple_ops h' = VErr (MissingOrderEdge s d n).
Proof.
  generalize w3_wf w3_ok w3_result. generalize w3. intros h Wf V R. destruct (normalized_to h _ R) as (h' & r & E & A).
  destruct (validate no_types simple_ops h') as [|[]|] eqn:B; try discriminate A. do 6 eexists. split; [exact Wf|]. split; [apply validate_accepts; assumption|]. split; [exact E|exact B].
Qed.
Print Assumptions normalize_entry_refuted.
Print Assumptions normalize_dom_refuted.
Print Assumptions normalize_ext_refuted.

(** What works: a single block becomes a graph, ... *)
Definition straight : hugr op N := graph_of (make
  [AddChild 1%N 0%N (fn 0); AddChild 2%N 1%N (OInput [bit]); AddChild 3%N 1%N (OOutput [bit]); AddChild 4%N 1%N (OCfg ([bit], [bit]));
   Connect 2%N 0 4%N 0; Connect 4%N 0 3%N 0;
   AddChild 5%N 4%N (OBlock [bit] [bit] [[]]); AddChild 6%N 5%N (OInput [bit]); AddChild 7%N 5%N (OOutput [new_sum [[]]; bit]); AddChild 8%N 5%N (OTag 0 [[]]);
   AddChild 9%N 4%N (OExit [bit]); AddChild 10%N 5%N (bit_op 0); Connect 8%N 0 7%N 0; Connect 6%N 0 10%N 0; Connect 10%N 0 7%N 1; Connect 5%N 0 9%N 0; SetEntry 4%N]).
Example straight_normalized : report straight = Some (CfgToDfg, VOk) /\
  option_map (fun x => (h_ops (fst x) 4%N, h_ops (fst x) 7%N, h_kids (fst x) 4%N)) (normalize straight) =
    Some (ODfg ([bit], [bit]), OOutput [bit], [6; 7; 8; 10; 11]%N).
Proof. vm_compute. auto. Qed.

(** ... an entry block without predecessors moves out, with an order edge for the value that another block uses, and so does
    the last block. *)
Definition rolling : hugr op N := graph_of (make
  [AddChild 1%N 0%N (fn 0); AddChild 2%N 1%N (OInput [bit]); AddChild 3%N 1%N (OOutput [bit]); AddChild 4%N 1%N (OCfg ([bit], [bit]));
   Connect 2%N 0 4%N 0; Connect 4%N 0 3%N 0;
   AddChild 5%N 4%N (OBlock [bit] [bit] [[]]); AddChild 6%N 5%N (OInput [bit]); AddChild 7%N 5%N (OOutput [new_sum [[]]; bit]); AddChild 8%N 5%N (OTag 0 [[]]);
   AddChild 9%N 4%N (OExit [bit]); AddChild 10%N 5%N (bit_op 0); Connect 8%N 0 7%N 0; Connect 6%N 0 10%N 0; Connect 10%N 0 7%N 1;
   AddChild 11%N 4%N (OBlock [bit] [bit] two); AddChild 12%N 11%N (OInput [bit]); AddChild 13%N 11%N (OOutput [new_sum two; bit]);
   AddChild 14%N 11%N (OTag 1 two); Connect 14%N 0 13%N 0; Connect 10%N 0 13%N 1;
   AddChild 15%N 4%N (OBlock [bit] [bit] [[]]); AddChild 16%N 15%N (OInput [bit]); AddChild 17%N 15%N (OOutput [new_sum [[]]; bit]); AddChild 18%N 15%N (OTag 0 [[]]);
   AddChild 19%N 15%N (bit_op 1); Connect 18%N 0 17%N 0; Connect 16%N 0 19%N 0; Connect 19%N 0 17%N 1;
   Connect 5%N 0 11%N 0; Connect 11%N 0 11%N 0; Connect 11%N 1 15%N 0; Connect 15%N 0 9%N 0; SetEntry 4%N]).
Example rolling_normalized : validate no_types simple_ops rolling = VOk /\ report rolling = Some (CfgPreserved [8; 10; 21]%N (Some 22%N) 0, VOk).
Proof. vm_compute. auto. Qed.
