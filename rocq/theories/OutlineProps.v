(** Theorems about moving blocks into a nested control-flow graph. *)
From Coq Require Import List Bool NArith Arith Lia Permutation.
From Verif Require Import TypesModel GraphModel GraphSpec GraphProofs GraphRemove GraphProps Graphs OpModel OpSpec DeadModel DeadProofs DeadProps InlineModel ReplaceModel ValidModel ValidSpec ValidProofs ValidProps OutlineModel OutlineSpec OutlineProofs OutlineMain OutlineWorks.
Import ListNotations.
Local Notation wf := GraphSpec.wf.

(** The entry, the exit and the block after it are found exactly if the set has one entry and one edge out of it; the order of the
    hash set does not matter. *)
Theorem outline_finds : forall {M} (h : hugr op M) blocks e x o, wf h -> NoDup blocks -> (forall n, In n blocks -> In n (h_nodes h)) ->
  compute_entry_exit h blocks = Some (Found e x o) <-> exists p, movable h blocks p e x o.
Proof.
  intros M h blocks e x o W Nd L. split; [|intros (p & Mv); exact (movable_found h blocks p e x o W Nd L Mv)]. intros E. pose proof (compute_cases h blocks W Nd L) as C. rewrite E in C. exact C.
Qed.
Print Assumptions outline_finds.

(** Otherwise there is an error, and what it says is true.  There is no panic. *)
Theorem outline_explains : forall {M} (h : hugr op M) blocks, wf h -> NoDup blocks -> (forall n, In n blocks -> In n (h_nodes h)) ->
  match compute_entry_exit h blocks with
  | Some (NotFound err) => explains h blocks err /\ forall p e x o, ~ movable h blocks p e x o
  | Some (Found _ _ _) => True
  | None => False
  end.
Proof.
  intros M h blocks W Nd L. pose proof (compute_cases h blocks W Nd L) as C. destruct (compute_entry_exit h blocks) as [[e x o|err]|] eqn:E; [exact Logic.I| |exact C].
  split; [exact C|]. intros p e x o Mv. rewrite (movable_found h blocks p e x o W Nd L Mv) in E. discriminate.
Qed.
Print Assumptions outline_explains.

(** If a valid HUGR is outlined, the blocks are in the new graph, with the entry first and the new exit second; edges from outside to
    the entry lead to the new block, the edge out of the set leads to the new exit, and a new edge leads from the new block to where
    it led before.  Nothing else is changed. *)
Theorem outline_moves : forall {M} env defs f (h h' : hugr op M) blocks b c, wf h -> valid env defs h -> NoDup blocks -> (forall n, In n blocks -> In n (h_nodes h)) ->
  outline f h blocks = Outlined h' b c -> b = f_block f /\ c = f_cfg f /\ wf h' /\
    exists p e x o ins oo rows outs, movable h blocks p e x o /\ h_ops h e = OBlock ins oo rows /\
      ((exists oo rows, h_ops h o = OBlock outs oo rows) \/ h_ops h o = OExit outs) /\ outlined_as f h blocks p e x o ins outs h'.
Proof.
  intros M env defs f h h' blocks b c W V Nd L. unfold outline. pose proof (compute_cases h blocks W Nd L) as C. destruct (compute_entry_exit h blocks) as [[e x o|]|]; try discriminate. destruct C as (p & Mv).
  destruct (h_ops h e) eqn:Oe; try discriminate. destruct (block_input (h_ops h o)) as [outs|] eqn:Oo; [|discriminate].
  destruct (get_parent h e) as [q|] eqn:Pe; [|discriminate]. assert (Eq : q = p).
  { pose proof Mv as [[_ Par] _ Me _]. assert (He : In e blocks) by (apply (proj2 (Me e)); reflexivity). unfold get_parent in Pe. destruct (contains h e && negb (N.eqb e (h_root h))); [|discriminate]. rewrite (Par e He) in Pe. congruence. }
  subst q. destruct (move_blocks _ _ _ _ _ _ _ _ _) as [h2|] eqn:E; [|discriminate]. intros R. injection R as <- <- <-. destruct (move_blocks_moves f env defs h h2 blocks p e x o _ _ _ outs W V Nd L Mv Oe E) as (_ & W' & A). split; [reflexivity|]. split; [reflexivity|]. split; [exact W'|].
  eexists p, e, x, o, _, _, _, outs. split; [exact Mv|]. split; [exact Oe|]. split; [|exact A]. unfold block_input in Oo. destruct (h_ops h o); try discriminate; injection Oo as <-; [left|right]; eauto.
Qed.
Print Assumptions outline_moves.

(** If the entry point of the HUGR is not the entry of the set, and the set consists of basic blocks, nothing fails; otherwise it does. *)
Theorem outline_succeeds : forall {M} env defs f (h : hugr op M) blocks p e x o, wf h -> valid env defs h -> NoDup blocks -> (forall n, In n blocks -> In n (h_nodes h)) ->
  movable h blocks p e x o -> (forall n, In n blocks -> exists ins oo rows, h_ops h n = OBlock ins oo rows) ->
  NoDup (fresh_nodes f) -> (forall y, In y (fresh_nodes f) -> ~ In y (h_nodes h)) ->
  (exists h', outline f h blocks = Outlined h' (f_block f) (f_cfg f)) <-> e <> h_entry h.
Proof.
  intros M env defs f h blocks p e x o W V Nd L Mv Bl Fn Fr. unfold outline. rewrite (movable_found h blocks p e x o W Nd L Mv).
  pose proof Mv as [[_ Par] _ Me (i & j & bef & aft & Lk & Lv & _ & _)]. assert (He : In e blocks) by (apply (proj2 (Me e)); reflexivity). assert (Hx : In x blocks) by exact (proj1 Lv). destruct (Bl e He) as (ins & oo & rows & Oe). rewrite Oe.
  destruct (Bl x Hx) as (a & b & c & Ox). assert (Hl : In ((x, i), (o, j)) (h_links h)) by (rewrite Lk; apply in_or_app; right; now left). destruct (control_edge env defs h x i o j a b c W V Ox Hl) as (_ & _ & (outs & Oo) & _). rewrite Oo.
  assert (Pe : get_parent h e = Some p).
  { unfold get_parent. rewrite (proj2 (contains_iff h e) (L e He)). destruct (N.eqb_spec e (h_root h)) as [E|_]; [|exact (Par e He)]. pose proof (Par e He) as P. rewrite E, (wf_top h W) in P. discriminate. }
  rewrite Pe. split.
  - intros (h' & E). destruct (move_blocks _ _ _ _ _ _ _ _ _) as [h2|] eqn:E2; [|discriminate]. exact (proj1 (move_blocks_moves f env defs h h2 blocks p e x o ins oo rows outs W V Nd L Mv Oe E2)).
  - intros Ne. destruct (move_blocks_works f env defs h blocks p e x o ins oo rows outs W V Nd L Mv Bl Ne Fn Fr Oe) as (h' & E). exists h'. rewrite E. reflexivity.
Qed.
Print Assumptions outline_succeeds.

(** ** Examples *)
Definition block_acts (n p : N) (tag : nat) (rows : list row) : list (act (O := op) (M := N)) :=
  [AddChild n p (OBlock [bit] [bit] rows); AddChild (10 * n)%N n (OInput [bit]); AddChild (10 * n + 1)%N n (OOutput [new_sum rows; bit]);
   AddChild (10 * n + 2)%N n (OTag tag rows); Connect (10 * n + 2)%N 0 (10 * n + 1)%N 0; Connect (10 * n)%N 0 (10 * n + 1)%N 1].
Definition cfg_acts : list (act (O := op) (M := N)) :=
  [AddChild 1%N 0%N (fn 1); AddChild 2%N 1%N (OInput [bit]); AddChild 3%N 1%N (OOutput [bit]); AddChild 4%N 1%N (OCfg ([bit], [bit]));
   Connect 2%N 0 4%N 0; Connect 4%N 0 3%N 0] ++ block_acts 5 4 0 [[]] ++ [AddChild 6%N 4%N (OExit [bit])] ++ block_acts 7 4 0 two ++ block_acts 8 4 0 [[]].
Definition line : hugr op N := graph_of (make (cfg_acts ++ [Connect 5%N 0 7%N 0; Connect 7%N 0 7%N 0; Connect 7%N 1 8%N 0; Connect 8%N 0 6%N 0])).
Definition new_nodes : fresh := {| f_block := 100; f_in := 101; f_out := 102; f_cfg := 103; f_exit := 104; f_const := 105; f_load := 106 |}%N.
Definition outcome (r : outlined (M := N)) : option (hugr op N) := match r with Outlined h _ _ => Some h | _ => None end.
Definition look (h : hugr op N) := (validate no_types simple_ops h, h_kids h 4%N, h_kids h 103%N).
Example line_outlined : validate no_types simple_ops line = VOk /\
  option_map look (outcome (outline new_nodes line [7%N])) = Some (VOk, [5; 6; 8; 100]%N, [7; 104]%N) /\
  option_map look (outcome (outline new_nodes line [7%N; 5%N])) = Some (VOk, [100; 6; 8]%N, [5; 104; 7]%N) /\
  option_map look (outcome (outline new_nodes line [7%N; 8%N])) = Some (VOk, [5; 6; 100]%N, [7; 104; 8]%N).
Proof. vm_compute. repeat split. Qed.
Definition control (h : hugr op N) : list link := filter (fun l : link => match h_ops h (fst (fst l)) with OBlock _ _ _ => true | _ => false end) (h_links h).
Example line_edges : control line = [((5%N, 0), (7%N, 0)); ((7%N, 0), (7%N, 0)); ((7%N, 1), (8%N, 0)); ((8%N, 0), (6%N, 0))] /\
  option_map control (outcome (outline new_nodes line [7%N])) = Some [((7%N, 0), (7%N, 0)); ((8%N, 0), (6%N, 0)); ((5%N, 0), (100%N, 0)); ((100%N, 0), (8%N, 0)); ((7%N, 1), (104%N, 0))].
Proof. vm_compute. split; reflexivity. Qed.
Lemma line_wf : wf line.
Proof. apply built_wf. vm_compute. tauto. Qed.
Example line_found : compute_entry_exit line [8%N; 7%N] = Some (Found 7 8 6)%N /\ compute_entry_exit line [5%N; 8%N] = Some (NotFound (MultipleEntryNodes 5 8))%N /\
  compute_entry_exit line [8%N; 5%N] = Some (NotFound (MultipleEntryNodes 8 5))%N /\ compute_entry_exit line [7%N; 70%N] = Some (NotFound NotSiblings) /\
  compute_entry_exit line [2%N] = Some (NotFound (ParentNotCfg 1))%N /\ compute_entry_exit line [8%N; 6%N] = Some (NotFound NoExitNode) /\ compute_entry_exit line [] = Some (NotFound NotSiblings).
Proof. vm_compute. repeat split. Qed.

(** ** What fails *)
Definition is_outlined (r : outlined (M := N)) : bool := match r with Outlined _ _ _ => true | _ => false end.
Definition result_of (d : hugr op N) (r : outlined (M := N)) : hugr op N := match r with Outlined h _ _ => h | _ => d end.
Lemma outlined_result d f h bl : is_outlined (outline f h bl) = true -> outline f h bl = Outlined (result_of d (outline f h bl)) (f_block f) (f_cfg f).
Proof. unfold outline. destruct (compute_entry_exit h bl) as [[e x o|]|]; try discriminate. destruct (h_ops h e); try discriminate. destruct (block_input (h_ops h o)); try discriminate. destruct (get_parent h e); try discriminate. destruct (move_blocks _ _ _ _ _ _ _ _ _); [reflexivity|discriminate]. Qed.

(** The exit block may be in the set.  It is moved as well, and the graph has no exit any more. *)
Definition tangle : hugr op N := graph_of (make (cfg_acts ++ [Connect 5%N 0 7%N 0; Connect 7%N 0 6%N 0; Connect 7%N 1 8%N 0; Connect 8%N 0 7%N 0])).
Lemma tangle_wf : wf tangle.
Proof. apply built_wf. vm_compute. tauto. Qed.
Lemma tangle_facts : let h' := result_of tangle (outline new_nodes tangle [7%N; 6%N]) in validate no_types simple_ops tangle = VOk /\ is_outlined (outline new_nodes tangle [7%N; 6%N]) = true /\
  h_kids h' 4%N = [5; 8; 100]%N /\ h_ops h' 8%N = OBlock [bit] [bit] [[]] /\ h_ops h' 4%N = OCfg ([bit], [bit]) /\ In 4%N (h_nodes h').
Proof. vm_compute. repeat split; tauto. Qed.
Theorem outline_exit_refuted : exists (h h' : hugr op N) f blocks b c, wf h /\ valid no_types simple_ops h /\ outline f h blocks = Outlined h' b c /\ ~ valid no_types simple_ops h'.
Proof.
  pose proof tangle_wf as W. destruct tangle_facts as (Hv & Ho & Hk & H8 & H4 & Hn). apply (outlined_result tangle) in Ho. revert W Hv Ho Hk H8 H4 Hn. generalize (result_of tangle (outline new_nodes tangle [7%N; 6%N])) as h'. generalize tangle as h.
  intros h h' W Hv Ho Hk H8 H4 Hn. exists h, h', new_nodes, [7%N; 6%N], (f_block new_nodes), (f_cfg new_nodes). split; [exact W|]. split; [exact (proj1 (validate_accepts no_types simple_ops h W) Hv)|]. split; [exact Ho|].
  intros V. destruct (v_cfg _ _ _ V 4%N Hn _ _ H4) as ((a & b & rest & Ek & _ & Eb & _) & _). rewrite Hk in Ek. injection Ek as _ <- _. rewrite H8 in Eb. discriminate.
Qed.
Print Assumptions outline_exit_refuted.

(** A block after the set may use a value from it.  That value is then out of reach. *)
Definition far : hugr op N := graph_of (make (cfg_acts ++ [Connect 5%N 0 7%N 0; Connect 7%N 0 7%N 0; Connect 7%N 1 8%N 0; Connect 8%N 0 6%N 0; Disconnect 81%N Inc 1; Connect 70%N 0 81%N 1])).
Lemma far_wf : wf far.
Proof. apply built_wf. vm_compute. tauto. Qed.
Lemma far_facts : let h' := result_of far (outline new_nodes far [7%N]) in validate no_types simple_ops far = VOk /\ is_outlined (outline new_nodes far [7%N]) = true /\
  In ((70%N, 0), (81%N, 1)) (h_links h') /\ h_parent h' 70%N = Some 7%N /\ h_parent h' 7%N = Some 103%N /\ h_parent h' 81%N = Some 8%N /\ h_parent h' 8%N = Some 4%N /\ h_parent h' 4%N = Some 1%N /\ h_parent h' 1%N = Some 0%N /\ h_parent h' 0%N = None /\
  h_ops h' 70%N = OInput [bit].
Proof. vm_compute. repeat split; tauto. Qed.
Theorem outline_values_refuted : exists (h h' : hugr op N) f n b c, wf h /\ valid no_types simple_ops h /\ ~ exit_op (h_ops h n) /\ outline f h [n] = Outlined h' b c /\ ~ valid no_types simple_ops h'.
Proof.
  pose proof far_wf as W. destruct far_facts as (Hv & Ho & Hl & P70 & P7 & P81 & P8 & P4 & P1 & P0 & O70). apply (outlined_result far) in Ho. assert (O7 : h_ops far 7%N = OBlock [bit] [bit] two) by (vm_compute; reflexivity).
  revert W Hv Ho Hl P70 P7 P81 P8 P4 P1 P0 O70 O7. generalize (result_of far (outline new_nodes far [7%N])) as h'. generalize far as h.
  intros h h' W Hv Ho Hl P70 P7 P81 P8 P4 P1 P0 O70 O7. exists h, h', new_nodes, 7%N, (f_block new_nodes), (f_cfg new_nodes). split; [exact W|]. split; [exact (proj1 (validate_accepts no_types simple_ops h W) Hv)|]. split; [rewrite O7; intros []|]. split; [exact Ho|].
  intros V. destruct (v_links _ _ _ V _ _ _ _ Hl) as (k & (ks & A & B) & _ & Le). assert (Up : forall y, up (h_parent h') 81%N y -> y = 81%N \/ y = 8%N \/ y = 4%N \/ y = 1%N \/ y = 0%N).
  { intros y U. inversion U as [|? ? ? E1 U1]; [auto|]. rewrite P81 in E1. injection E1 as <-. inversion U1 as [|? ? ? E2 U2]; [auto|]. rewrite P8 in E2. injection E2 as <-. inversion U2 as [|? ? ? E3 U3]; [auto|]. rewrite P4 in E3. injection E3 as <-.
    inversion U3 as [|? ? ? E4 U4]; [auto|]. rewrite P1 in E4. injection E4 as <-. inversion U4 as [|? ? ? E5 U5]; [auto|]. congruence. }
  rewrite O70 in A. inversion A; subst ks. assert (K : k = EValue bit) by (cbn in B; congruence). destruct Le as [q Q1 Q2|q Q1 Q2 Q3 Q4|t q a Q1 Q2 Q3 Q4 Q5 Q6 Q7|t b c g z Q1 Q2 Q3 Q4 Q5 Q6 Q7 Q8 Q9 Q10].
  - congruence.
  - destruct Q1 as [[? ?]|[? ?]]; congruence.
  - rewrite P70 in Q3. injection Q3 as <-. destruct (Up _ Q5) as [->|[->|[->|[->| ->]]]]; congruence.
  - rewrite P70 in Q3. injection Q3 as <-. rewrite P7 in Q4. injection Q4 as <-. destruct (Up _ Q7) as [->|[->|[->|[->| ->]]]]; congruence.
Qed.
Print Assumptions outline_values_refuted.

(** If the entry point of the HUGR is the first block of the set, the code panics, although errors are promised not to change the graph. *)
Definition started : hugr op N := graph_of (make (cfg_acts ++ [Connect 5%N 0 7%N 0; Connect 7%N 0 7%N 0; Connect 7%N 1 8%N 0; Connect 8%N 0 6%N 0; SetEntry 7%N])).
Lemma started_wf : wf started.
Proof. apply built_wf. vm_compute. tauto. Qed.
Lemma started_facts : validate no_types simple_ops started = VOk /\ compute_entry_exit started [7%N] = Some (Found 7 7 8)%N /\ outline new_nodes started [7%N] = OutlinePanic /\ existsb (fun y => memN y (h_nodes started)) (fresh_nodes new_nodes) = false.
Proof. vm_compute. auto. Qed.
Theorem outline_panics_refuted : exists (h : hugr op N) f blocks e x o, wf h /\ valid no_types simple_ops h /\ compute_entry_exit h blocks = Some (Found e x o) /\
  NoDup (fresh_nodes f) /\ (forall y, In y (fresh_nodes f) -> ~ In y (h_nodes h)) /\ outline f h blocks = OutlinePanic.
Proof.
  pose proof started_wf as W. pose proof started_facts as F. revert W F. generalize started as h. intros h W (Hv & Hc & Ho & Hf). exists h, new_nodes, [7%N], 7%N, 7%N, 8%N. split; [exact W|]. split; [exact (proj1 (validate_accepts no_types simple_ops h W) Hv)|]. split; [exact Hc|].
  split; [repeat (constructor; [cbn; intuition discriminate|]); constructor|]. split; [|exact Ho]. intros y Hy Hn. apply not_true_iff_false in Hf. apply Hf, existsb_exists. exists y. split; [exact Hy|]. apply memN_iff, Hn.
Qed.
Print Assumptions outline_panics_refuted.

(** The comment says that the panics for nodes that are not basic blocks do not happen for valid HUGRs.  They do: a control-flow graph may
    also contain constants, and an edge from a constant counts as an edge out of the set. *)
Definition stocked : hugr op N := graph_of (make (cfg_acts ++ [Connect 5%N 0 7%N 0; Connect 7%N 0 7%N 0; Connect 7%N 1 8%N 0; Connect 8%N 0 6%N 0;
  AddChild 9%N 4%N (OConst 0 bit true); AddChild 83%N 8%N (OLoadConstant bit); Connect 9%N 0 83%N 0])).
Lemma stocked_wf : wf stocked.
Proof. apply built_wf. vm_compute. tauto. Qed.
Lemma stocked_facts : validate no_types simple_ops stocked = VOk /\ h_entry stocked = 0%N /\
  compute_entry_exit stocked [6%N; 9%N] = Some (Found 6 9 83)%N /\ h_ops stocked 6%N = OExit [bit] /\ outline new_nodes stocked [6%N; 9%N] = OutlinePanic /\
  compute_entry_exit stocked [5; 6; 7; 8; 9]%N = Some (Found 5 9 83)%N /\ h_ops stocked 83%N = OLoadConstant bit /\ outline new_nodes stocked [5; 6; 7; 8; 9]%N = OutlinePanic /\
  existsb (fun y => memN y (h_nodes stocked)) (fresh_nodes new_nodes) = false.
Proof. vm_compute. auto 10. Qed.
Theorem outline_blocks_refuted : exists (h : hugr op N) f some all, wf h /\ valid no_types simple_ops h /\ NoDup (fresh_nodes f) /\ (forall y, In y (fresh_nodes f) -> ~ In y (h_nodes h)) /\
  (exists e x o, compute_entry_exit h some = Some (Found e x o) /\ e <> h_entry h /\ (forall i oo rows, h_ops h e <> OBlock i oo rows) /\ outline f h some = OutlinePanic) /\
  (exists e x o, compute_entry_exit h all = Some (Found e x o) /\ e <> h_entry h /\ (forall i oo rows, h_ops h o <> OBlock i oo rows) /\ (forall r, h_ops h o <> OExit r) /\ outline f h all = OutlinePanic).
Proof.
  pose proof stocked_wf as W. pose proof stocked_facts as F. revert W F. generalize stocked as h. intros h W (Hv & He & C1 & O1 & P1 & C2 & O2 & P2 & Hf). exists h, new_nodes, [6%N; 9%N], [5; 6; 7; 8; 9]%N. split; [exact W|]. split; [exact (proj1 (validate_accepts no_types simple_ops h W) Hv)|].
  split; [repeat (constructor; [cbn; intuition discriminate|]); constructor|]. split; [intros y Hy Hn; apply not_true_iff_false in Hf; apply Hf, existsb_exists; exists y; split; [exact Hy|]; apply memN_iff, Hn|]. split.
  - exists 6%N, 9%N, 83%N. rewrite He, O1. repeat split; try assumption; try discriminate.
  - exists 5%N, 9%N, 83%N. rewrite He, O2. repeat split; try assumption; try discriminate.
Qed.
Print Assumptions outline_blocks_refuted.
