(** Theorems about which basic blocks are merged. *)
From Coq Require Import List Bool NArith Arith Lia.
From Verif Require Import TypesModel GraphModel GraphSpec GraphProofs GraphProps OpModel DeadModel DeadProps InlineModel ReplaceModel ValidModel ValidSpec ValidProps NormModel NormProps MergeModel MergeSpec OutlineWorks.
Import ListNotations.
Local Notation wf := GraphSpec.wf.
Open Scope nat_scope.

Lemma first_two (s : N) l : memN s (firstn 2 l) = false <-> forall a b, l = a ++ s :: b -> 2 <= length a.
Proof.
  rewrite memN_false. split.
  - intros H a b ->. destruct a as [|x [|y a]]; cbn; [exfalso; apply H; now left|exfalso; apply H; cbn; tauto|lia].
  - intros H A. destruct l as [|x [|y l]]; cbn in A.
    + exact A.
    + destruct A as [->|[]]. specialize (H [] [] eq_refl). cbn in H. lia.
    + destruct A as [->|[->|[]]]; [specialize (H [] _ eq_refl)|specialize (H [x] _ eq_refl)]; cbn in H; lia.
Qed.
Lemma filter_nil {A} (f : A -> bool) l : filter f l = [] -> forall y, In y l -> f y = false.
Proof. intros E y Hy. apply not_true_is_false. intros T. assert (In y (filter f l)) by (apply filter_In; auto). rewrite E in H. destruct H. Qed.
Lemma filter_pick {A} (f : A -> bool) l a : filter f l = [a] -> exists b c, l = b ++ a :: c /\ f a = true /\ forall y, In y (b ++ c) -> f y = false.
Proof.
  induction l as [|x l IH]; intros E; [discriminate|]. cbn in E. destruct (f x) eqn:F.
  - injection E as -> E. exists [], l. split; [reflexivity|]. split; [exact F|]. exact (filter_nil f l E).
  - destruct (IH E) as (b & c & -> & Fa & H). exists (x :: b), c. split; [reflexivity|]. split; [exact Fa|]. intros y [<-|Hy]; [exact F|]. apply H, Hy.
Qed.
Lemma filter_rest {A} (f : A -> bool) l : (forall y, In y l -> f y = false) -> filter f l = [].
Proof. induction l as [|x l IH]; intros H; [reflexivity|]. cbn. rewrite (H x (or_introl eq_refl)). apply IH. intros y Hy. apply H. now right. Qed.

Lemma filter_single {A} (f : A -> bool) b a c : f a = true -> length (filter f (b ++ a :: c)) = 1 -> forall y, In y (b ++ c) -> f y = false.
Proof.
  intros Fa L y Hy. rewrite filter_app, app_length in L. cbn [filter] in L. rewrite Fa in L. cbn [length] in L. apply in_app_or in Hy as [Hy|Hy].
  - apply (filter_nil f b); [apply length_zero_iff_nil; lia|exact Hy].
  - apply (filter_nil f c); [apply length_zero_iff_nil; lia|exact Hy].
Qed.

Definition candidate {M} (h : hugr op M) (n s : N) : Prop := output_neighbours h n = [s] /\ Nat.eqb (length (input_neighbours h s)) 1 && negb (memN s (firstn 2 (h_kids h (h_entry h)))) = true.
Lemma candidate_iff {M} (h : hugr op M) n s : candidate h n s <-> mergeable h n s.
Proof.
  unfold candidate, mergeable. rewrite andb_true_iff, Nat.eqb_eq, negb_true_iff, first_two. unfold output_neighbours, input_neighbours. rewrite map_length. split.
  - intros (O & I & K). split; [|exact K]. destruct (filter (fun l => N.eqb (fst (fst l)) n) (h_links h)) as [|[[n2 i] [s2 j]] [|? ?]] eqn:Fo; try discriminate. cbn in O. injection O as ->. apply filter_pick in Fo as (b & c & Lk & Fa & Fo). cbn in Fa. apply N.eqb_eq in Fa. subst n2.
    exists i, j, b, c. split; [exact Lk|]. intros l Hl. split; [apply N.eqb_neq, Fo, Hl|]. rewrite Lk in I. apply N.eqb_neq. refine (filter_single (fun l : link => N.eqb (fst (snd l)) s) b _ c _ I l Hl). cbn. apply N.eqb_refl.
  - intros ((i & j & b & c & Lk & H) & K). split; [|split; [|exact K]]; rewrite Lk, filter_app; cbn [filter fst snd]; rewrite N.eqb_refl.
    + rewrite (filter_rest _ b), (filter_rest _ c); [reflexivity| |]; intros y Hy; apply N.eqb_neq; apply H; apply in_or_app; auto.
    + rewrite (filter_rest _ b), (filter_rest _ c); [reflexivity| |]; intros y Hy; apply N.eqb_neq; apply H; apply in_or_app; auto.
Qed.

Lemma loop_merges {M} merge : forall fuel (h h' : hugr op M) wl k m, merge_loop merge fuel h wl m = Some (h', k) -> exists j, k = m + j /\ merges merge h j h'.
Proof.
  induction fuel as [|fuel IH]; intros h h' wl k m E; [discriminate|]. cbn [merge_loop] in E. destruct (rev wl) as [|n rest].
  - injection E as <- <-. exists 0. split; [lia|constructor].
  - destruct (output_neighbours h n) as [|s [|? ?]] eqn:O; try exact (IH _ _ _ _ _ E). destruct (_ && _) eqn:C; [|exact (IH _ _ _ _ _ E)]. destruct (merge h n s) as [[h1 b]|] eqn:Em; [|discriminate]. cbn [opt_bind] in E.
    apply IH in E as (j & -> & R). exists (S j). split; [lia|]. apply (merges_one merge h h1 h' n s b j); [apply candidate_iff; split; assumption|exact Em|exact R].
Qed.

(** Only blocks that are joined by the only edge out of the one and into the other are merged, never into the entry or the exit block, and the
    number of them is reported. *)
Theorem merge_only_single : forall {M} merge (h h' : hugr op M) k, merge_basic_blocks merge h = Some (h', k) -> merges merge h k h'.
Proof. intros M merge h h' k E. apply loop_merges in E as (j & -> & R). exact R. Qed.
Print Assumptions merge_only_single.

Lemma loop_idle {M} merge (h : hugr op M) m : forall fuel wl, (forall n s, In n wl -> ~ mergeable h n s) -> length wl < fuel -> merge_loop merge fuel h wl m = Some (h, m).
Proof.
  induction fuel as [|fuel IH]; intros wl H L; [lia|]. cbn [merge_loop]. destruct (rev wl) as [|n rest] eqn:R; [reflexivity|].
  assert (Ew : wl = rev rest ++ [n]) by (rewrite <- (rev_involutive wl), R; reflexivity). assert (G : merge_loop merge fuel h (rev rest) m = Some (h, m)).
  { apply IH; [|rewrite Ew, app_length in L; cbn in L; lia]. intros a s Ha. apply H. rewrite Ew. apply in_or_app. now left. }
  destruct (output_neighbours h n) as [|s [|? ?]] eqn:O; try exact G. destruct (_ && _) eqn:C; [|exact G]. exfalso. apply (H n s); [rewrite Ew; apply in_or_app; right; now left|]. apply candidate_iff. split; assumption.
Qed.

(** If no two blocks can be merged, the graph stays as it is. *)
Theorem merge_idle : forall {M} merge (h : hugr op M), wf h -> (forall n s, In n (h_kids h (h_entry h)) -> ~ mergeable h n s) -> merge_basic_blocks merge h = Some (h, 0).
Proof.
  intros M merge h W H. apply loop_idle; [exact H|]. assert (length (h_kids h (h_entry h)) <= length (h_nodes h)); [|lia]. apply NoDup_incl_length; [apply (wf_kids_once h W)|]. intros y Hy. apply (wf_kids h W) in Hy. apply (wf_parent_live h W) in Hy. tauto.
Qed.
Print Assumptions merge_idle.

(** If two blocks can be merged, some are, or there is a panic. *)
Theorem merge_happens : forall {M} merge (h h' : hugr op M) k n s, In n (h_kids h (h_entry h)) -> mergeable h n s -> merge_basic_blocks merge h = Some (h', k) -> 1 <= k.
Proof.
  intros M merge h h' k n s Hn Mg. unfold merge_basic_blocks. generalize (S (2 * length (h_nodes h))) as fuel. assert (G : forall fuel wl, In n wl -> merge_loop merge fuel h wl 0 = Some (h', k) -> 1 <= k).
  { induction fuel as [|fuel IH]; intros wl Hw E; [discriminate|]. cbn [merge_loop] in E. destruct (rev wl) as [|a rest] eqn:R; [apply in_rev in Hw; rewrite R in Hw; destruct Hw|]. apply in_rev in Hw. rewrite R in Hw.
    assert (Step : forall m s2, candidate h m s2 -> match merge h m s2 with Some (h1, b) => merge_loop merge fuel h1 (rev rest ++ [b]) 1 | None => None end = Some (h', k) -> 1 <= k).
    { intros m s2 _ X. destruct (merge h m s2) as [[h1 b]|]; [|discriminate]. apply loop_merges in X as (j & -> & _). lia. }
    destruct Hw as [->|Hw].
    - apply candidate_iff in Mg as Cd. destruct Cd as [O C]. rewrite O, C in E. apply (Step n s); [split; assumption|]. destruct (merge h n s) as [[h1 b]|]; exact E.
    - apply (in_rev rest) in Hw. destruct (output_neighbours h a) as [|s2 [|? ?]] eqn:O; try exact (IH _ Hw E). destruct (_ && _) eqn:C; [|exact (IH _ Hw E)]. apply (Step a s2); [split; assumption|]. destruct (merge h a s2) as [[h1 b]|]; exact E. }
  intros fuel. apply G, Hn.
Qed.
Print Assumptions merge_happens.

(** In a valid HUGR a basic block can only be merged with a basic block of the same graph; if it is another one, the first checks pass. *)
Theorem merge_blocks_only : forall {M} env defs build (h : hugr op M) g n s ins oo rows, wf h -> valid env defs h -> h_ops h (h_entry h) = OCfg g -> h_parent h n = Some (h_entry h) -> h_ops h n = OBlock ins oo rows -> mergeable h n s ->
  h_parent h s = Some (h_entry h) /\ (exists ins2 oo2 rows2, h_ops h s = OBlock ins2 oo2 rows2) /\ (n <> s -> merge_blocks build h n s = build h n s).
Proof.
  intros M env defs build h g n s ins oo rows W V Og Pn On ((i & j & b & c & Lk & _) & K). assert (Hl : In ((n, i), (s, j)) (h_links h)) by (rewrite Lk; apply in_or_app; right; now left).
  destruct (control_edge env defs h n i s j ins oo rows W V On Hl) as (_ & Ps & (r & Br) & _). rewrite Pn in Ps. split; [exact Ps|]. assert (B : exists ins2 oo2 rows2, h_ops h s = OBlock ins2 oo2 rows2).
  { unfold block_input in Br. destruct (h_ops h s) eqn:Os; try discriminate; [eauto|exfalso]. destruct g as [gi go]. destruct (v_cfg _ _ _ V (h_entry h) (wf_entry h W) gi go Og) as ((x & y & rest & Ek & (xo & xr & Ox) & _ & Rest) & _).
    apply (wf_kids h W) in Ps. rewrite Ek in Ps. destruct Ps as [->|[->|Ps]].
    - congruence.
    - specialize (K [x] rest Ek). cbn in K. lia.
    - apply (Rest s Ps). rewrite Os. exact Logic.I. }
  split; [exact B|]. destruct B as (ins2 & oo2 & rows2 & Os). intros Ne. unfold merge_blocks. rewrite On, Os, (proj2 (N.eqb_neq n s) Ne). reflexivity.
Qed.
Print Assumptions merge_blocks_only.

(** ** Examples *)
Definition top_acts : list (act (O := op) (M := N)) :=
  [AddChild 1%N 0%N unit_fn; AddChild 2%N 1%N (OInput []); AddChild 3%N 1%N (OOutput []); AddChild 4%N 1%N (OCfg ([], []))] ++ jump 5 4 ++ [AddChild 9%N 4%N (OExit [])] ++ jump 10 4 ++ jump 20 4.
Definition chain : hugr op N := graph_of (make (top_acts ++ [Connect 5%N 0 10%N 0; Connect 10%N 0 20%N 0; Connect 20%N 0 9%N 0; SetEntry 4%N])).
Definition ring : hugr op N := graph_of (make (top_acts ++ [Connect 5%N 0 9%N 0; Connect 10%N 0 5%N 0; Connect 20%N 0 20%N 0; SetEntry 4%N])).
Definition store : hugr op N := graph_of (make (top_acts ++ [Connect 5%N 0 9%N 0; Connect 10%N 0 9%N 0; Connect 20%N 0 9%N 0;
  AddChild 30%N 4%N (OConst 0 bit true); AddChild 31%N 20%N (OLoadConstant bit); Connect 30%N 0 31%N 0; SetEntry 4%N])).
(** Here the merged block keeps the edges of the second one. *)
Definition toy (h : hugr op N) (a b : N) : option (hugr op N * N) :=
  Some (set_links h (flat_map (fun l : link => if N.eqb (fst (fst l)) a then [] else if N.eqb (fst (fst l)) b then [((a, snd (fst l)), snd l)] else [l]) (h_links h)), a).
Lemma chain_wf : wf chain.
Proof. apply built_wf. vm_compute. tauto. Qed.
Example chain_merged : validate no_types simple_ops chain = VOk /\ option_map snd (merge_basic_blocks (merge_blocks toy) chain) = Some 2 /\
  option_map (fun x => output_neighbours (fst x) 5%N) (merge_basic_blocks (merge_blocks toy) chain) = Some [9%N] /\ option_map snd (merge_basic_blocks (merge_blocks toy) w1) = Some 0.
Proof. vm_compute. auto. Qed.
Example chain_blocks : option_map snd (merge_blocks toy chain 10%N 20%N) = Some 10%N /\ option_map snd (merge_blocks toy chain 20%N 9%N) = None.
Proof. vm_compute. auto. Qed.
Example chain_mergeable : mergeable chain 10%N 20%N /\ ~ mergeable chain 20%N 9%N.
Proof. rewrite <- !candidate_iff. unfold candidate. vm_compute. split; [auto|]. intros [_ H]. discriminate. Qed.

(** ** What fails *)
Lemma ring_wf : wf ring.
Proof. apply built_wf. vm_compute. tauto. Qed.
Lemma store_wf : wf store.
Proof. apply built_wf. vm_compute. tauto. Qed.
Lemma ring_facts : validate no_types simple_ops ring = VOk /\ h_ops ring (h_entry ring) = OCfg ([], []) /\ rev (h_kids ring (h_entry ring)) = [20; 10; 9; 5]%N /\ output_neighbours ring 20%N = [20%N] /\ input_neighbours ring 20%N = [20%N].
Proof. vm_compute. auto. Qed.
Lemma store_facts : validate no_types simple_ops store = VOk /\ h_ops store (h_entry store) = OCfg ([], []) /\ rev (h_kids store (h_entry store)) = [30; 20; 10; 9; 5]%N /\ output_neighbours store 30%N = [31%N] /\ input_neighbours store 31%N = [30%N] /\ h_ops store 30%N = OConst 0 bit true.
Proof. vm_compute. auto 6. Qed.

(** A block that is its own and only predecessor is merged with itself, and that panics. *)
Theorem merge_self_refuted : exists h : hugr op N, wf h /\ valid no_types simple_ops h /\ (exists s, h_ops h (h_entry h) = OCfg s) /\ (exists n, In n (h_kids h (h_entry h)) /\ mergeable h n n) /\
  forall build, merge_basic_blocks (merge_blocks build) h = None.
Proof.
  pose proof ring_wf as W. pose proof ring_facts as F. revert W F. generalize ring as h. intros h W (Hv & Hc & Hk & Ho & Hi). exists h. split; [exact W|]. split; [exact (proj1 (validate_accepts no_types simple_ops h W) Hv)|]. split; [eauto|].
  assert (Kids : h_kids h (h_entry h) = [5; 9; 10; 20]%N) by (rewrite <- (rev_involutive (h_kids h (h_entry h))), Hk; reflexivity). split.
  - exists 20%N. split; [rewrite Kids; cbn; tauto|]. apply candidate_iff. split; [exact Ho|]. rewrite Hi, Kids. reflexivity.
  - intros build. unfold merge_basic_blocks. cbn [merge_loop]. rewrite Hk, Ho, Hi, Kids. cbn [length Nat.eqb andb negb firstn memN existsb]. unfold merge_blocks. destruct (h_ops h 20%N); reflexivity.
Qed.
Print Assumptions merge_self_refuted.

(** A constant that is loaded once is taken for a block, and that panics. *)
Theorem merge_const_refuted : exists h : hugr op N, wf h /\ valid no_types simple_ops h /\ (exists s, h_ops h (h_entry h) = OCfg s) /\ (forall n, In n (h_nodes h) -> ~ mergeable h n n) /\
  forall build, merge_basic_blocks (merge_blocks build) h = None.
Proof.
  assert (Loops : forallb (fun l : link => negb (N.eqb (fst (fst l)) (fst (snd l)))) (h_links store) = true) by (vm_compute; reflexivity).
  pose proof store_wf as W. pose proof store_facts as F. revert Loops W F. generalize store as h. intros h Loops W (Hv & Hc & Hk & Ho & Hi & Oc). exists h. split; [exact W|]. split; [exact (proj1 (validate_accepts no_types simple_ops h W) Hv)|]. split; [eauto|].
  assert (Kids : h_kids h (h_entry h) = [5; 9; 10; 20; 30]%N) by (rewrite <- (rev_involutive (h_kids h (h_entry h))), Hk; reflexivity). split.
  - intros n _ ((i & j & b & c & Lk & _) & _). rewrite forallb_forall in Loops. specialize (Loops ((n, i), (n, j))). cbn [fst snd] in Loops. rewrite N.eqb_refl in Loops. discriminate Loops. rewrite Lk. apply in_or_app. right. now left.
  - intros build. unfold merge_basic_blocks. cbn [merge_loop]. rewrite Hk, Ho, Hi, Kids. cbn [length Nat.eqb andb negb firstn memN existsb]. unfold merge_blocks. rewrite Oc. reflexivity.
Qed.
Print Assumptions merge_const_refuted.
