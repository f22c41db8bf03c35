(** C31: forcing an order gives a valid schedule. *)
From Coq Require Import List Bool Arith Lia Relations ZArith.
From Verif Require Import BMap Graphs OrderModel OrderSpec OrderProofs.
Import ListNotations.

Section Statements.
  Context {K : Type} (cmp : K -> K -> comparison) (rank : nat -> K).
  Hypothesis TC : total_cmp cmp.

  (** The nodes come out greedily: always the least rank (largest index among equals) of those all
      of whose predecessors are out, until none is ready.  This holds with cycles too, and there is
      only one such sequence. *)
  Theorem order_walk_greedy : forall nodes edges,
    (forall a b, In (a, b) edges -> In a nodes /\ In b nodes) ->
    greedy_order cmp rank nodes edges (force_order_walk cmp rank nodes edges) /\
    forall l, greedy_order cmp rank nodes edges l -> l = force_order_walk cmp rank nodes edges.
  Proof.
    intros nodes edges C. pose proof (force_order_walk_greedy cmp rank TC nodes edges C) as G.
    split; [exact G|]. intros l GL. now apply (greedy_unique cmp rank TC nodes edges).
  Qed.

  (** Without cycles: every node exactly once, after all its predecessors. *)
  Theorem order_walk_schedule : forall nodes edges,
    (forall a b, In (a, b) edges -> In a nodes /\ In b nodes) -> acyclic (edge_rel edges) ->
    let l := force_order_walk cmp rank nodes edges in
    NoDup l /\ (forall n, In n l <-> In n nodes) /\
    (forall a b, In (a, b) edges -> before l a b).
  Proof.
    intros nodes edges C AC l. pose proof (force_order_walk_greedy cmp rank TC nodes edges C) as G.
    fold l in G. split; [now apply (greedy_nodup cmp rank nodes edges)|]. split.
    - intros n. split.
      + now apply (greedy_sub cmp rank nodes edges).
      + now apply (greedy_complete cmp rank nodes edges C).
    - intros a b E. apply (greedy_preds cmp rank nodes edges); auto.
      apply (greedy_complete cmp rank nodes edges C); auto. now apply C in E.
  Qed.

  (** A lower rank comes later only because of something it depends on. *)
  Theorem order_walk_inversion : forall nodes edges,
    (forall a b, In (a, b) edges -> In a nodes /\ In b nodes) -> acyclic (edge_rel edges) ->
    forall a b, before (force_order_walk cmp rank nodes edges) b a ->
    cmp (rank a) (rank b) = Lt ->
    exists m, path (edge_rel edges) m a /\ cmp (rank m) (rank b) <> Lt /\
      (m = b \/ before (force_order_walk cmp rank nodes edges) b m).
  Proof.
    intros nodes edges C AC a b B L.
    destruct (greedy_inversion cmp rank TC nodes edges C _ a b AC
                (force_order_walk_greedy cmp rank TC nodes edges C) B) as (m & P & F & D).
    - now left.
    - intros ->. rewrite (cmp_refl cmp TC) in L. discriminate.
    - exists m. split; [exact P|]. split; [|exact D]. rewrite (cmp_opp _ TC (rank b) (rank m)).
      destruct F as [F|[F _]]; rewrite F; discriminate.
  Qed.

  Lemma inner_closed r : good_region r -> forall a b, In (a, b) (inner_edges r) ->
    In a (r_inner r) /\ In b (r_inner r).
  Proof.
    intros G a b I. unfold inner_edges in I. apply filter_In in I. destruct I as [I F].
    cbn in F. apply negb_true_iff in F. rewrite !orb_false_iff, !Nat.eqb_neq in F.
    destruct (gr_closed r G a b I) as [[A|A] [B|B]]; tauto.
  Qed.

  Lemma inner_acyclic r : good_region r -> acyclic (edge_rel (inner_edges r)).
  Proof.
    intros G x P. apply (gr_acyclic r G x). eapply path_mono; [|exact P].
    intros a b H. unfold edge_rel, inner_edges in *. apply filter_In in H. tauto.
  Qed.

  (** It stops with the assertion only if an inner node has an order port on one side only. *)
  Theorem force_order_region_panics_iff : forall r, good_region r ->
    (force_order_region cmp rank r = None <->
     exists x, In x (r_inner r) /\ r_oin r x <> r_oout r x).
  Proof.
    intros r G. unfold force_order_region.
    destruct (order_walk_schedule (r_inner r) (inner_edges r) (inner_closed r G) (inner_acyclic r G))
      as (_ & M & _).
    set (l := force_order_walk _ _ _ _) in *.
    transitivity (order_nodes r l = None).
    - destruct (order_nodes r l); split; congruence.
    - rewrite order_nodes_none. split; intros (x & I & NE); exists x; (split; [|exact NE]); now apply M.
  Qed.

  (** The schedule of a whole region. *)
  Definition schedule (r : region) : list nat :=
    r_in r :: force_order_walk cmp rank (r_inner r) (inner_edges r) ++ [r_out r].

  Lemma schedule_nodup r : good_region r -> NoDup (schedule r).
  Proof.
    intros G. unfold schedule.
    destruct (order_walk_schedule (r_inner r) (inner_edges r) (inner_closed r G) (inner_acyclic r G))
      as (ND & M & _).
    set (l := force_order_walk _ _ _ _) in *. pose proof (gr_nodup r G) as H. inversion H as [|? ? N1 N2]; subst.
    constructor.
    - intros I. apply N1. rewrite in_app_iff in *. destruct I as [I|I]; [left; now apply M|now right].
    - apply NoDup_remove in N2. rewrite app_nil_r in N2. destruct N2 as [_ N2].
      apply NoDup_rev in ND. rewrite <- (rev_involutive (l ++ [r_out r])). apply NoDup_rev.
      rewrite rev_app_distr. cbn. constructor; [|exact ND]. rewrite <- in_rev. intros I. apply N2. now apply M.
  Qed.

  Lemma schedule_old r : good_region r -> forall a b, In (a, b) (r_edges r) -> before (schedule r) a b.
  Proof.
    intros G a b I. unfold schedule.
    destruct (order_walk_schedule (r_inner r) (inner_edges r) (inner_closed r G) (inner_acyclic r G))
      as (ND & M & P).
    set (l := force_order_walk _ _ _ _) in *.
    destruct (gr_closed r G a b I) as [[A|A] [B|B]].
    - subst. apply before_head. apply in_app_iff. right. now left.
    - subst. apply before_head. apply in_app_iff. left. now apply M.
    - subst. apply before_cons, before_app; [now apply M|now left].
    - apply before_cons, before_app_l, P. unfold inner_edges. apply filter_In. split; [exact I|].
      cbn. apply negb_true_iff. rewrite !orb_false_iff, !Nat.eqb_neq.
      pose proof (gr_nodup r G) as H. inversion H as [|? ? N1 N2]; subst.
      apply NoDup_remove in N2. rewrite app_nil_r in N2. destruct N2 as [_ N2].
      repeat split; intros ->; try (apply N2; assumption); apply N1; apply in_app_iff; now left.
  Qed.

  (** What the pass does to a region: the old edges stay in place; the rest is new, at most one
      fewer than there are children; each new edge goes from an order-capable child (or [Input]) to
      one (or [Output]); the result is acyclic and runs along the schedule; of any two
      order-capable children (with [Input] and [Output]) the earlier reaches the later. *)
  Theorem force_order_region_ordered : forall r es, good_region r ->
    force_order_region cmp rank r = Some es ->
    let cap x := x = r_in r \/ x = r_out r \/ (In x (r_inner r) /\ r_oin r x = true /\ r_oout r x = true) in
    (exists added, es = r_edges r ++ added /\ length added <= S (length (r_inner r)) /\
       forall a b, In (a, b) added -> cap a /\ cap b) /\
    acyclic (edge_rel es) /\
    (forall a b, In (a, b) es -> before (schedule r) a b) /\
    (forall a b, cap a -> cap b -> before (schedule r) a b -> path (edge_rel es) a b).
  Proof.
    intros r es G E cap. unfold force_order_region in E.
    pose proof (schedule_nodup r G) as SND. pose proof (schedule_old r G) as SOLD.
    unfold schedule in *.
    destruct (order_walk_schedule (r_inner r) (inner_edges r) (inner_closed r G) (inner_acyclic r G))
      as (ND & M & _).
    set (l := force_order_walk _ _ _ _) in *.
    destruct (order_nodes r l) as [l'|] eqn:ON; [|discriminate]. injection E as <-.
    apply order_nodes_some in ON. destruct ON as [EL BOTH].
    set (w := r_in r :: l' ++ [r_out r]).
    set (es := connect_windows w (r_edges r)).
    assert (CAPW : forall x, In x w -> cap x).
    { intros x [<-|I]; [now left|]. apply in_app_iff in I. destruct I as [I|[<-|[]]].
      - right. right. rewrite EL in I. apply filter_In in I. destruct I as [I F]. apply andb_true_iff in F.
        split; [now apply M|tauto].
      - right. now left. }
    assert (SUB : forall a b, before w a b -> before (r_in r :: l ++ [r_out r]) a b).
    { intros a b B. apply before_cons_inv in B. destruct B as [[-> I]|B].
      - apply before_head. apply in_app_iff in I. apply in_app_iff. destruct I as [I|I]; [left|now right].
        rewrite EL in I. apply filter_In in I. tauto.
      - apply before_cons.
        (* l' ++ [o] is a sublist of l ++ [o] *)
        clear - B EL. rewrite EL in B. clear EL. induction l as [|x l IH]; cbn in *; [exact B|].
        destruct (r_oin r x && r_oout r x).
        + cbn in B. apply before_cons_inv in B. destruct B as [[-> I]|B].
          * apply before_head. apply in_app_iff in I. apply in_app_iff. destruct I as [I|I]; [left|now right].
            apply filter_In in I. tauto.
          * apply before_cons. auto.
        + apply before_cons. auto. }
    assert (FWD : forall a b, In (a, b) es -> before (r_in r :: l ++ [r_out r]) a b).
    { intros a b I. apply connect_spec in I. destruct I as [I|(l1 & l2 & EW)].
      - now apply SOLD.
      - apply SUB. exists l1, [], l2. exact EW. }
    split; [|split; [|split]].
    - destruct (connect_prefix w (r_edges r)) as [added EA]. exists added. split; [exact EA|]. split.
      + pose proof (connect_count w (r_edges r)) as C. rewrite EA, app_length in C.
        assert (LW : length w = S (S (length l'))) by (unfold w; cbn; rewrite app_length; cbn; lia).
        assert (LL : length l' <= length l) by (rewrite EL; apply filter_le).
        assert (LI : length l <= length (r_inner r)).
        { apply NoDup_incl_length; [exact ND|]. intros x I. now apply M. }
        lia.
      + (* an added edge joins neighbours of [w] *)
        clear FWD. assert (ADD : forall ws es0 added0, (forall x, In x ws -> cap x) ->
            connect_windows ws es0 = es0 ++ added0 -> forall a b, In (a, b) added0 -> cap a /\ cap b).
        { clear - cap. induction ws as [|x ws IH]; intros es0 added0 CW EQ a b I.
          - cbn in EQ. rewrite <- (app_nil_r es0) in EQ at 1. apply app_inv_head in EQ. subst. destruct I.
          - destruct ws as [|y ws].
            + cbn in EQ. rewrite <- (app_nil_r es0) in EQ at 1. apply app_inv_head in EQ. subst. destruct I.
            + change (connect_windows (x :: y :: ws) es0)
                with (connect_windows (y :: ws) (if memb y (succs es0 x) then es0 else es0 ++ [(x, y)])) in EQ.
              assert (CW' : forall z, In z (y :: ws) -> cap z) by (intros z Z; apply CW; now right).
              destruct (memb y (succs es0 x)); [eapply IH; eauto|].
              destruct (connect_prefix (y :: ws) (es0 ++ [(x, y)])) as [ad EA].
              pose proof EA as EA0. rewrite EA, <- app_assoc in EQ. apply app_inv_head in EQ. subst added0.
              destruct I as [[= <- <-]|I].
              * split; apply CW; [now left|right; now left].
              * eapply IH; eauto. }
        apply (ADD w (r_edges r) added CAPW EA).
    - apply (before_acyclic Nat.eq_dec (r_in r :: l ++ [r_out r])); [exact SND|]. exact FWD.
    - exact FWD.
    - intros a b CA CB B.
      assert (INW : forall x, cap x -> In x w).
      { intros x [->|[->|(I & O1 & O2)]]; unfold w.
        - now left.
        - right. apply in_app_iff. right. now left.
        - right. apply in_app_iff. left. rewrite EL. apply filter_In. split; [now apply M|].
          now rewrite O1, O2. }
      apply (chain_path w).
      + intros l1 c d l2 EW. apply (proj2 (connect_spec w (r_edges r) c d)). right. eauto.
      + destruct (before_total Nat.eq_dec w a b) as [BW|BW]; auto.
        * intros ->. eapply (before_asym _ b b SND); exact B.
        * exfalso. apply SUB in BW. eapply (before_asym _ a b SND); eassumption.
  Qed.
End Statements.

Print Assumptions order_walk_greedy.
Print Assumptions order_walk_schedule.
Print Assumptions order_walk_inversion.
Print Assumptions force_order_region_panics_iff.
Print Assumptions force_order_region_ordered.

(** The documentation (force_order.rs:32-33) promises more: a node of lower rank comes first unless
    it is reached from the other.  Here node 1 (rank 0) waits for node 2 (rank 5), so node 3
    (rank 1) comes before it although there is no path from 3 to 1. *)
Definition doc_rank (n : nat) : nat := match n with 1 => 0 | 2 => 5 | _ => 1 end.

Lemma nat_total_cmp : total_cmp Nat.compare.
Proof.
  split.
  - intros a b. apply Nat.compare_eq_iff.
  - intros a b. apply Nat.compare_antisym.
  - intros a b c. rewrite !Nat.compare_lt_iff. lia.
Qed.

Theorem order_rank_documented_refuted :
  exists nodes edges n1 n2,
    (forall a b, In (a, b) edges -> In a nodes /\ In b nodes) /\ acyclic (edge_rel edges) /\
    doc_rank n1 < doc_rank n2 /\ ~ path (edge_rel edges) n2 n1 /\
    before (force_order_walk Nat.compare doc_rank nodes edges) n2 n1.
Proof.
  exists [1; 2; 3], [(2, 1)], 1, 3. split; [|split; [|split; [|split]]].
  - intros a b [[= <- <-]|[]]. cbn. auto.
  - apply (numbering_acyclic _ (fun n => 3 - n)). intros a b [[= <- <-]|[]]. auto.
  - cbn. lia.
  - intros P. assert (H : forall a b, path (edge_rel [(2, 1)]) a b -> a = 2).
    { intros a b T. induction T as [a b [[= <- <-]|[]]|]; auto. }
    apply H in P. discriminate.
  - exists [], [2], []. reflexivity.
Qed.
Print Assumptions order_rank_documented_refuted.

(** ** Examples *)
(** Input 0, output 9; 1 -> 2, 3 -> 2, 4 has no order ports; ranks reverse the indices. *)
Definition ex_region : region :=
  {| r_in := 0; r_out := 9; r_inner := [1; 2; 3; 4];
     r_edges := [(0, 1); (1, 2); (3, 2); (2, 9); (0, 4); (4, 9)];
     r_oin := fun n => negb (Nat.eqb n 4); r_oout := fun n => negb (Nat.eqb n 4) |}.

Example ex_region_order :
  force_order_walk Nat.compare (fun n => 10 - n) (r_inner ex_region) (inner_edges ex_region) = [4; 3; 1; 2] /\
  force_order_region Nat.compare (fun n => 10 - n) ex_region =
    Some (r_edges ex_region ++ [(0, 3); (3, 1)]) /\
  force_order_region Nat.compare (fun n => n) ex_region = Some (r_edges ex_region ++ [(1, 3)]).
Proof. repeat split. Qed.

Example ex_region_good : good_region ex_region.
Proof.
  split.
  - cbn. repeat (constructor; [cbn; intuition discriminate|]). constructor.
  - cbn. intros a b H. repeat destruct H as [[= <- <-]|H]; try tauto; cbn; auto 10.
  - apply (numbering_acyclic _ (fun n => match n with 2 => 5 | _ => n end)).
    intros a b H. cbn in H. repeat destruct H as [[= <- <-]|H]; try destruct H; auto with arith; lia.
Qed.

(** With a cycle the nodes on it (and after it) are left out. *)
Example ex_cycle : force_order_walk Nat.compare (fun n => n) [1; 2; 3; 4] [(1, 2); (2, 1); (2, 3)] = [4].
Proof. reflexivity. Qed.
