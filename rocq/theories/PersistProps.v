(** C36, C37: commit histories. *)
From Coq Require Import List Bool Arith Lia.
From Verif Require Import PersistModel PersistSpec PersistProofs PersistProofs2.
Import ListNotations.

(** ** C37: collecting ancestors *)

(** Each commit reached is listed exactly once, and nothing else is. *)
Theorem ancestors_complete : forall w starts cont,
  made w -> (forall s, In s starts -> s < length w) ->
  exists l, get_ancestors_while w starts cont = Some l /\ NoDup l /\
    forall a, In a l <-> exists s, In s starts /\ reached w cont s a.
Proof.
  intros w starts cont M L. pose proof (made_wfw w M) as W.
  destruct (ancestors_spec w (wf_lt w W) cont starts L) as [l [s [E A]]].
  exists l. split; [assumption|]. split; [apply A|]. intros a. split; [apply A|].
  intros [c [Hc R]]. apply (ai_starts _ _ _ _ _ A) in Hc. revert R Hc.
  apply (closed_reached w cont (fun z => In z l)). apply A.
Qed.

(** Without a stopping condition these are the starting commits and all above them. *)
Theorem ancestors_all : forall w starts,
  made w -> (forall s, In s starts -> s < length w) ->
  exists l, get_ancestors_while w starts (fun _ => true) = Some l /\ NoDup l /\
    forall a, In a l <-> exists s, In s starts /\ ancestor w s a.
Proof.
  intros w starts M L. destruct (gaw_all w (made_wfw w M) starts L) as [l [E [N [A _]]]].
  exists l. auto.
Qed.

(** The documented order holds when every parent is exactly one level up, as when all paths
    between two commits have the same length.  Missing: other commit graphs, where it fails. *)
Theorem ancestors_order_partial : forall w starts (rank : nat -> nat) l,
  made w -> (forall s, In s starts -> s < length w) ->
  (forall c p, In p (parents w c) -> rank p = S (rank c)) ->
  get_ancestors_while w starts (fun _ => true) = Some l -> descendants_first w l.
Proof.
  intros w starts rank l M L RK E l1 a l2 c El Hc H. pose proof (made_wfw w M) as W.
  assert (ordered w (fun _ => true) l) as O.
  { eapply (ancestors_ordered_aux w (wf_lt w W) (fun _ => true) rank RK starts [] [] []); eauto.
    - constructor; cbn; try tauto. constructor.
    - intros k1 y k2 z Ek. now destruct k1. }
  apply (O l1 a l2 c El Hc). now apply reached_true.
Qed.

(** base 0; X = 1 and A = 2 both replace node 0 of the base; D = 3 replaces node 5 of the base and
    node 1 of A. *)
Definition diamond : world :=
  [Commit 0 true [] []; Commit 0 false [0] [(0, 0)]; Commit 0 false [0] [(0, 0)];
   Commit 0 false [0; 2] [(0, 5); (2, 1)]].

Lemma diamond_made : made diamond.
Proof.
  assert (made [Commit 0 true [] []]) as M0.
  { eapply made_base with (s := 0); [constructor|reflexivity]. }
  assert (made [Commit 0 true [] []; Commit 0 false [0] [(0, 0)]]) as M1.
  { eapply made_commit with (s := 0) (del := [(0, 0)]) (extra := []);
      [exact M0|repeat constructor; cbn; tauto|intros x []|reflexivity]. }
  assert (made [Commit 0 true [] []; Commit 0 false [0] [(0, 0)]; Commit 0 false [0] [(0, 0)]]) as M2.
  { eapply made_commit with (s := 0) (del := [(0, 0)]) (extra := []);
      [exact M1|repeat constructor; cbn; tauto|intros x []|reflexivity]. }
  eapply made_commit with (s := 0) (del := [(0, 5); (2, 1)]) (extra := []);
    [exact M2| |intros x []|reflexivity].
  repeat constructor; cbn; intuition congruence.
Qed.

(** The documented order ("reverse topological") fails in general: the walk is breadth first. *)
Theorem ancestors_order_refuted : exists w starts l,
  made w /\ (forall s, In s starts -> s < length w) /\
  get_ancestors_while w starts (fun _ => true) = Some l /\ ~ descendants_first w l.
Proof.
  exists diamond, [3], [3; 0; 2]. split; [exact diamond_made|].
  split; [intros s [<-|[]]; cbn; lia|]. split; [reflexivity|].
  intros D. apply (D [3] 0 [2] 2); [reflexivity|now left|].
  apply anc_up with 0; [now left|constructor].
Qed.

(** ** C36: histories *)

Section Statements.
  Context (insert : world -> list nat -> nat -> list nat) (IN : inserts insert).

  (** After any sequence of successful calls: no node is deleted by two commits, every ancestor is
      present, there is exactly one base, and the remembered children are right. *)
  Theorem history_invariants : forall w p, history insert w p ->
    compatible w (p_graph p) /\ ancestors_present w (p_graph p) /\
    In (p_base p) (p_graph p) /\ one_base w (p_graph p) (p_base p) /\ cache_right w p.
  Proof.
    intros w p H. apply (history_good insert IN) in H as [_ [_ [C [A [B [O [_ K]]]]]]]. auto.
  Qed.

  (** [try_new] accepts a set of commits exactly when it is not empty, lies in one state space and
      has compatible ancestors, and then holds exactly the ancestors. *)
  Theorem try_new_accepts_iff : forall w cs,
    made w -> (forall c, In c cs -> c < length w) ->
    exists r, try_new insert w cs = Some r /\
    ((exists p, r = Ok p /\ forall a, In a (p_graph p) <-> ancestors_of w cs a) <->
     (cs <> [] /\ (forall c d, In c cs -> In d cs -> space_of w c = space_of w d) /\
      forall c d x, ancestors_of w cs c -> ancestors_of w cs d ->
                    In x (deleted w c) -> In x (deleted w d) -> c = d)).
  Proof.
    intros w cs M L. pose proof (made_wfw w M) as W.
    destruct (try_new_spec insert IN w W cs L) as [r [E S]]. exists r. split; [assumption|]. split.
    - intros [p [-> A]]. destruct S as [_ [[_ [C [_ [_ [_ [SP _]]]]]] N]]. split; [assumption|]. split.
      + intros c d Hc Hd. transitivity (p_space p); [|symmetry]; apply SP, A;
          [exists c|exists d]; (split; [assumption|constructor]).
      + intros c d x Hc Hd. apply A in Hc, Hd. now apply C.
    - intros [N [SP C]]. destruct r as [p|e].
      + exists p. split; [reflexivity|]. apply S.
      + exfalso. destruct S as [[S _]|[[c [d [Hc [Hd S]]]]|[c [d [x [Hc [Hd [Ne [Xc Xd]]]]]]]]].
        * contradiction.
        * apply S. auto.
        * apply Ne. eauto.
  Qed.

  (** [try_add_commits] succeeds exactly when the history together with the new commits and their
      ancestors is compatible, and all new ones are in its state space. *)
  Theorem try_add_accepts_iff : forall w p cs,
    history insert w p -> (forall c, In c cs -> c < length w) ->
    exists p' r, try_add_commits insert w p cs = Some (p', r) /\
    (r = Ok tt <->
     ((forall c, ancestors_of w cs c -> space_of w c = p_space p) /\
      forall c d x, In c (p_graph p) \/ ancestors_of w cs c ->
                    In d (p_graph p) \/ ancestors_of w cs d ->
                    In x (deleted w c) -> In x (deleted w d) -> c = d)) /\
    (r = Ok tt -> forall a, In a (p_graph p') <-> In a (p_graph p) \/ ancestors_of w cs a).
  Proof.
    intros w p cs H L. apply (history_good insert IN) in H as [W G].
    destruct (try_add_spec insert IN w W p G cs L) as [[p' r] [E S]]. exists p', r.
    split; [assumption|]. destruct r as [[]|e].
    - destruct S as [G' A]. split; [|auto]. split; [intros _|reflexivity].
      assert (p_space p' = p_space p) as Es.
      { destruct G as [_ [_ [_ [B [_ [SP _]]]]]]. destruct G' as [_ [_ [_ [_ [_ [SP' _]]]]]].
        rewrite <- (SP _ B). symmetry. apply SP', A. now left. }
      destruct G' as [_ [C [_ [_ [_ [SP _]]]]]]. split.
      + intros c Hc. rewrite <- Es. apply SP, A. now right.
      + intros c d x Hc Hd. apply A in Hc, Hd. now apply C.
    - split; [|discriminate]. split; [discriminate|]. intros [SP C]. exfalso.
      destruct S as [[c [Hc S]]|[c [d [x [N [Hc [Hd [Xc Xd]]]]]]]].
      + apply S. auto.
      + apply N. eauto.
  Qed.

  (** [try_add_replacement], for a replacement of nodes of commits in the history, succeeds exactly
      when it is not empty and no commit of the history deletes one of its nodes; it then adds one
      commit, and otherwise changes nothing. *)
  Theorem try_add_replacement_accepts_iff : forall w p del,
    history insert w p -> NoDup del -> (forall x, In x del -> In (fst x) (p_graph p)) ->
    exists w' p' r, try_add_replacement insert w p del = Some (w', p', r) /\
    ((exists c, r = Ok c) <->
     (del <> [] /\ forall d x, In d (p_graph p) -> In x del -> ~ In x (deleted w d))) /\
    match r with
    | Ok c => deleted w' c = del /\ ~ In c (p_graph p) /\
              forall a, In a (p_graph p') <-> In a (p_graph p) \/ a = c
    | Err _ => w' = w /\ forall a, In a (p_graph p') <-> In a (p_graph p)
    end.
  Proof.
    intros w p del H N O. apply (history_good insert IN) in H as [W G].
    destruct (try_add_replacement_spec insert IN w W p G del N O) as [w' [p' [r [E S]]]].
    exists w', p', r. split; [assumption|]. destruct r as [c|e].
    - destruct S as [-> [-> [_ [A [Ne F]]]]]. split; [split; eauto|]. split; [|split; [|assumption]].
      + unfold deleted. now rewrite nth_new.
      + intros Hc. destruct G as [GL _]; apply GL in Hc. lia.
    - destruct S as [_ [-> [A S]]]. split; [|auto]. split; [intros [c F]; discriminate|].
      intros [Ne F]. exfalso. destruct S as [[S _]|[o [n [d [_ [X [Hd Xd]]]]]]]; [contradiction|].
      apply (F d (o, n)); auto.
  Qed.

  (** [is_valid] accepts every history, and accepts nothing with a conflict. *)
  Theorem is_valid_accepts : forall w p, history insert w p -> snd (is_valid w p) = Ok tt.
  Proof.
    intros w p H. apply (history_good insert IN) in H as [W G]. unfold is_valid.
    apply valid_loop_spec; auto.
    - intros c. now rewrite uniq_nil_In.
    - right. rewrite uniq_nil_In. apply G.
  Qed.
  Theorem is_valid_sound : forall w p,
    made w -> cache_right w p -> ancestors_present w (p_graph p) ->
    snd (is_valid w p) = Ok tt -> compatible w (p_graph p) /\
    exists b, In b (p_graph p) /\ b = p_base p /\ one_base w (p_graph p) b.
  Proof.
    intros w p M K A H. pose proof (made_wfw w M) as W. unfold is_valid in H.
    destruct (valid_loop w p (uniq [] (p_graph p)) false) as [p' r] eqn:E. cbn in H. subst r.
    apply valid_loop_sound in E as [H1 [[H2|[b [Hb B]]] H3]]; [discriminate| |assumption].
    rewrite uniq_nil_In in Hb. split.
    - intros c d [o n] Hc Hd Xc Xd.
      pose proof (wf_del w W _ _ Xc) as Pc. pose proof (wf_del w W _ _ Xd) as Pd. cbn in Pc, Pd.
      apply (H3 o c d n); auto. rewrite uniq_nil_In. apply (A c); [assumption|].
      econstructor; [eassumption|constructor].
    - exists b. assert (b = p_base p) as Eb by (apply H1; [rewrite uniq_nil_In|]; assumption).
      split; [assumption|]. split; [assumption|]. intros c Hc. split.
      + intros Bc. rewrite Eb. apply H1; [rewrite uniq_nil_In|]; assumption.
      + intros ->. assumption.
  Qed.

  (** In a history the deleting commit of a node is unique and is the one that is found; a node
      exists exactly when its commit is there and no commit deletes it. *)
  Theorem deleting_commit_found : forall w p c n, history insert w p ->
    (forall d, find_deleting_commit w p c n = Some d <->
               In d (p_graph p) /\ In (c, n) (deleted w d)) /\
    (contains_node w p c n = true <->
     In c (p_graph p) /\ forall d, In d (p_graph p) -> ~ In (c, n) (deleted w d)).
  Proof.
    intros w p c n H. apply (history_good insert IN) in H as [W G].
    now apply find_deleting_spec.
  Qed.

  (** A rejected addition leaves a valid history when every parent is exactly one level up.
      Missing: other commit graphs, where it fails. *)
  Theorem rejected_add_stays_valid_partial : forall w p cs (rank : nat -> nat) p' r,
    history insert w p -> (forall c, In c cs -> c < length w) ->
    (forall c q, In q (parents w c) -> rank q = S (rank c)) ->
    try_add_commits insert w p cs = Some (p', r) ->
    compatible w (p_graph p') /\ ancestors_present w (p_graph p').
  Proof.
    intros w p cs rank p' r H L RK E. apply (history_good insert IN) in H as [W G].
    pose proof (try_add_stop insert IN w W p G cs rank p' r L RK E) as [_ [C [A _]]]. auto.
  Qed.

  (** In general a rejected addition can leave a history with two commits deleting one node,
      whatever the history graph does on insertion. *)
  Theorem rejected_add_stays_valid_refuted : exists w p cs p' e,
    history insert w p /\ (forall c, In c cs -> c < length w) /\
    try_add_commits insert w p cs = Some (p', Err e) /\ ~ compatible w (p_graph p').
  Proof.
    pose proof (made_wfw _ diamond_made) as W.
    assert (forall c, In c [1] -> c < length diamond) as L1 by (intros c [<-|[]]; cbn; lia).
    assert (forall c, In c [3] -> c < length diamond) as L3 by (intros c [<-|[]]; cbn; lia).
    destruct (try_new_spec insert IN diamond W [1] L1) as [r [E S]].
    assert (forall a, ancestors_of diamond [1] a <-> a = 0 \/ a = 1) as AN.
    { intros a. split.
      - intros [c [[<-|[]] H]]. inversion H as [|? q ? Hq Ha]; subst; [now right|].
        destruct Hq as [<-|[]]. inversion Ha as [|? q ? Hq Ha']; subst; [now left|]. destruct Hq.
      - intros [-> | ->]; exists 1; (split; [now left|]);
          [apply anc_up with 0; [now left|]|]; constructor. }
    destruct r as [p|e].
    2:{ exfalso. destruct S as [[S _]|[[c [d [[<-|[]] [[<-|[]] F]]]]|[c [d [x [Hc [Hd [Ne [Xc Xd]]]]]]]]];
          [discriminate|contradiction|].
        apply AN in Hc as [-> | ->], Hd as [-> | ->]; cbn in Xc, Xd; try contradiction; congruence. }
    destruct S as [A [G _]].
    assert (history insert diamond p) as H.
    { eapply h_new; [exact diamond_made|exact L1|exact E]. }
    assert (forall a, In a (p_graph p) <-> a = 0 \/ a = 1) as AG by (intro a; rewrite A; apply AN).
    assert (memb 0 (p_graph p) = true) as M0 by (apply memb_In, AG; lia).
    assert (memb 2 (p_graph p) = false) as M2 by (apply memb_nIn; rewrite AG; lia).
    assert (memb 3 (p_graph p) = false) as M3 by (apply memb_nIn; rewrite AG; lia).
    assert (get_ancestors_while diamond [3] (fun c => negb (memb c (p_graph p))) = Some [3; 0; 2]) as GA.
    { unfold get_ancestors_while. cbn [ancestors_from memb existsb length diamond walk].
      rewrite M3. cbn [negb]. change (uniq [3] (parents diamond 3)) with [0; 2]. cbn [app walk].
      rewrite M0. cbn [negb]. rewrite M2. cbn [negb].
      change (uniq [0; 2; 3] (parents diamond 2)) with (@nil nat). reflexivity. }
    destruct (try_add_spec insert IN diamond W p G [3] L3) as [[p' r] [EA SA]].
    assert (p_cache p = []) as EC.
    { clear - E. unfold try_new in E. destruct (get_ancestors_while _ _ _) as [[|c0 l]|]; try discriminate.
      destruct (new_loop insert _ _ _ _ _) as [g|]; try discriminate.
      destruct (filter _ _) as [|b [|]]; try discriminate. injection E as <-. reflexivity. }
    assert (p_space p = 0) as ES.
    { destruct G as [_ [_ [_ [B [_ [SP _]]]]]]. rewrite <- (SP _ B).
      apply AG in B as [-> | ->]; reflexivity. }
    assert (In 1 (p_graph p') /\ In 2 (p_graph p')) as [I1 I2].
    { revert EA. unfold try_add_commits. rewrite GA. cbn [rev app].
      cbn [add_loop]. rewrite ES. cbn [Nat.eqb negb space_of nth_error diamond c_space].
      unfold children_commits at 1. rewrite EC. cbn [assoc].
      assert (graph_children diamond (p_graph p) 2 = []) as ->.
      { destruct (graph_children diamond (p_graph p) 2) as [|d l] eqn:F; [reflexivity|].
        assert (In d (graph_children diamond (p_graph p) 2)) as Hd by (rewrite F; now left).
        apply graph_children_In in Hd as [Hd P]. apply AG in Hd as [-> | ->]; cbn in P.
        - destruct P.
        - destruct P as [P|[]]. discriminate. }
      change (find_conflicting_node diamond 2 (uniq [] ([] ++
        filter (fun d => memb 2 (parents diamond d)) [3; 0; 2]))) with (@None nat).
      cbn [p_graph p_base p_space p_cache].
      match goal with |- context [children_commits diamond ?q 0] => set (p1 := q) end.
      destruct (IN diamond (p_graph p) 2) as [X1 [X2 _]].
      assert (In 1 (p_graph p1) /\ In 2 (p_graph p1)) as [Y1 Y2].
      { split; [apply X2, AG; lia|exact X1]. }
      rewrite ES. cbn [Nat.eqb negb].
      assert (p_graph (fst (children_commits diamond p1 0)) = p_graph p1 /\
              p_cache (fst (children_commits diamond p1 0)) =
                (if assoc 0 (p_cache p1) then p_cache p1
                 else (0, graph_children diamond (p_graph p1) 0) :: p_cache p1)) as [Z1 _].
      { unfold children_commits. destruct (assoc 0 (p_cache p1)); auto. }
      destruct (children_commits diamond p1 0) as [p2 curr] eqn:CH. cbn [fst] in Z1.
      destruct (find_conflicting_node diamond 0 _) as [n|] eqn:F.
      - intros [= <- _]. rewrite Z1. auto.
      - exfalso.
        assert (In 1 curr /\ In 2 curr) as [C1 C2].
        { revert CH. unfold children_commits.
          assert (assoc 0 (p_cache p1) = None) as -> by reflexivity.
          intros [= _ <-]. split; apply graph_children_In; (split; [assumption|now left]). }
        assert (1 = 2); [|discriminate].
        apply (check_sound diamond 0 _ F 1 2 0); try (now left);
          rewrite uniq_nil_In; apply in_app_iff; now left. }
    assert (~ compatible diamond (p_graph p')) as NC.
    { intros C. assert (1 = 2); [|discriminate]. apply (C 1 2 (0, 0)); auto; now left. }
    destruct r as [u|e].
    - exfalso. apply NC. destruct SA as [[_ [C _]] _]. exact C.
    - exists diamond, p, [3], p', e. auto.
  Qed.

  (** A commit's own ancestors need not be compatible, although [from_commit] relies on it: a
      commit can be made whose history is refused. *)
  Theorem from_commit_valid_refuted : exists w c e,
    made w /\ c < length w /\ try_new insert w [c] = Some (Err e).
  Proof.
    set (w := [Commit 0 true [] []; Commit 0 false [0] [(0, 0)]; Commit 0 false [0] [(0, 0)];
               Commit 0 false [1; 2] [(2, 1)]]).
    assert (made w) as M.
    { assert (made [Commit 0 true [] []]) as M0.
      { eapply made_base with (s := 0); [constructor|reflexivity]. }
      assert (made [Commit 0 true [] []; Commit 0 false [0] [(0, 0)]]) as M1.
      { eapply made_commit with (s := 0) (del := [(0, 0)]) (extra := []);
          [exact M0|repeat constructor; cbn; tauto|intros x []|reflexivity]. }
      assert (made [Commit 0 true [] []; Commit 0 false [0] [(0, 0)]; Commit 0 false [0] [(0, 0)]]) as M2.
      { eapply made_commit with (s := 0) (del := [(0, 0)]) (extra := []);
          [exact M1|repeat constructor; cbn; tauto|intros x []|reflexivity]. }
      eapply made_commit with (s := 0) (del := [(2, 1)]) (extra := [1]);
        [exact M2|repeat constructor; cbn; tauto| |reflexivity].
      intros x [<-|[]]. cbn. lia. }
    exists w, 3. assert (forall c, In c [3] -> c < length w) as L by (intros c [<-|[]]; cbn; lia).
    destruct (try_new_accepts_iff w [3] M L) as [r [E S]].
    destruct r as [p|e].
    - exfalso. destruct (try_new_spec insert IN w (made_wfw w M) [3] L) as [r' [E' S']].
      rewrite E in E'. injection E' as <-. destruct S' as [A [[_ [C _]] _]].
      assert (1 = 2); [|discriminate]. apply (C 1 2 (0, 0)); try (now left); apply A; exists 3;
        (split; [now left|]).
      + apply anc_up with 1; [now left|constructor].
      + apply anc_up with 2; [right; now left|constructor].
    - exists e. split; [assumption|]. split; [cbn; lia|assumption].
  Qed.
End Statements.

Print Assumptions ancestors_complete.
Print Assumptions ancestors_all.
Print Assumptions ancestors_order_partial.
Print Assumptions ancestors_order_refuted.
Print Assumptions history_invariants.
Print Assumptions try_new_accepts_iff.
Print Assumptions try_add_accepts_iff.
Print Assumptions try_add_replacement_accepts_iff.
Print Assumptions is_valid_accepts.
Print Assumptions is_valid_sound.
Print Assumptions deleting_commit_found.
Print Assumptions rejected_add_stays_valid_partial.
Print Assumptions rejected_add_stays_valid_refuted.
Print Assumptions from_commit_valid_refuted.

(** ** Examples *)

Definition ins1 (w : world) (g : list nat) (c : nat) : list nat := g ++ [c].
Lemma ins1_inserts : inserts ins1.
Proof.
  intros w g c. unfold ins1. repeat split.
  - apply in_app_iff. right. now left.
  - intros x H. apply in_app_iff. now left.
  - intros x H. apply in_app_iff in H as [H|[<-|[]]]; [now left|]. right. constructor.
Qed.

(** base 0; 1 replaces node 0 of the base, 2 node 1 of the base, 3 a node of 1 and one of 2. *)
Definition square : world :=
  [Commit 0 true [] []; Commit 0 false [0] [(0, 0)]; Commit 0 false [0] [(0, 1)];
   Commit 0 false [1; 2] [(1, 4); (2, 7)]].

Example square_ancestors :
  get_ancestors_while square [3] (fun _ => true) = Some [3; 1; 2; 0] /\
  get_ancestors_while square [1; 2] (fun _ => true) = Some [2; 1; 0] /\
  get_ancestors_while square [3] (fun c => negb (c =? 1)) = Some [3; 1; 2; 0].
Proof. repeat split. Qed.

Example square_ranked :
  let rank := fun c => match c with 0 => 2 | 3 => 0 | _ => 1 end in
  forall c q, In q (parents square c) -> rank q = S (rank c).
Proof.
  intros rank [|[|[|[|c]]]] q H; cbn in H; try (destruct c; contradiction);
    repeat (destruct H as [<-|H]; [reflexivity|]); contradiction.
Qed.

Example square_history :
  try_new ins1 square [3] = Some (Ok (PHugr [3; 1; 2; 0] 0 0 [])) /\
  (exists p, try_new ins1 square [1] = Some (Ok p) /\
     exists p', try_add_commits ins1 square p [3] = Some (p', Ok tt) /\
                forallb (fun c => memb c (p_graph p')) [0; 1; 2; 3] = true /\
                contains_node square p' 1 4 = false /\ contains_node square p' 1 5 = true /\
                find_deleting_commit square p' 1 4 = Some 3 /\
                snd (is_valid square p') = Ok tt).
Proof.
  split; [reflexivity|]. eexists. split; [vm_compute; reflexivity|].
  eexists. split; [vm_compute; reflexivity|]. repeat split; vm_compute; reflexivity.
Qed.

Example conflict_rejected :
  try_new ins1 diamond [1; 2] = Some (Err (IncompatibleHistory 0 0)) /\
  (exists p, try_new ins1 diamond [1] = Some (Ok p) /\
     exists w' p', try_add_replacement ins1 diamond p [(0, 0); (1, 3)]
                   = Some (w', p', Err (IncompatibleHistory 0 0))) /\
  (exists p, try_new ins1 diamond [1] = Some (Ok p) /\
     exists w' p', try_add_replacement ins1 diamond p [(0, 7); (1, 3)] = Some (w', p', Ok 4)).
Proof.
  split; [reflexivity|].
  split; eexists; (split; [vm_compute; reflexivity|]); do 2 eexists; vm_compute; reflexivity.
Qed.

Example diamond_broken : exists p p',
  try_new ins1 diamond [1] = Some (Ok p) /\
  try_add_commits ins1 diamond p [3] = Some (p', Err (IncompatibleHistory 0 0)) /\
  snd (is_valid diamond p') = Err (IncompatibleHistory 0 0).
Proof.
  eexists. eexists. split; [vm_compute; reflexivity|]. split; [vm_compute; reflexivity|].
  vm_compute. reflexivity.
Qed.
