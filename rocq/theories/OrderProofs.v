From Coq Require Import List Bool Arith Lia Relations.
From Verif Require Import BMap Graphs OrderModel OrderSpec.
Import ListNotations.

Lemma memb_iff x l : memb x l = true <-> In x l.
Proof.
  unfold memb. rewrite existsb_exists. split.
  - intros (y & I & E). apply Nat.eqb_eq in E. now subst.
  - intros I. exists x. split; [exact I|apply Nat.eqb_refl].
Qed.

Lemma memb_false x l : memb x l = false <-> ~ In x l.
Proof. rewrite <- memb_iff. destruct (memb x l); split; congruence. Qed.

Lemma succs_iff edges a b : In b (succs edges a) <-> In (a, b) edges.
Proof.
  unfold succs. rewrite in_map_iff. split.
  - intros ([c d] & <- & I). apply filter_In in I. destruct I as [I E]. cbn in *.
    apply Nat.eqb_eq in E. now subst.
  - intros I. exists (a, b). split; [reflexivity|]. apply filter_In. split; [exact I|]. apply Nat.eqb_refl.
Qed.

Lemma preds_iff edges a b : In a (preds edges b) <-> In (a, b) edges.
Proof.
  unfold preds. rewrite in_map_iff. split.
  - intros ([c d] & <- & I). apply filter_In in I. destruct I as [I E]. cbn in *.
    apply Nat.eqb_eq in E. now subst.
  - intros I. exists (a, b). split; [reflexivity|]. apply filter_In. split; [exact I|]. apply Nat.eqb_refl.
Qed.

Lemma filter_le {A} (f : A -> bool) l : length (filter f l) <= length l.
Proof. induction l as [|a l IH]; cbn; [lia|]. destruct (f a); cbn; lia. Qed.

Section Order.
  Context {K : Type} (cmp : K -> K -> comparison) (rank : nat -> K).
  Hypothesis TC : total_cmp cmp.

  Notation first := (rank_first cmp rank).
  Notation pop := (pop cmp rank).

  Lemma pops_first_iff a b : pops_first cmp rank a b = true <-> first a b.
  Proof.
    unfold pops_first, rank_first. destruct (cmp (rank a) (rank b)) eqn:C.
    - rewrite Nat.leb_le. split; [auto|]. intros [F|[_ L]]; [discriminate|exact L].
    - split; auto.
    - split; [discriminate|]. intros [F|[F _]]; discriminate.
  Qed.

  Lemma first_refl a : first a a.
  Proof. right. split; [now apply (cmp_eq _ TC)|lia]. Qed.

  Lemma first_total a b : first a b \/ first b a.
  Proof.
    unfold rank_first. rewrite (cmp_opp _ TC (rank a) (rank b)).
    destruct (cmp (rank a) (rank b)); cbn; auto. destruct (le_lt_dec a b); [right|left]; right; split; auto; lia.
  Qed.

  Lemma first_trans a b c : first a b -> first b c -> first a c.
  Proof.
    unfold rank_first. intros [L1|[E1 L1]] [L2|[E2 L2]].
    - left. eapply (cmp_trans _ TC); eassumption.
    - apply (cmp_eq _ TC) in E2. rewrite <- E2. auto.
    - apply (cmp_eq _ TC) in E1. rewrite E1. auto.
    - apply (cmp_eq _ TC) in E1. rewrite E1, E2. right. split; [auto|lia].
  Qed.

  Lemma first_antisym a b : first a b -> first b a -> a = b.
  Proof.
    unfold rank_first. rewrite (cmp_opp _ TC (rank a) (rank b)).
    destruct (cmp (rank a) (rank b)); cbn; intros [A|[A1 A2]] [B|[B1 B2]]; try discriminate. lia.
  Qed.

  Lemma pop_none heap : pop heap = None -> heap = [].
  Proof.
    destruct heap as [|x t]; [reflexivity|]. cbn. destruct (pop t) as [[y t']|]; [|discriminate].
    destruct (pops_first _ _ _ _); discriminate.
  Qed.

  Lemma pop_some heap : forall x heap', pop heap = Some (x, heap') ->
    (forall y, In y heap <-> y = x \/ In y heap') /\ (forall y, In y heap -> first x y) /\
    length heap = S (length heap').
  Proof.
    induction heap as [|a t IH]; cbn; [discriminate|]. intros x heap'.
    destruct (pop t) as [[y t']|] eqn:P.
    - destruct (IH y t' eq_refl) as (M & F & L). destruct (pops_first cmp rank a y) eqn:PF.
      + intros [= <- <-]. apply pops_first_iff in PF. repeat split.
        * intros [->|I]; auto.
        * intros [->|I]; auto.
        * intros z [->|I]; [apply first_refl|]. eapply first_trans; [exact PF|auto].
      + intros [= <- <-]. assert (PF' : first y a).
        { destruct (first_total a y) as [F'|F']; [|exact F']. apply pops_first_iff in F'. congruence. }
        repeat split.
        * intros [->|I]; [right; now left|]. apply M in I. destruct I; [left; auto|right; now right].
        * intros [->|[->|I]]; [right|now left|right]; apply M; auto.
        * intros z [->|I]; [exact PF'|auto].
        * cbn. lia.
    - intros [= <- <-]. apply pop_none in P. subst t. repeat split.
      + intros [->|[]]; auto.
      + intros [->|[]]; auto.
      + intros z [->|[]]. apply first_refl.
  Qed.

  Section Walk.
    Variables (nodes : list nat) (edges : list (nat * nat)).
    Hypothesis closed : forall a b, In (a, b) edges -> In a nodes /\ In b nodes.

    Notation ready := (ready nodes edges).

    Record inv (heap visited : list nat) : Prop := {
      inv_heap : forall n, In n heap -> In n nodes /\ forall p, In (p, n) edges -> In p visited;
      inv_ready : forall n, ready visited n -> In n heap
    }.

    Definition pending (visited : list nat) : nat :=
      length (filter (fun e => negb (memb (fst e) visited)) edges).

    Lemma pending_drop x visited : ~ In x visited ->
      pending visited = pending (x :: visited) + length (succs edges x).
    Proof.
      intros NI. unfold pending, succs. rewrite map_length. clear closed.
      induction edges as [|[a b] es IH]; [reflexivity|].
      cbn [filter fst]. change (memb a (x :: visited)) with (Nat.eqb a x || memb a visited).
      destruct (Nat.eqb_spec a x) as [->|NE].
      - apply memb_false in NI. rewrite NI. cbn [negb orb length]. lia.
      - cbn [orb]. destruct (memb a visited); cbn [negb length]; lia.
    Qed.

    Definition greedy_from (done l : list nat) : Prop :=
      (forall l1 x l2, l = l1 ++ x :: l2 ->
         ready (rev l1 ++ done) x /\ forall y, ready (rev l1 ++ done) y -> first x y) /\
      (forall y, ~ ready (rev l ++ done) y).

    Lemma walk_greedy fuel : forall heap visited,
      inv heap visited -> length heap + pending visited < fuel ->
      greedy_from visited (walk cmp rank edges fuel heap visited).
    Proof.
      induction fuel as [|fuel IH]; intros heap visited I L; [lia|]. cbn [walk].
      destruct (pop heap) as [[x heap']|] eqn:P.
      - destruct (pop_some heap x heap' P) as (M & F & LEN).
        destruct (memb x visited) eqn:V.
        + apply memb_iff in V. apply IH; [|lia]. split.
          * intros n N0. apply (inv_heap _ _ I). apply M. auto.
          * intros n R. assert (H := inv_ready _ _ I n R). apply M in H. destruct H as [->|H]; [|exact H].
            destruct R as (_ & NV & _). tauto.
        + apply memb_false in V. cbv zeta.
          set (new := filter _ _).
          assert (RX : ready visited x).
          { assert (H : In x heap) by (apply M; auto). apply (inv_heap _ _ I) in H. destruct H. repeat split; auto. }
          assert (NEW : forall n, In n new <-> In (x, n) edges /\ forall p, In (p, n) edges -> In p (x :: visited)).
          { intros n. unfold new. rewrite filter_In, succs_iff, forallb_forall. split.
            - intros [A B]. split; [exact A|]. intros p IP. apply preds_iff in IP. apply B in IP. now apply memb_iff.
            - intros [A B]. split; [exact A|]. intros p IP. apply memb_iff, B. now apply preds_iff. }
          assert (I' : inv (heap' ++ new) (x :: visited)).
          { split.
            - intros n IN. apply in_app_iff in IN. destruct IN as [IN|IN].
              + assert (H : In n heap) by (apply M; auto). apply (inv_heap _ _ I) in H. destruct H as [H1 H2].
                split; [exact H1|]. intros p IP. right. auto.
              + apply NEW in IN. destruct IN as [E A]. split; [|exact A]. now apply closed in E.
            - intros n (IN & NV & PR). apply in_app_iff.
              destruct (in_dec Nat.eq_dec x (preds edges n)) as [XP|XP].
              + right. apply NEW. split; [now apply preds_iff|exact PR].
              + left. assert (H : In n heap).
                { apply (inv_ready _ _ I). repeat split; auto.
                  - intros H. apply NV. now right.
                  - intros p IP. destruct (PR p IP) as [<-|H]; [|exact H]. exfalso. apply XP. now apply preds_iff. }
                apply M in H. destruct H as [->|H]; [|exact H]. exfalso. apply NV. now left. }
          assert (L' : length (heap' ++ new) + pending (x :: visited) < fuel).
          { rewrite app_length. rewrite (pending_drop x visited V) in L.
            assert (length new <= length (succs edges x))
              by apply filter_le.
            lia. }
          destruct (IH _ _ I' L') as [G1 G2]. split.
          * intros l1 y l2 E. destruct l1 as [|z l1]; cbn in E; injection E as <- E.
            -- subst l2. cbn [rev app]. split; [exact RX|]. intros y0 R. apply F. now apply (inv_ready _ _ I).
            -- cbn [rev]. rewrite <- app_assoc. cbn [app]. apply (G1 l1 y l2 E).
          * intros y. cbn [rev]. rewrite <- app_assoc. cbn [app]. apply G2.
      - apply pop_none in P. subst heap. split.
        + intros l1 x l2 E. destruct l1; discriminate.
        + intros y R. cbn in R. apply (inv_ready _ _ I) in R. destruct R.
    Qed.

    Lemma initials_inv : inv (initials nodes edges) [].
    Proof.
      split.
      - intros n IN. unfold initials in IN. apply filter_In in IN. destruct IN as [IN E]. split; [exact IN|].
        intros p IP. apply preds_iff in IP. destruct (preds edges n); [destruct IP|discriminate].
      - intros n (IN & _ & PR). unfold initials. apply filter_In. split; [exact IN|].
        destruct (preds edges n) as [|p l] eqn:P; [reflexivity|]. exfalso.
        apply (PR p). apply preds_iff. rewrite P. now left.
    Qed.

    Lemma ready_same d1 d2 n : (forall x, In x d1 <-> In x d2) -> ready d1 n -> ready d2 n.
    Proof. intros H (A & B & C). repeat split; auto; [rewrite <- H; auto|]. intros p IP. apply H. auto. Qed.

    Lemma force_order_walk_greedy :
      greedy_order cmp rank nodes edges (force_order_walk cmp rank nodes edges).
    Proof.
      unfold force_order_walk.
      destruct (walk_greedy (S (length nodes + length edges)) (initials nodes edges) []) as [G1 G2].
      - apply initials_inv.
      - assert (length (initials nodes edges) <= length nodes) by apply filter_le.
        assert (pending [] <= length edges) by apply filter_le.
        lia.
      - assert (SAME : forall l : list nat, forall x, In x (rev l ++ []) <-> In x l).
        { intros l x. rewrite app_nil_r. symmetry. apply in_rev. }
        split.
        + intros l1 x l2 E. destruct (G1 l1 x l2 E) as [R F]. split.
          * eapply ready_same; [|exact R]. apply SAME.
          * intros y RY. apply F. eapply ready_same; [|exact RY]. intros z. symmetry. apply SAME.
        + intros y R. apply (G2 y). eapply ready_same; [|exact R]. intros z. symmetry. apply SAME.
    Qed.

    (** ** Consequences of being greedy *)
    Lemma greedy_nodup l : greedy_order cmp rank nodes edges l -> NoDup l.
    Proof.
      intros [G _]. induction l as [|x l IH] using rev_ind; [constructor|].
      apply NoDup_rev in IH.
      - rewrite <- (rev_involutive (l ++ [x])). apply NoDup_rev. rewrite rev_app_distr. cbn.
        constructor; [|exact IH]. rewrite <- in_rev.
        destruct (G l x [] eq_refl) as [(_ & NI & _) _]. exact NI.
      - intros l1 y l2 E. apply (G l1 y (l2 ++ [x])). rewrite E, <- app_assoc. reflexivity.
    Qed.

    Lemma greedy_sub l : greedy_order cmp rank nodes edges l -> forall n, In n l -> In n nodes.
    Proof.
      intros [G _] n I. apply in_split in I. destruct I as (l1 & l2 & E).
      destruct (G l1 n l2 E) as [(A & _) _]. exact A.
    Qed.

    Lemma greedy_preds l : greedy_order cmp rank nodes edges l ->
      forall a b, In (a, b) edges -> In b l -> before l a b.
    Proof.
      intros [G _] a b E I. apply in_split in I. destruct I as (l1 & l2 & ->).
      destruct (G l1 b l2 eq_refl) as [(_ & _ & P) _]. apply before_app; [now apply P|now left].
    Qed.

    Lemma dec_edges a b : edge_rel edges a b \/ ~ edge_rel edges a b.
    Proof. apply edge_rel_dec. exact Nat.eq_dec. Qed.

    Lemma greedy_complete l : acyclic (edge_rel edges) -> greedy_order cmp rank nodes edges l ->
      forall n, In n nodes -> In n l.
    Proof.
      intros AC [_ G] n I. destruct (in_dec Nat.eq_dec n l) as [IL|IL]; [exact IL|exfalso].
      set (S := filter (fun x => negb (memb x l)) nodes).
      destruct (acyclic_source S (edge_rel edges) dec_edges AC) as (m & IM & NP).
      - intros E. assert (H : In n S).
        { apply filter_In. split; [exact I|]. apply negb_true_iff. now apply memb_false. }
        rewrite E in H. destruct H.
      - apply filter_In in IM. destruct IM as [IM NM]. apply negb_true_iff in NM. apply memb_false in NM.
        apply (G m). repeat split; auto. intros p IP.
        destruct (in_dec Nat.eq_dec p l) as [IPL|IPL]; [exact IPL|exfalso]. apply (NP p); [|exact IP].
        apply filter_In. split; [now apply closed in IP|]. apply negb_true_iff. now apply memb_false.
    Qed.

    Lemma greedy_unique l l' : greedy_order cmp rank nodes edges l ->
      greedy_order cmp rank nodes edges l' -> l = l'.
    Proof.
      intros [G1 E1] [G2 E2].
      assert (H : forall k d, l = d ++ k -> forall k', l' = d ++ k' -> k = k').
      { induction k as [|x k IH]; intros d L k' L'.
        - rewrite app_nil_r in L. destruct k' as [|y k']; [reflexivity|].
          destruct (G2 d y k' L') as [R _]. subst d. exfalso. apply (E1 y R).
        - destruct k' as [|y k'].
          + rewrite app_nil_r in L'. destruct (G1 d x k L) as [R _]. subst d. exfalso. apply (E2 x R).
          + destruct (G1 d x k L) as [R1 F1]. destruct (G2 d y k' L') as [R2 F2].
            assert (x = y) by (apply first_antisym; auto). subst y. f_equal.
            apply (IH (d ++ [x])); rewrite <- app_assoc; assumption. }
      exact (H l [] eq_refl l' eq_refl).
    Qed.

    (** When [b] comes before [a] although [a] ranks first, some node that [a] waits for is not
        yet emitted and ranks no earlier than [b]. *)
    Lemma greedy_inversion l a b : acyclic (edge_rel edges) -> greedy_order cmp rank nodes edges l ->
      before l b a -> first a b -> a <> b ->
      exists m, path (edge_rel edges) m a /\ first b m /\ (m = b \/ before l b m).
    Proof.
      intros AC G B F NE. pose proof (greedy_nodup l G) as ND.
      destruct B as (l1 & l2 & l3 & E).
      destruct (proj1 G l1 b (l2 ++ a :: l3) E) as [RB MIN].
      (* the unemitted ancestors of a, by going backwards: induction on the number of unemitted nodes *)
      assert (H : forall k S0, length S0 <= k -> forall c,
                 In c nodes -> ~ In c l1 -> (c = a \/ path (edge_rel edges) c a) ->
                 (forall x, In x nodes -> ~ In x l1 -> path (edge_rel edges) x c \/ x = c -> In x S0) ->
                 NoDup S0 ->
                 exists m, In m nodes /\ (m = a \/ path (edge_rel edges) m a) /\ ready l1 m).
      { induction k as [|k IH]; intros S0 LE c IC NC PC COV NDS.
        - destruct S0; [|cbn in LE; lia]. exfalso. apply (COV c); auto.
        - destruct (Forall_Exists_dec (fun p => In p l1) (fun p => in_dec Nat.eq_dec p l1) (preds edges c)) as [ALL|EX].
          + exists c. repeat split; auto. intros p IP. rewrite Forall_forall in ALL. apply ALL. now apply preds_iff.
          + apply Exists_exists in EX. destruct EX as (p & IP & NP). apply preds_iff in IP.
            assert (IC0 : In c S0) by (apply COV; auto).
            apply in_split in IC0. destruct IC0 as (s1 & s2 & ES).
            apply (IH (s1 ++ s2)) with (c := p).
            * rewrite ES, app_length in LE. cbn in LE. rewrite app_length. lia.
            * now apply closed in IP.
            * exact NP.
            * right. destruct PC as [->|PC]; [now apply t_step|]. eapply t_trans; [apply t_step; exact IP|exact PC].
            * intros x IX NX PX. assert (PXC : path (edge_rel edges) x c).
              { destruct PX as [PX| ->]; [|now apply t_step]. eapply t_trans; [exact PX|apply t_step; exact IP]. }
              assert (IX0 : In x S0) by (apply COV; auto).
              rewrite ES in IX0. apply in_app_iff in IX0. apply in_app_iff.
              destruct IX0 as [IX0|[->|IX0]]; auto. exfalso. apply (AC x PXC).
            * rewrite ES in NDS. now apply NoDup_remove_1 in NDS. }
      assert (IA : In a l) by (rewrite E; rewrite in_app_iff; right; right; rewrite in_app_iff; right; now left).
      assert (NA : ~ In a l1).
      { intros I1. rewrite E in ND. apply in_split in I1. destruct I1 as (u & v & ->).
        rewrite <- app_assoc in ND. apply NoDup_remove_2 in ND. apply ND. rewrite !in_app_iff.
        right. right. right. rewrite in_app_iff. right. now left. }
      destruct (H (length (nodup Nat.eq_dec nodes)) (nodup Nat.eq_dec nodes) (le_n _) a) as (m & IM & PM & RM).
      - now apply (greedy_sub l G).
      - exact NA.
      - now left.
      - intros x IX _ _. now apply nodup_In.
      - apply NoDup_nodup.
      - assert (FB : first b m) by auto.
        assert (m <> a).
        { intros ->. apply NE. now apply first_antisym. }
        exists m. split; [tauto|]. split; [exact FB|].
        destruct (Nat.eq_dec m b) as [->|NMB]; [now left|right].
        assert (IML : In m l) by (apply greedy_complete; auto).
        destruct (before_total Nat.eq_dec l b m) as [BM|BM]; auto.
        + rewrite E. rewrite in_app_iff. right. now left.
        + exfalso. (* m before b puts m into l1 *)
          destruct BM as (u1 & u2 & u3 & EM).
          assert (l1 = u1 ++ m :: u2).
          { assert (EM' : l = (u1 ++ m :: u2) ++ b :: u3) by (rewrite EM, <- app_assoc; reflexivity).
            assert (NB1 : ~ In b l1) by (destruct RB; tauto).
            assert (NB2 : ~ In b (u1 ++ m :: u2)).
            { rewrite EM' in ND. apply NoDup_remove_2 in ND. intros HB. apply ND. apply in_app_iff. now left. }
            rewrite E in EM'. clear - EM' NB1 NB2. rename EM' into EM. revert EM NB2. generalize (u1 ++ m :: u2) as w. intros w.
            revert w. induction l1 as [|x l1 IHl]; intros w EM NB2.
            - destruct w as [|y w]; [reflexivity|]. cbn in EM. injection EM as -> _. exfalso. apply NB2. now left.
            - destruct w as [|y w]; cbn in EM; injection EM as -> EM.
              + exfalso. apply NB1. now left.
              + f_equal. apply IHl; auto; intros HB; [apply NB1|apply NB2]; now right. }
          destruct RM as (_ & NM & _). apply NM. subst l1. apply in_app_iff. right. now left.
    Qed.
  End Walk.

  (** ** Adding the order edges *)
  Lemma order_nodes_some r l l' : order_nodes r l = Some l' ->
    l' = filter (fun x => r_oin r x && r_oout r x) l /\
    forall x, In x l -> r_oin r x = r_oout r x.
  Proof.
    revert l'. induction l as [|x t IH]; cbn; intros l' E.
    - injection E as <-. split; [reflexivity|]. intros x [].
    - destruct (r_oin r x) eqn:A, (r_oout r x) eqn:B; cbn in *; try discriminate.
      + destruct (order_nodes r t) as [t'|]; [|discriminate]. injection E as <-.
        destruct (IH t' eq_refl) as [-> H]. split; [reflexivity|]. intros y [<-|I]; [congruence|auto].
      + destruct (IH l' E) as [-> H]. split; [reflexivity|]. intros y [<-|I]; [congruence|auto].
  Qed.

  Lemma order_nodes_none r l : order_nodes r l = None <->
    exists x, In x l /\ r_oin r x <> r_oout r x.
  Proof.
    induction l as [|x t IH]; cbn.
    - split; [discriminate|]. intros (x & [] & _).
    - destruct (r_oin r x) eqn:A, (r_oout r x) eqn:B; cbn.
      + destruct (order_nodes r t) as [t'|].
        * split; [discriminate|]. intros (y & [<-|I] & NE); [congruence|].
          assert (Some t' = None) by (apply IH; eauto). discriminate.
        * split; [|reflexivity]. intros _. destruct (proj1 IH eq_refl) as (y & I & NE). exists y. auto.
      + split; [|reflexivity]. intros _. exists x. rewrite A, B. split; [now left|discriminate].
      + split; [|reflexivity]. intros _. exists x. rewrite A, B. split; [now left|discriminate].
      + rewrite IH. split; intros (y & I & NE); [exists y; auto|]. destruct I as [<-|I]; [congruence|exists y; auto].
  Qed.

  Lemma connect_keeps l : forall es e, In e es -> In e (connect_windows l es).
  Proof.
    induction l as [|a l IH]; intros es e I; [exact I|]. destruct l as [|b l]; [exact I|].
    change (connect_windows (a :: b :: l) es)
      with (connect_windows (b :: l) (if memb b (succs es a) then es else es ++ [(a, b)])).
    apply IH. destruct (memb b (succs es a)); [exact I|]. apply in_app_iff. now left.
  Qed.

  (** The edges added join neighbours, and there is an edge between any two neighbours. *)
  Lemma connect_spec l : forall es a b, In (a, b) (connect_windows l es) <->
    In (a, b) es \/ exists l1 l2, l = l1 ++ a :: b :: l2.
  Proof.
    induction l as [|x l IH]; intros es a b.
    - cbn. split; [auto|]. intros [H|([|] & l2 & E)]; [exact H|discriminate|discriminate].
    - destruct l as [|y l].
      + cbn. split; [auto|]. intros [H|(l1 & l2 & E)]; [exact H|].
        destruct l1 as [|? [|? l1]]; discriminate.
      + change (connect_windows (x :: y :: l) es)
          with (connect_windows (y :: l) (if memb y (succs es x) then es else es ++ [(x, y)])).
        rewrite IH. split.
        * intros [I|(l1 & l2 & E)].
          -- destruct (memb y (succs es x)); [auto|]. apply in_app_iff in I.
             destruct I as [I|[[= <- <-]|[]]]; [auto|]. right. exists [], l. reflexivity.
          -- right. exists (x :: l1), l2. rewrite E. reflexivity.
        * intros [I|(l1 & l2 & E)].
          -- left. destruct (memb y (succs es x)); [exact I|]. apply in_app_iff. now left.
          -- destruct l1 as [|z l1]; cbn in E.
             ++ injection E as -> -> _. left. destruct (memb b (succs es a)) eqn:M.
                ** apply memb_iff, succs_iff in M. exact M.
                ** apply in_app_iff. right. now left.
             ++ injection E as _ E. right. exists l1, l2. exact E.
  Qed.

  Lemma connect_count l : forall es,
    length (connect_windows l es) <= length es + (length l - 1).
  Proof.
    induction l as [|x l IH]; intros es; [cbn; lia|]. destruct l as [|y l]; [cbn; lia|].
    change (connect_windows (x :: y :: l) es)
      with (connect_windows (y :: l) (if memb y (succs es x) then es else es ++ [(x, y)])).
    etransitivity; [apply IH|]. destruct (memb y (succs es x)); [cbn; lia|].
    rewrite app_length. cbn. lia.
  Qed.

  Lemma connect_prefix l : forall es, exists added, connect_windows l es = es ++ added.
  Proof.
    induction l as [|x l IH]; intros es; [exists []; now rewrite app_nil_r|].
    destruct l as [|y l]; [exists []; now rewrite app_nil_r|].
    change (connect_windows (x :: y :: l) es)
      with (connect_windows (y :: l) (if memb y (succs es x) then es else es ++ [(x, y)])).
    destruct (IH (if memb y (succs es x) then es else es ++ [(x, y)])) as [added E].
    destruct (memb y (succs es x)); [eauto|]. rewrite E. rewrite <- app_assoc. eauto.
  Qed.

  Lemma chain_path l (E : nat -> nat -> Prop) :
    (forall l1 a b l2, l = l1 ++ a :: b :: l2 -> E a b) ->
    forall a b, before l a b -> path E a b.
  Proof.
    intros CH a b (l1 & l2 & l3 & EQ). revert l1 a EQ. induction l2 as [|c l2 IH]; intros l1 a EQ.
    - apply t_step. apply (CH l1 a b l3 EQ).
    - eapply t_trans.
      + apply t_step. apply (CH l1 a c (l2 ++ b :: l3)). exact EQ.
      + apply (IH (l1 ++ [a]) c). rewrite <- app_assoc. exact EQ.
  Qed.

  Lemma filter_before {A} (f : A -> bool) (l : list A) a b :
    before (filter f l) a b -> before l a b.
  Proof.
    induction l as [|x l IH]; cbn.
    - intros ([|] & ? & ? & E); discriminate.
    - destruct (f x).
      + intros B. apply before_cons_inv in B. destruct B as [[-> I]|B].
        * apply filter_In in I. apply before_head. tauto.
        * apply before_cons. auto.
      + intros B. apply before_cons. auto.
  Qed.
End Order.
