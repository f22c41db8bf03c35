(** Lemmas about the mutators: the hierarchy and link invariants. *)
From Coq Require Import List Bool NArith Arith Lia.
From Verif Require Import GraphModel GraphSpec.
Import ListNotations.

Lemma memN_iff : forall n l, memN n l = true <-> In n l.
Proof.
  intros n l. unfold memN. rewrite existsb_exists. split.
  - intros (x & I & E). apply N.eqb_eq in E. now subst.
  - intros I. exists n. split; [exact I|apply N.eqb_refl].
Qed.
Lemma memN_false : forall n l, memN n l = false <-> ~ In n l.
Proof. intros n l. rewrite <- memN_iff. destruct (memN n l); split; congruence || tauto. Qed.

Lemma delN_iff : forall n l m, In m (delN n l) <-> In m l /\ m <> n.
Proof.
  intros n l m. unfold delN. rewrite filter_In, negb_true_iff, N.eqb_neq. tauto.
Qed.
Lemma delN_nodup : forall n l, NoDup l -> NoDup (delN n l).
Proof. intros. now apply NoDup_filter. Qed.
Lemma delN_id : forall n l, ~ In n l -> delN n l = l.
Proof.
  intros n l. induction l as [|x l IH]; [reflexivity|]. intros H. unfold delN in *. cbn [filter].
  destruct (N.eqb_spec x n) as [->|E]; [destruct H; now left|]. cbn [negb]. rewrite IH; [reflexivity|].
  intros I. apply H. now right.
Qed.

Lemma nodup_snoc : forall (n : N) l, ~ In n l -> NoDup l -> NoDup (l ++ [n]).
Proof.
  intros n l A D. apply (NoDup_Add (a := n) (l := l)); [|auto].
  rewrite <- (app_nil_r l) at 1. apply Add_app.
Qed.

Lemma upd_same : forall A (f : N -> A) n v, upd f n v n = v.
Proof. intros. unfold upd. now rewrite N.eqb_refl. Qed.
Lemma upd_other : forall A (f : N -> A) n v m, m <> n -> upd f n v m = f m.
Proof. intros A f n v m H. unfold upd. apply N.eqb_neq in H. now rewrite H. Qed.

Ltac upds := repeat (first [ rewrite upd_same in * | rewrite upd_other in * by congruence ]).

Lemma ep_eqb_iff : forall a b, ep_eqb a b = true <-> a = b.
Proof.
  intros [a i] [b j]. unfold ep_eqb. cbn [fst snd]. rewrite andb_true_iff, N.eqb_eq, Nat.eqb_eq.
  split; [intros [-> ->]; reflexivity|intros E; inversion E; auto].
Qed.

(** ** Paths to ancestors *)
Lemma up_trans : forall f a b c, up f a b -> up f b c -> up f a c.
Proof. intros f a b c U. induction U; [auto|]. intros V. eapply up_next; eauto. Qed.

Lemma up_mono : forall (f g : N -> option N), (forall n p, f n = Some p -> g n = Some p) ->
  forall a b, up f a b -> up g a b.
Proof. intros f g H a b U. induction U; [constructor|]. eapply up_next; eauto. Qed.

Lemma up_ext : forall (f g : N -> option N), (forall n, f n = g n) -> forall a b, up f a b <-> up g a b.
Proof. intros f g H a b. split; apply up_mono; intros n p E; [rewrite <- H|rewrite H]; exact E. Qed.

(** Number of steps. *)
Fixpoint hops (f : N -> option N) (k : nat) (n : N) : option N :=
  match k with 0 => Some n | S k => match f n with Some p => hops f k p | None => None end end.

Lemma up_hops : forall f a b, up f a b <-> exists k, hops f k a = Some b.
Proof.
  intros f a b. split.
  - intros U. induction U as [|n p a E U (k & IH)]; [exists 0; reflexivity|]. exists (S k). cbn. now rewrite E.
  - intros (k & E). revert a E. induction k as [|k IH]; cbn; intros a E.
    + injection E as ->. constructor.
    + destruct (f a) as [p|] eqn:F; [|discriminate]. eapply up_next; eauto.
Qed.

Lemma hops_add : forall f i j n m, hops f i n = Some m -> hops f (i + j) n = hops f j m.
Proof.
  intros f i. induction i as [|i IH]; cbn; intros j n m E; [injection E as ->; reflexivity|].
  destruct (f n) as [p|]; [|discriminate]. now apply IH.
Qed.

Lemma hops_top_unique : forall f r, f r = None -> forall i j n, hops f i n = Some r -> hops f j n = Some r -> i = j.
Proof.
  intros f r T i j n A B. destruct (lt_eq_lt_dec i j) as [[L|E]|L]; [|exact E|].
  - replace j with (i + S (j - i - 1)) in B by lia. rewrite (hops_add _ _ _ _ _ A) in B. cbn in B. now rewrite T in B.
  - replace i with (j + S (i - j - 1)) in A by lia. rewrite (hops_add _ _ _ _ _ B) in A. cbn in A. now rewrite T in A.
Qed.

Lemma hops_prefix : forall f i j n m, i <= j -> hops f j n = Some m -> exists x, hops f i n = Some x.
Proof.
  intros f i j n m L E. destruct (hops f i n) as [x|] eqn:X; [eauto|]. exfalso.
  assert (G : forall a b n, hops f a n = None -> hops f (a + b) n = None).
  { clear. intros a. induction a as [|a IH]; cbn; intros b n E; [discriminate|]. destruct (f n); auto. }
  apply (G i (j - i)) in X. replace (i + (j - i)) with j in X by lia. congruence.
Qed.

Lemma climbs_iff : forall f k n a, climbs f k n a = true <-> exists i, i <= k /\ hops f i n = Some a.
Proof.
  intros f k. induction k as [|k IH]; intros n a; cbn [climbs]; rewrite orb_true_iff, N.eqb_eq.
  - split.
    + intros [->|E]; [|discriminate]. exists 0. auto.
    + intros (i & L & E). replace i with 0 in E by lia. injection E as ->. now left.
  - split.
    + intros [->|E]; [exists 0; split; [lia|reflexivity]|]. destruct (f n) as [p|] eqn:F; [|discriminate].
      apply IH in E. destruct E as (i & L & E). exists (S i). cbn. rewrite F. split; [lia|exact E].
    + intros (i & L & E). destruct i as [|i]; [injection E as ->; now left|]. right. cbn in E.
      destruct (f n) as [p|]; [|discriminate]. apply IH. exists i. split; [lia|exact E].
Qed.

(** All chains upwards are shorter than the number of nodes. *)
Lemma hops_bound : forall f r (nodes : list N), f r = None ->
  (forall n, In n nodes -> n <> r -> exists p, f n = Some p /\ In p nodes) ->
  forall n, In n nodes -> up f n r -> forall k a, hops f k n = Some a -> k < length nodes.
Proof.
  intros f r nodes T P n I U k a E. apply up_hops in U. destruct U as (K & EK).
  assert (LK : k <= K).
  { destruct (le_lt_dec k K) as [L|L]; [exact L|]. exfalso.
    replace k with (K + S (k - K - 1)) in E by lia. rewrite (hops_add _ _ _ _ _ EK) in E. cbn in E. now rewrite T in E. }
  apply (Nat.le_lt_trans _ K); [exact LK|].
  set (at_ := fun i => match hops f i n with Some x => x | None => r end).
  assert (L : length (map at_ (seq 0 (S K))) <= length nodes).
  { apply NoDup_incl_length.
    - apply (NoDup_nth _ 0%N). intros i j Hi Hj. rewrite map_length, seq_length in Hi, Hj.
      rewrite !(nth_indep _ 0%N (at_ 0)) by (rewrite map_length, seq_length; assumption).
      rewrite !map_nth. rewrite !seq_nth by assumption. cbn [plus]. unfold at_.
      destruct (hops_prefix f i K n r ltac:(lia) EK) as (x & Ex).
      destruct (hops_prefix f j K n r ltac:(lia) EK) as (y & Ey). rewrite Ex, Ey. intros <-.
      assert (A : hops f (K - i) x = Some r).
      { rewrite <- EK. rewrite <- (hops_add f i (K - i) n x Ex). f_equal. lia. }
      assert (B : hops f (K - j) x = Some r).
      { rewrite <- EK. rewrite <- (hops_add f j (K - j) n x Ey). f_equal. lia. }
      pose proof (hops_top_unique f r T _ _ _ A B). lia.
    - intros x Hx. apply in_map_iff in Hx. destruct Hx as (i & <- & Hi). apply in_seq in Hi. unfold at_.
      destruct (hops_prefix f i K n r ltac:(lia) EK) as (x & Ex). rewrite Ex.
      assert (G : forall i n x, In n nodes -> hops f i n = Some x -> In x nodes).
      { clear - P T. intros i. induction i as [|i IH]; cbn; intros n x In_ E; [injection E as <-; exact In_|].
        destruct (N.eq_dec n r) as [->|Ne]; [now rewrite T in E|]. destruct (P n In_ Ne) as (p & Fp & Ip).
        rewrite Fp in E. eauto. }
      eauto. }
  rewrite map_length, seq_length in L. lia.
Qed.

Section Graph.
  Context {O M : Type}.
  Variable o_default : O.
  Variable o_in o_out : O -> nat.
  Notation hugr := (hugr O M).

  Lemma contains_iff : forall (h : hugr) n, contains h n = true <-> In n (h_nodes h).
  Proof. intros. apply memN_iff. Qed.

  Lemma wf_parent_live : forall (h : hugr), wf h -> forall n p, h_parent h n = Some p -> In n (h_nodes h) /\ In p (h_nodes h) /\ n <> h_root h.
  Proof.
    intros h W n p E. assert (I : In n (h_nodes h)).
    { destruct (in_dec N.eq_dec n (h_nodes h)) as [I|I]; [exact I|]. destruct (wf_unused h W n I). congruence. }
    assert (R : n <> h_root h). { intros ->. rewrite (wf_top h W) in E. discriminate. }
    destruct (wf_parent h W n I R) as (q & Eq & Iq). rewrite E in Eq. injection Eq as <-. auto.
  Qed.

  Lemma up_live : forall (h : hugr), wf h -> forall n a, up (h_parent h) n a -> In n (h_nodes h) -> In a (h_nodes h).
  Proof.
    intros h W n a U. induction U as [|n p a E U IH]; [auto|]. intros _. apply IH.
    apply (wf_parent_live h W n p E).
  Qed.

  Lemma up_root : forall (h : hugr), wf h -> forall a, up (h_parent h) (h_root h) a -> a = h_root h.
  Proof.
    intros h W a U. inversion U as [n|n p b E V]; subst; [reflexivity|]. rewrite (wf_top h W) in E. discriminate.
  Qed.

  (** The cycle test of the hierarchy sees the whole chain. *)
  Lemma climbs_wf : forall (h : hugr), wf h -> forall f, (forall n p, f n = Some p -> h_parent h n = Some p) ->
    forall p n k, In p (h_nodes h) -> length (h_nodes h) <= k -> climbs f k p n = true <-> up f p n.
  Proof.
    intros h W f S p n k I L. rewrite climbs_iff, up_hops. split; [intros (i & _ & E); eauto|].
    intros (i & E). exists i. split; [|exact E]. apply Nat.lt_le_incl. eapply Nat.lt_le_trans; [|exact L].
    assert (E' : hops (h_parent h) i p = Some n).
    { clear - S E. revert p E. induction i as [|i IH]; cbn; intros p E; [exact E|].
      destruct (f p) as [q|] eqn:F; [|discriminate]. rewrite (S _ _ F). auto. }
    eapply hops_bound; [exact (wf_top h W)|exact (wf_parent h W)|exact I|exact (wf_reach h W p I)|exact E'].
  Qed.

  (** No node is its own proper ancestor. *)
  Lemma no_cycle : forall (h : hugr), wf h -> forall n p, h_parent h n = Some p -> ~ up (h_parent h) p n.
  Proof.
    intros h W n p E U. apply up_hops in U. destruct U as (k & U).
    destruct (wf_parent_live h W n p E) as (I & Ip & _).
    pose proof (wf_reach h W n I) as R. apply up_hops in R. destruct R as (K & R).
    assert (C : hops (h_parent h) (S k) n = Some n) by (cbn; now rewrite E).
    pose proof (hops_add _ (S k) K n n C) as A. rewrite R in A.
    pose proof (hops_top_unique _ _ (wf_top h W) _ _ _ A R). lia.
  Qed.

  Lemma up_antisym : forall (h : hugr), wf h -> forall a b, up (h_parent h) a b -> up (h_parent h) b a -> a = b.
  Proof.
    intros h W a b U V. inversion U as [n|n p c E U']; subst; [reflexivity|]. exfalso.
    apply (no_cycle h W a p E). eapply up_trans; eassumption.
  Qed.

  (** Paths that avoid a node do not notice a change there. *)
  Lemma up_avoid : forall (f : N -> option N) n v a b, up f a b -> ~ up f a n -> up (upd f n v) a b.
  Proof.
    intros f n v a b U. induction U as [a|a p b E U IH]; intros A; [constructor|].
    assert (a <> n) by (intros ->; apply A; constructor).
    eapply up_next; [rewrite upd_other by assumption; exact E|]. apply IH. intros V. apply A. eapply up_next; eauto.
  Qed.

  (** ** Changing the hierarchy *)
  (** A node gets a new parent below which it was not; the child lists are changed accordingly. *)
  Definition kids_moved (kids kids' : N -> list N) (parent parent' : N -> option N) : Prop :=
    (forall p, NoDup (kids' p)) /\ (forall p c, In c (kids' p) <-> parent' c = Some p).

  Lemma reach_after_move : forall f n p r, f r = None ->
    (forall m, up f m r -> up (upd f n (Some p)) p r -> up (upd f n (Some p)) m r).
  Proof.
    intros f n p r T m U V. induction U as [r|a q r E U IH]; [constructor|].
    destruct (N.eq_dec a n) as [->|Ne].
    - eapply up_next; [apply upd_same|]. exact V.
    - eapply up_next; [rewrite upd_other by exact Ne; exact E|]. apply IH; [|exact V]. exact T.
  Qed.

  Lemma insert_at_iff : forall after n s l m, In s l -> (In m (insert_at after n s l) <-> m = n \/ In m l).
  Proof.
    intros after n s l m. induction l as [|x l IH]; [intros []|]. intros I. cbn [insert_at].
    destruct (N.eqb_spec x s) as [->|Ne].
    - destruct after; cbn [In]; intuition congruence.
    - destruct I as [E|I]; [congruence|]. cbn [In]. rewrite (IH I). tauto.
  Qed.
  Lemma insert_at_nodup : forall after n s l, ~ In n l -> NoDup l -> NoDup (insert_at after n s l).
  Proof.
    intros after n s l A D. induction D as [|x l Nx D IH]; [constructor|]. cbn [insert_at].
    assert (An : ~ In n l) by (intros I; apply A; now right).
    assert (Ax : x <> n) by (intros ->; apply A; now left).
    destruct (N.eqb_spec x s) as [->|Ne].
    - destruct after.
      + constructor; [intros [E|I]; [congruence|auto]|]. constructor; auto.
      + constructor; [intros [E|I]; [congruence|auto]|]. constructor; auto.
    - constructor; [|auto]. destruct (in_dec N.eq_dec s l) as [Is|Is].
      + rewrite (insert_at_iff after n s l x Is). intros [E|I]; [congruence|auto].
      + replace (insert_at after n s l) with l; [exact Nx|]. clear - Is. induction l as [|y l IH]; [reflexivity|].
        cbn [insert_at]. destruct (N.eqb_spec y s) as [->|Ne]; [destruct Is; now left|].
        rewrite <- IH; [reflexivity|]. intros I. apply Is. now right.
  Qed.

  Lemma detach_eq : forall (h : hugr), wf h -> forall n p, h_parent h n = Some p ->
    detach h n = set_tree h (upd (h_parent h) n None) (upd (h_kids h) p (delN n (h_kids h p))).
  Proof. intros h W n p E. unfold detach. now rewrite E. Qed.

  Lemma detach_parent : forall (h : hugr) n m, h_parent (detach h n) m = upd (h_parent h) n None m.
  Proof.
    intros h n m. unfold detach. destruct (h_parent h n) eqn:E; [reflexivity|].
    unfold upd. destruct (N.eqb_spec m n) as [->|]; [exact E|reflexivity].
  Qed.
  Lemma detach_kids : forall (h : hugr), wf h -> forall n m, h_kids (detach h n) m = delN n (h_kids h m).
  Proof.
    intros h W n m. unfold detach. destruct (h_parent h n) as [p|] eqn:E; cbn [h_kids set_tree].
    - unfold upd. destruct (N.eqb_spec m p) as [->|Ne]; [reflexivity|]. symmetry. apply delN_id.
      rewrite (wf_kids h W). congruence.
    - symmetry. apply delN_id. rewrite (wf_kids h W). congruence.
  Qed.
  Lemma detach_rest : forall (h : hugr) n, h_nodes (detach h n) = h_nodes h /\ h_ops (detach h n) = h_ops h /\
    h_meta (detach h n) = h_meta h /\ h_in (detach h n) = h_in h /\ h_out (detach h n) = h_out h /\
    h_links (detach h n) = h_links h /\ h_root (detach h n) = h_root h /\ h_entry (detach h n) = h_entry h.
  Proof. intros h n. unfold detach. destruct (h_parent h n); cbn; auto 9. Qed.

  (** The general rule for giving [n] the parent [p]: [n] may be new or moved. *)
  Lemma attach_wf : forall (h h' : hugr) n p, wf h ->
    In p (h_nodes h) -> n <> h_root h -> ~ up (h_parent h) p n ->
    (forall m, In m (h_nodes h') <-> m = n \/ In m (h_nodes h)) -> NoDup (h_nodes h') ->
    (forall m, h_parent h' m = upd (h_parent h) n (Some p) m) ->
    (forall q, NoDup (h_kids h' q)) ->
    (forall q c, In c (h_kids h' q) <-> (c = n /\ q = p) \/ (c <> n /\ In c (h_kids h q))) ->
    h_root h' = h_root h -> In (h_entry h') (h_nodes h') ->
    (forall l, In l (h_links h') -> out_port h' (fst l) /\ in_port h' (snd l)) ->
    wf h'.
  Proof.
    intros h h' n p W Ip Nr A HN D HP K1 K2 HR HE HL. constructor; auto.
    - rewrite HR. apply HN. right. apply (wf_root h W).
    - rewrite HR, HP, upd_other by congruence. apply (wf_top h W).
    - rewrite HR. intros m Im Nm. rewrite HP. destruct (N.eq_dec m n) as [->|Ne].
      + exists p. rewrite upd_same. split; [reflexivity|]. apply HN. now right.
      + rewrite upd_other by exact Ne. apply HN in Im. destruct Im as [->|Im]; [congruence|].
        destruct (wf_parent h W m Im Nm) as (q & Eq & Iq). exists q. split; [exact Eq|]. apply HN. now right.
    - intros q c. rewrite K2, HP. destruct (N.eq_dec c n) as [->|Ne].
      + rewrite upd_same. split; [intros [[_ ->]|[X _]]; [reflexivity|congruence]|]. intros E. injection E as <-. now left.
      + rewrite upd_other by exact Ne. rewrite <- (wf_kids h W). tauto.
    - intros m Im. rewrite HP. assert (Ne : m <> n) by (intros ->; apply Im; apply HN; now left).
      assert (I' : ~ In m (h_nodes h)) by (intros X; apply Im; apply HN; now right).
      destruct (wf_unused h W m I') as [U1 U2]. rewrite upd_other by exact Ne. split; [exact U1|].
      destruct (h_kids h' m) as [|c l] eqn:E; [reflexivity|]. exfalso.
      assert (X : In c (h_kids h' m)) by (rewrite E; now left). apply K2 in X. destruct X as [[_ ->]|[_ X]]; [auto|].
      now rewrite U2 in X.
    - assert (P : up (upd (h_parent h) n (Some p)) p (h_root h)) by (apply up_avoid; [apply (wf_reach h W p Ip)|exact A]).
      intros m Im. rewrite HR. apply (up_ext _ _ HP). apply HN in Im. destruct Im as [->|Im].
      + eapply up_next; [apply upd_same|exact P].
      + apply reach_after_move; [apply (wf_top h W)|apply (wf_reach h W m Im)|exact P].
  Qed.

  (** ** Adding nodes *)
  Lemma add_node_inv : forall (h h' : hugr) n o, add_node o_in o_out h n o = Some h' ->
    ~ In n (h_nodes h) /\ h' = set_ops (set_ports (set_nodes h (n :: h_nodes h)) (upd (h_in h) n (o_in o)) (upd (h_out h) n (o_out o)))
                       (upd (h_ops h) n o).
  Proof.
    intros h h' n o. unfold add_node. destruct (contains h n) eqn:E; [discriminate|]. intros X. injection X as <-.
    split; [|reflexivity]. apply memN_false. exact E.
  Qed.

  Lemma ports_after_add : forall (h : hugr) n i o (h' : hugr), ~ In n (h_nodes h) ->
    h_nodes h' = n :: h_nodes h -> h_in h' = upd (h_in h) n i -> h_out h' = upd (h_out h) n o ->
    h_links h' = h_links h ->
    (forall l, In l (h_links h) -> out_port h (fst l) /\ in_port h (snd l)) ->
    forall l, In l (h_links h') -> out_port h' (fst l) /\ in_port h' (snd l).
  Proof.
    intros h n i o h' Nn E1 E2 E3 E4 H l I. rewrite E4 in I. destruct (H l I) as [[A B] [C D]].
    unfold out_port, in_port. rewrite E1, E2, E3. rewrite !upd_other by (intros <-; contradiction).
    split; (split; [now right|assumption]).
  Qed.

  Lemma fresh_not_up : forall (h : hugr), wf h -> forall n p, In p (h_nodes h) -> ~ In n (h_nodes h) -> ~ up (h_parent h) p n.
  Proof. intros h W n p Ip Nn U. apply Nn. eapply up_live; eassumption. Qed.

  Lemma fresh_not_kid : forall (h : hugr), wf h -> forall n q, ~ In n (h_nodes h) -> ~ In n (h_kids h q).
  Proof. intros h W n q Nn I. apply (wf_kids h W) in I. apply (wf_parent_live h W) in I. tauto. Qed.

  Lemma add_child_wf : forall (h h' : hugr) n p o, wf h -> In p (h_nodes h) ->
    add_node_with_parent o_in o_out h n p o = Some h' -> wf h'.
  Proof.
    intros h h' n p o W Ip. unfold add_node_with_parent. destruct (add_node o_in o_out h n o) as [h1|] eqn:E; [|discriminate].
    apply add_node_inv in E. destruct E as (Nn & ->). unfold push_child. cbn [h_parent h_nodes h_kids set_ops set_ports set_nodes].
    destruct (h_parent h n); [discriminate|]. destruct (climbs _ _ _ _); [discriminate|]. intros X. injection X as <-.
    assert (Nr : n <> h_root h) by (intros ->; apply Nn; apply (wf_root h W)).
    eapply (attach_wf h _ n p); try (exact W || exact Ip || exact Nr); cbn.
    - now apply fresh_not_up.
    - intros m. cbn. intuition congruence.
    - constructor; [exact Nn|apply (wf_nodup h W)].
    - intros m. reflexivity.
    - intros q. unfold upd. destruct (N.eqb_spec q p) as [->|]; [|apply (wf_kids_once h W)].
      apply nodup_snoc; [now apply fresh_not_kid|apply (wf_kids_once h W)].
    - intros q c. unfold upd. destruct (N.eqb_spec q p) as [->|Ne].
      + rewrite in_app_iff. cbn. split.
        * intros [I|[<-|[]]]; [right|left; auto]. split; [intros ->; now apply (fresh_not_kid h W n p Nn)|exact I].
        * intros [[-> _]|[_ I]]; auto.
      + split.
        * intros I. right. split; [intros ->; now apply (fresh_not_kid h W n q Nn)|exact I].
        * intros [[_ ->]|[_ I]]; [congruence|exact I].
    - reflexivity.
    - right. apply (wf_entry h W).
    - match goal with |- forall l, _ -> out_port ?h' _ /\ _ =>
        exact (ports_after_add h n (o_in o) (o_out o) h' Nn eq_refl eq_refl eq_refl eq_refl (wf_links h W)) end.
  Qed.

  Lemma add_beside_wf : forall after (h h' : hugr) n s o, wf h ->
    add_node_beside o_in o_out after h n s o = Some h' -> wf h'.
  Proof.
    intros after h h' n s o W. unfold add_node_beside. destruct (add_node o_in o_out h n o) as [h1|] eqn:E; [|discriminate].
    apply add_node_inv in E. destruct E as (Nn & ->). unfold insert_sibling. cbn [h_parent h_nodes h_kids set_ops set_ports set_nodes].
    destruct (h_parent h n); [discriminate|]. destruct (h_parent h s) as [p|] eqn:Es; [|discriminate].
    destruct (climbs _ _ _ _); [discriminate|]. intros X. injection X as <-.
    destruct (wf_parent_live h W s p Es) as (Is & Ip & _).
    assert (Nr : n <> h_root h) by (intros ->; apply Nn; apply (wf_root h W)).
    assert (Ks : In s (h_kids h p)) by (now apply (wf_kids h W)).
    eapply (attach_wf h _ n p); try (exact W || exact Ip || exact Nr); cbn.
    - now apply fresh_not_up.
    - intros m. cbn. intuition congruence.
    - constructor; [exact Nn|apply (wf_nodup h W)].
    - intros m. reflexivity.
    - intros q. unfold upd. destruct (N.eqb_spec q p) as [->|]; [|apply (wf_kids_once h W)].
      apply insert_at_nodup; [now apply fresh_not_kid|apply (wf_kids_once h W)].
    - intros q c. unfold upd. destruct (N.eqb_spec q p) as [->|Ne].
      + rewrite (insert_at_iff after n s _ c Ks). split.
        * intros [->|I]; [left; auto|right]. split; [intros ->; now apply (fresh_not_kid h W n p Nn)|exact I].
        * intros [[-> _]|[_ I]]; auto.
      + split.
        * intros I. right. split; [intros ->; now apply (fresh_not_kid h W n q Nn)|exact I].
        * intros [[_ ->]|[_ I]]; [congruence|exact I].
    - reflexivity.
    - right. apply (wf_entry h W).
    - match goal with |- forall l, _ -> out_port ?h' _ /\ _ =>
        exact (ports_after_add h n (o_in o) (o_out o) h' Nn eq_refl eq_refl eq_refl eq_refl (wf_links h W)) end.
  Qed.

  (** ** Moving nodes *)
  Lemma up_detached : forall (h : hugr) n a b, up (h_parent (detach h n)) a b -> up (h_parent h) a b.
  Proof.
    intros h n a b. apply up_mono. intros m p. rewrite detach_parent. unfold upd. destruct (N.eqb m n); [discriminate|auto].
  Qed.

  (** Being below [n] is the same before and after detaching [n]. *)
  Lemma up_detached_iff : forall (h : hugr) n p, up (h_parent (detach h n)) p n <-> up (h_parent h) p n.
  Proof.
    intros h n p. split; [apply up_detached|]. intros U. induction U as [|m q n E U IH]; [constructor|].
    destruct (N.eq_dec m n) as [->|Ne]; [constructor|].
    eapply up_next; [|exact IH]. rewrite detach_parent, upd_other by exact Ne. exact E.
  Qed.

  Lemma climbs_detached : forall (h : hugr), wf h -> forall n p, In p (h_nodes h) ->
    climbs (h_parent (detach h n)) (length (h_nodes (detach h n))) p n = true <-> up (h_parent h) p n.
  Proof.
    intros h W n p Ip. rewrite (proj1 (detach_rest h n)). rewrite (climbs_wf h W); [apply up_detached_iff| |exact Ip|lia].
    intros m q. rewrite detach_parent. unfold upd. destruct (N.eqb m n); [discriminate|auto].
  Qed.

  Lemma set_parent_iff : forall (h : hugr) n p, wf h ->
    ((exists h', set_parent h n p = Some h') <-> In n (h_nodes h) /\ In p (h_nodes h) /\ ~ up (h_parent h) p n).
  Proof.
    intros h n p W. unfold set_parent. split.
    - intros (h' & E). destruct (contains h p) eqn:Cp; [|discriminate]. destruct (contains h n) eqn:Cn; [|discriminate].
      apply contains_iff in Cp, Cn. cbn [andb] in E. split; [exact Cn|]. split; [exact Cp|].
      intros U. apply (climbs_detached h W n p Cp) in U. unfold push_child in E.
      destruct (h_parent (detach h n) n); [discriminate|]. rewrite U in E. discriminate.
    - intros (In_ & Ip & A). apply contains_iff in In_. pose proof Ip as Cp. apply contains_iff in Cp. rewrite In_, Cp. cbn [andb].
      unfold push_child. rewrite detach_parent, upd_same.
      destruct (climbs _ _ p n) eqn:C; [|eauto]. apply (climbs_detached h W n p Ip) in C. contradiction.
  Qed.

  Lemma set_parent_inv : forall (h h' : hugr) n p, wf h -> set_parent h n p = Some h' ->
    In n (h_nodes h) /\ In p (h_nodes h) /\ ~ up (h_parent h) p n /\
    h' = set_tree (detach h n) (upd (h_parent (detach h n)) n (Some p))
                  (upd (h_kids (detach h n)) p (h_kids (detach h n) p ++ [n])).
  Proof.
    intros h h' n p W E. destruct (proj1 (set_parent_iff h n p W)) as (A & B & C); [eauto|].
    split; [exact A|]. split; [exact B|]. split; [exact C|]. unfold set_parent in E.
    destruct (contains h p && contains h n); [|discriminate]. unfold push_child in E.
    destruct (h_parent (detach h n) n); [discriminate|]. destruct (climbs _ _ p n); [discriminate|]. now injection E as <-.
  Qed.

  Lemma upd_upd : forall A (f : N -> A) n a b m, upd (upd f n a) n b m = upd f n b m.
  Proof. intros. unfold upd. destruct (N.eqb m n); reflexivity. Qed.

  Lemma upd_detached : forall (h : hugr) n v m, upd (h_parent (detach h n)) n v m = upd (h_parent h) n v m.
  Proof.
    intros h n v m. unfold upd at 1 2. destruct (N.eqb_spec m n) as [->|Ne]; [reflexivity|].
    rewrite detach_parent. now apply upd_other.
  Qed.

  Lemma set_parent_wf : forall (h h' : hugr) n p, wf h -> set_parent h n p = Some h' -> wf h'.
  Proof.
    intros h h' n p W E. apply set_parent_inv in E; [|exact W]. destruct E as (In_ & Ip & A & ->).
    destruct (detach_rest h n) as (R1 & R2 & R3 & R4 & R5 & R6 & R7 & R8).
    assert (Nr : n <> h_root h).
    { intros ->. apply A. apply (wf_reach h W p Ip). }
    eapply (attach_wf h _ n p); try (exact W || exact Ip || exact Nr || exact A); cbn [set_tree h_nodes h_parent h_kids h_root h_entry h_links].
    - intros m. rewrite R1. intuition congruence.
    - rewrite R1. apply (wf_nodup h W).
    - intros m. apply upd_detached.
    - intros q. unfold upd. rewrite !(detach_kids h W). destruct (N.eqb_spec q p) as [->|].
      + apply nodup_snoc; [rewrite delN_iff; tauto|]. apply delN_nodup; apply (wf_kids_once h W).
      + apply delN_nodup. apply (wf_kids_once h W).
    - intros q c. unfold upd. rewrite !(detach_kids h W). destruct (N.eqb_spec q p) as [->|Ne].
      + rewrite in_app_iff, delN_iff. cbn [In]. intuition congruence.
      + rewrite delN_iff. intuition congruence.
    - exact R7.
    - rewrite R1, R8. apply (wf_entry h W).
    - rewrite R6. intros l I. destruct (wf_links h W l I) as [[X Y] [X' Y']].
      unfold out_port, in_port. cbn. rewrite R1, R4, R5. auto.
  Qed.

  Lemma move_sibling_inv : forall after (h h' : hugr) n s, wf h -> move_sibling after h n s = Some h' ->
    exists p, In n (h_nodes h) /\ n <> h_entry h /\ In s (h_nodes h) /\ s <> h_entry h /\ n <> s /\
    h_parent h s = Some p /\ In p (h_nodes h) /\ ~ up (h_parent h) p n /\
    h' = set_tree (detach h n) (upd (h_parent (detach h n)) n (Some p))
                  (upd (h_kids (detach h n)) p (insert_at after n s (h_kids (detach h n) p))).
  Proof.
    intros after h h' n s W. unfold move_sibling, valid_non_entry.
    destruct (contains h n) eqn:Cn; [|discriminate]. destruct (N.eqb_spec n (h_entry h)) as [|Nn]; [discriminate|].
    destruct (contains h s) eqn:Cs; [|discriminate]. destruct (N.eqb_spec s (h_entry h)) as [|Ns]; [discriminate|].
    cbn [andb negb]. apply contains_iff in Cn, Cs. unfold insert_sibling. rewrite detach_parent, upd_same.
    destruct (h_parent (detach h n) s) as [p|] eqn:Es; [|discriminate].
    rewrite detach_parent in Es. assert (Ne : n <> s).
    { intros ->. rewrite upd_same in Es. discriminate. }
    rewrite upd_other in Es by congruence. destruct (wf_parent_live h W s p Es) as (_ & Ip & _).
    destruct (climbs _ _ p n) eqn:C; [discriminate|]. intros X. injection X as <-. exists p.
    repeat (split; [assumption|]). split; [|reflexivity].
    intros U. apply (climbs_detached h W n p Ip) in U. congruence.
  Qed.

  Lemma move_sibling_wf : forall after (h h' : hugr) n s, wf h -> move_sibling after h n s = Some h' -> wf h'.
  Proof.
    intros after h h' n s W E. apply move_sibling_inv in E; [|exact W].
    destruct E as (p & In_ & Nn & Is & Ns & Ne & Es & Ip & A & ->).
    destruct (detach_rest h n) as (R1 & R2 & R3 & R4 & R5 & R6 & R7 & R8).
    assert (Nr : n <> h_root h).
    { intros ->. apply A. apply (wf_reach h W p Ip). }
    assert (Ks : In s (h_kids (detach h n) p)).
    { rewrite (detach_kids h W), delN_iff. split; [now apply (wf_kids h W)|congruence]. }
    eapply (attach_wf h _ n p); try (exact W || exact Ip || exact Nr || exact A); cbn [set_tree h_nodes h_parent h_kids h_root h_entry h_links].
    - intros m. rewrite R1. intuition congruence.
    - rewrite R1. apply (wf_nodup h W).
    - intros m. apply upd_detached.
    - intros q. unfold upd. rewrite !(detach_kids h W). destruct (N.eqb_spec q p) as [->|].
      + apply insert_at_nodup; [rewrite delN_iff; tauto|]. apply delN_nodup; apply (wf_kids_once h W).
      + apply delN_nodup. apply (wf_kids_once h W).
    - intros q c. unfold upd. destruct (N.eqb_spec q p) as [->|Nq].
      + rewrite (insert_at_iff after n s _ c Ks). rewrite (detach_kids h W), delN_iff. intuition congruence.
      + rewrite (detach_kids h W), delN_iff. intuition congruence.
    - exact R7.
    - rewrite R1, R8. apply (wf_entry h W).
    - rewrite R6. intros l I. destruct (wf_links h W l I) as [[X Y] [X' Y']].
      unfold out_port, in_port. cbn. rewrite R1, R4, R5. auto.
  Qed.
End Graph.
