(** Proofs about commit histories: building and extending them. *)
From Coq Require Import List Bool Arith Lia.
From Verif Require Import PersistModel PersistSpec PersistProofs.
Import ListNotations.

(** ** Conflicts *)

Lemma first_repeat_spec l : forall seen,
  match first_repeat seen l with
  | inl n => In n l /\ ~ (NoDup l /\ forall x, In x l -> ~ In x seen)
  | inr seen' => NoDup l /\ (forall x, In x l -> ~ In x seen) /\
                 (forall x, In x seen' <-> In x seen \/ In x l)
  end.
Proof.
  induction l as [|n l IH]; cbn; intros seen.
  - repeat split; try tauto. constructor.
  - destruct (memb n seen) eqn:E.
    + apply memb_In in E. split; [now left|]. intros [_ H]. apply (H n); auto.
    + apply memb_nIn in E. specialize (IH (n :: seen)).
      destruct (first_repeat (n :: seen) l) as [m|seen'].
      * destruct IH as [I H]. split; [now right|]. intros [N D]. apply H.
        apply NoDup_cons_iff in N as [N1 N2]. split; [assumption|].
        intros x Hx [<-|F]; [contradiction|]. apply (D x); auto.
      * destruct IH as [N [D S]]. split; [|split].
        -- constructor; [|assumption]. intros F. apply (D n F). now left.
        -- intros x [<-|Hx]; [assumption|]. intros F. apply (D x Hx). now right.
        -- intros x. rewrite S. cbn. tauto.
Qed.

Lemma find_conflict_none w c chs : forall seen,
  find_conflict w c seen chs = None <->
  NoDup (flat_map (deleted_of w c) chs) /\
  (forall x, In x (flat_map (deleted_of w c) chs) -> ~ In x seen).
Proof.
  induction chs as [|ch chs IH]; cbn; intros seen.
  - split; [|auto]. intros _. split; [constructor|tauto].
  - pose proof (first_repeat_spec (deleted_of w c ch) seen) as H.
    destruct (first_repeat seen (deleted_of w c ch)) as [n|seen'].
    + split; [discriminate|]. intros [N D]. exfalso. apply H.
      apply NoDup_app_iff_local in N as [N _]. split; [assumption|].
      intros x Hx. apply D, in_app_iff. now left.
    + destruct H as [N [D S]]. rewrite IH, NoDup_app_iff_local. split.
      * intros [N' D']. repeat split; auto.
        -- intros x Hx F. apply (D' x F), S. now right.
        -- intros x Hx F. apply in_app_iff in Hx as [Hx|Hx]; [apply (D x Hx F)|].
           apply (D' x Hx), S. now left.
      * intros [[N1 [N2 N3]] D']. split; [assumption|]. intros x Hx F.
        apply S in F as [F|F]; [|apply (N3 x F Hx)]. apply (D' x); [|assumption].
        apply in_app_iff. now right.
Qed.
Lemma find_conflicting_none w c chs :
  find_conflicting_node w c chs = None <-> NoDup (flat_map (deleted_of w c) chs).
Proof. unfold find_conflicting_node. rewrite find_conflict_none. cbn. intuition. Qed.

Lemma deleted_of_In w c d n : In n (deleted_of w c d) <-> In (c, n) (deleted w d).
Proof.
  unfold deleted_of. rewrite in_map_iff. split.
  - intros [[o m] [<- H]]. apply filter_In in H as [H E]. cbn in E. apply Nat.eqb_eq in E.
    cbn. now subst.
  - intros H. exists (c, n). split; [reflexivity|]. apply filter_In. split; [assumption|].
    apply Nat.eqb_refl.
Qed.
Lemma deleted_of_NoDup w c d : NoDup (deleted w d) -> NoDup (deleted_of w c d).
Proof.
  unfold deleted_of. induction (deleted w d) as [|[o n] l IH]; cbn; intros H; [constructor|].
  apply NoDup_cons_iff in H as [N H]. destruct (Nat.eqb_spec o c) as [->|D]; [|auto].
  cbn. constructor; [|auto]. intros F. apply N.
  apply in_map_iff in F as [[o' m] [E F]]. apply filter_In in F as [F E']. cbn in *.
  apply Nat.eqb_eq in E'. now subst.
Qed.

Lemma NoDup_flat_map_disjoint {A B} (f : A -> list B) l :
  NoDup (flat_map f l) -> forall a b x, In a l -> In b l -> In x (f a) -> In x (f b) -> a = b.
Proof.
  induction l as [|y l IH]; cbn; [contradiction|]. rewrite NoDup_app_iff_local.
  intros [_ [N D]] a b x [<-|Ha] [<-|Hb] Xa Xb.
  - reflexivity.
  - exfalso. apply (D x Xa). apply in_flat_map. eauto.
  - exfalso. apply (D x Xb). apply in_flat_map. eauto.
  - eauto.
Qed.
Lemma NoDup_flat_map {A B} (f : A -> list B) l :
  NoDup l -> (forall a, In a l -> NoDup (f a)) ->
  (forall a b x, In a l -> In b l -> In x (f a) -> In x (f b) -> a = b) -> NoDup (flat_map f l).
Proof.
  induction l as [|y l IH]; cbn; intros N F D; [constructor|].
  apply NoDup_cons_iff in N as [N1 N2]. apply NoDup_app_iff_local. split; [auto|]. split.
  - apply IH; eauto.
  - intros x Hx H. apply in_flat_map in H as [z [Hz Xz]]. apply N1.
    rewrite (D y z x); auto.
Qed.

(** The check at one commit, in terms of pairs of children. *)
Lemma check_sound w o chs : find_conflicting_node w o chs = None ->
  forall c d n, In c chs -> In d chs -> In (o, n) (deleted w c) -> In (o, n) (deleted w d) -> c = d.
Proof.
  rewrite find_conflicting_none. intros N c d n Hc Hd Xc Xd.
  apply (NoDup_flat_map_disjoint _ _ N c d n); auto; now apply deleted_of_In.
Qed.
Lemma check_complete w (W : wfw w) o chs : NoDup chs ->
  (forall c d n, In c chs -> In d chs -> In (o, n) (deleted w c) -> In (o, n) (deleted w d) -> c = d) ->
  find_conflicting_node w o chs = None.
Proof.
  intros N H. rewrite find_conflicting_none. apply NoDup_flat_map; [assumption| |].
  - intros a _. apply deleted_of_NoDup, W.
  - intros a b x Ha Hb Xa Xb. apply (H a b x); auto; now apply deleted_of_In.
Qed.
Lemma check_fails w (W : wfw w) o chs n : NoDup chs -> find_conflicting_node w o chs = Some n ->
  ~ (forall c d x, In c chs -> In d chs -> In x (deleted w c) -> In x (deleted w d) -> c = d).
Proof.
  intros N E H. rewrite (check_complete w W o chs N) in E; [discriminate|]. intros. eauto.
Qed.

Lemma all_children_In w c d : In d (all_children w c) <-> In c (parents w d).
Proof.
  unfold all_children. rewrite filter_In, in_seq, memb_In. split; [tauto|].
  intros H. split; [|assumption]. apply parents_lt in H. lia.
Qed.
Lemma all_children_NoDup w c : NoDup (all_children w c).
Proof. apply NoDup_filter, seq_NoDup. Qed.
Lemma graph_children_In w g c d : In d (graph_children w g c) <-> In d g /\ In c (parents w d).
Proof. unfold graph_children. now rewrite filter_In, memb_In, uniq_nil_In. Qed.
Lemma graph_children_NoDup w g c : NoDup (graph_children w g c).
Proof. apply NoDup_filter, uniq_NoDup. Qed.

Lemma reached_true w c a : reached w (fun _ => true) c a <-> ancestor w c a.
Proof. split; induction 1; econstructor; eauto. Qed.

Lemma first_repeat_hit l : forall seen n, first_repeat seen l = inl n ->
  In n l /\ (In n seen \/ ~ NoDup l).
Proof.
  induction l as [|m l IH]; cbn; intros seen n; [discriminate|].
  destruct (memb m seen) eqn:E.
  - intros [= <-]. apply memb_In in E. auto.
  - intros H. apply IH in H as [H [[<-|F]|F]].
    + split; [now left|]. right. rewrite NoDup_cons_iff. tauto.
    + auto.
    + split; [now right|]. right. rewrite NoDup_cons_iff. tauto.
Qed.
Lemma find_conflict_hit w c (D : forall d, NoDup (deleted_of w c d)) chs : forall seen n,
  find_conflict w c seen chs = Some n ->
  (In n seen /\ exists d, In d chs /\ In n (deleted_of w c d)) \/
  exists l1 d l2 e, chs = l1 ++ d :: l2 /\ In e l2 /\ In n (deleted_of w c d) /\
                    In n (deleted_of w c e).
Proof.
  induction chs as [|ch chs IH]; cbn; intros seen n; [discriminate|].
  destruct (first_repeat seen (deleted_of w c ch)) as [m|seen'] eqn:E.
  - intros [= <-]. apply first_repeat_hit in E as [H [F|F]].
    + left. split; [assumption|]. exists ch. auto.
    + exfalso. apply F, D.
  - intros H. apply IH in H as [[S [d [Hd X]]]|[l1 [d [l2 [e [-> H]]]]]].
    + pose proof (first_repeat_spec (deleted_of w c ch) seen) as Q. rewrite E in Q.
      destruct Q as [_ [_ Q]]. apply Q in S as [S|S].
      * left. split; [assumption|]. exists d. auto.
      * right. exists [], ch, chs, d. auto.
    + right. exists (ch :: l1), d, l2, e. auto.
Qed.
Lemma check_hit w (W : wfw w) o chs n : NoDup chs -> find_conflicting_node w o chs = Some n ->
  exists d e, d <> e /\ In d chs /\ In e chs /\ In (o, n) (deleted w d) /\ In (o, n) (deleted w e).
Proof.
  intros N H. apply find_conflict_hit in H as [[[] _]|[l1 [d [l2 [e [-> [He [X Y]]]]]]]].
  - exists d, e. apply deleted_of_In in X, Y. repeat split; auto.
    + intros ->. apply NoDup_remove_2 in N. apply N, in_app_iff. now right.
    + apply in_app_iff. cbn. auto.
    + apply in_app_iff. cbn. auto.
  - intros d. apply deleted_of_NoDup, W.
Qed.

Section Insert.
  Context (insert : world -> list nat -> nat -> list nat) (IN : inserts insert).

  (** ** try_new *)

  Lemma new_loop_spec w s ids : forall todo g,
    match new_loop insert w s ids todo g with
    | Ok g' =>
        (forall c, In c todo -> space_of w c = s /\
           find_conflicting_node w c (filter (fun d => memb d ids) (all_children w c)) = None) /\
        (forall c, In c g \/ In c todo -> In c g') /\
        (forall c, In c g' -> In c g \/ exists d, In d todo /\ ancestor w d c)
    | Err e => exists c, In c todo /\
        ((space_of w c <> s /\ e = NonUniqueBase 2) \/
         exists n, e = IncompatibleHistory c n /\
           find_conflicting_node w c (filter (fun d => memb d ids) (all_children w c)) = Some n)
    end.
  Proof.
    induction todo as [|c todo IH]; intros g; cbn [new_loop].
    - split; [contradiction|]. split; [intros c [H|[]]; assumption|auto].
    - destruct (Nat.eqb_spec (space_of w c) s) as [E|E]; cbn [negb].
      + destruct (find_conflicting_node w c _) as [n|] eqn:F.
        * exists c. split; [now left|]. right. eauto.
        * specialize (IH (insert w g c)). destruct (IN w g c) as [I1 [I2 I3]].
          destruct (new_loop insert w s ids todo (insert w g c)) as [g'|e].
          -- destruct IH as [A [B C]]. split; [|split].
             ++ intros d [<-|H]; auto.
             ++ intros d [H|[<-|H]]; auto.
             ++ intros d H. apply C in H as [H|[x [Hx H]]].
                ** apply I3 in H as [H|H]; [now left|]. right. exists c. cbn. auto.
                ** right. exists x. cbn. auto.
          -- destruct IH as [d [Hd H]]. exists d. cbn. auto.
      + exists c. split; [now left|]. left. auto.
  Qed.

  Lemma nodup_same_length (l : list nat) b : NoDup l -> (forall x, In x l <-> x = b) -> l = [b].
  Proof.
    intros N H. destruct l as [|x [|y l]].
    - exfalso. apply (proj2 (H b) eq_refl).
    - f_equal. apply H. now left.
    - exfalso. assert (x = y) as ->.
      { transitivity b; [|symmetry]; apply H; cbn; auto. }
      apply NoDup_cons_iff in N as [N _]. apply N. now left.
  Qed.

  Definition ancestors_of (w : world) (cs : list nat) (a : nat) : Prop :=
    exists c, In c cs /\ ancestor w c a.

  Lemma gaw_all w (W : wfw w) cs : (forall c, In c cs -> c < length w) ->
    exists l, get_ancestors_while w cs (fun _ => true) = Some l /\ NoDup l /\
      (forall a, In a l <-> ancestors_of w cs a) /\ (forall a, In a l -> a < length w).
  Proof.
    intros L. destruct (ancestors_spec w (wf_lt w W) (fun _ => true) cs L) as [l [s [E A]]].
    exists l. split; [assumption|]. split; [apply A|]. split; [|apply A].
    intros a. split.
    - intros H. apply A in H as [c [Hc R]]. exists c. split; [assumption|]. now apply reached_true.
    - intros [c [Hc R]]. apply reached_true in R. revert R. apply (ai_starts _ _ _ _ _ A) in Hc.
      intros R. revert Hc. revert R. apply (closed_reached w _ (fun z => In z l)). apply A.
  Qed.

  Lemma compatible_ext w g g' : (forall x, In x g <-> In x g') -> compatible w g -> compatible w g'.
  Proof. intros E H c d x Hc Hd. apply H; now apply E. Qed.

  (** The exact condition under which a history is built. *)
  Lemma try_new_spec w (W : wfw w) cs : (forall c, In c cs -> c < length w) ->
    exists r, try_new insert w cs = Some r /\
    match r with
    | Ok p => (forall a, In a (p_graph p) <-> ancestors_of w cs a) /\ good w p /\ cs <> []
    | Err e =>
        (cs = [] /\ e = NonUniqueBase 0) \/
        (exists c d, In c cs /\ In d cs /\ space_of w c <> space_of w d) \/
        (exists c d x, ancestors_of w cs c /\ ancestors_of w cs d /\ c <> d /\
                       In x (deleted w c) /\ In x (deleted w d))
    end.
  Proof.
    intros L. destruct (gaw_all w W cs L) as [l [E [N [A LT]]]].
    unfold try_new. rewrite E. eexists. split; [reflexivity|].
    destruct l as [|c0 l'].
    { left. split; [|reflexivity]. destruct cs as [|c cs]; [reflexivity|].
      exfalso. apply (proj2 (A c)). exists c. split; [now left|constructor]. }
    set (l := c0 :: l') in *. assert (In c0 l) as H0 by now left.
    assert (forall a, In a l -> exists c, In c cs /\ space_of w a = space_of w c) as SP.
    { intros a H. apply A in H as [c [Hc H]]. exists c. split; [assumption|].
      apply (space_anc w W); auto. }
    assert (forall a b, In a l -> ancestor w a b -> In b l) as CL.
    { intros a b H B. apply A in H as [c [Hc H]]. apply A. exists c. split; [assumption|].
      eapply ancestor_trans; eauto. }
    cbv zeta.
    pose proof (new_loop_spec w (space_of w c0) l l []) as S.
    destruct (new_loop insert w (space_of w c0) l l []) as [g|e].
    - destruct S as [S1 [S2 S3]].
      assert (forall a, In a g <-> In a l) as GL.
      { intros a. split.
        - intros H. apply S3 in H as [[]|[d [Hd H]]]. eauto.
        - intros H. apply S2. now right. }
      destruct (wf_has_base w W c0 (LT c0 H0)) as [b [Hb B]].
      assert (In b l) as Lb by eauto.
      assert (forall a, In a (filter (is_base w) (uniq [] g)) <-> a = b) as FB.
      { intros a. rewrite filter_In, uniq_nil_In, GL. split.
        - intros [H B']. apply (wf_one_base w W); auto.
          rewrite (proj1 (S1 a H)). symmetry. now apply (space_anc w W); auto.
        - intros ->. auto. }
      rewrite (nodup_same_length _ b (NoDup_filter _ (uniq_NoDup g [])) FB).
      split; [intros a; cbn; now rewrite GL, A|]. split; [|].
      + split; [intros c H; apply LT, GL, H|]. cbn. split.
        { intros c d [o n] Hc Hd Xc Xd. apply GL in Hc, Hd.
          pose proof (wf_del w W _ _ Xc) as Pc. pose proof (wf_del w W _ _ Xd) as Pd. cbn in Pc, Pd.
          assert (In o l) as Ho by (apply (CL c); [assumption|]; econstructor; [eassumption|constructor]).
          apply (check_sound w o _ (proj2 (S1 o Ho)) c d n); auto; apply filter_In;
            rewrite all_children_In, memb_In; auto. }
        split; [intros c a Hc H; apply GL; apply GL in Hc; eauto|].
        split; [now apply GL|]. split.
        { intros c Hc. rewrite <- FB, filter_In, uniq_nil_In. tauto. }
        split; [intros c Hc; apply S1, GL, Hc|]. intros c k. cbn. discriminate.
      + destruct cs as [|c cs]; [|discriminate]. apply A in H0 as [c [[] _]].
    - destruct S as [c [Hc [[S Ee]|[n [Ee S]]]]].
      + right. left. destruct (SP c Hc) as [c1 [H1 E1]]. destruct (SP c0 H0) as [c2 [H2 E2]].
        exists c1, c2. repeat split; auto. congruence.
      + right. right. apply (check_hit w W) in S as [d [d' [Nd [Hd [Hd' [X X']]]]]].
        * apply filter_In in Hd as [_ Hd], Hd' as [_ Hd']. apply memb_In, A in Hd, Hd'.
          exists d, d', (c, n). auto.
        * apply NoDup_filter, all_children_NoDup.
  Qed.

  (** ** Adding commits *)

  Section Add.
    Context (w : world) (W : wfw w) (p0 : phugr) (G : good w p0) (l : list nat).
    Context (LL : forall x, In x l -> x < length w).
    Context (LC : forall x q, In x l -> ~ In x (p_graph p0) -> In q (parents w x) -> In q l).
    Notation g := (p_graph p0).

    Lemma anc_in x a : In x l -> ancestor w x a -> In a l \/ In a g.
    Proof.
      intros Hx H. revert Hx. induction H as [x|x q a H H' IH]; intros Hx; [now left|].
      destruct (in_dec Nat.eq_dec x g) as [I|I].
      - right. destruct G as [_ [_ [AP _]]]. apply (AP x); [assumption|]. econstructor; eauto.
      - apply IH. eapply LC; eauto.
    Qed.

    (** After some of [l] has been inserted and [todo] is left. *)
    Record pinv (P todo : list nat) (p : phugr) : Prop := {
      pi_g : forall x, In x g -> In x (p_graph p);
      pi_P : forall x, In x P -> In x (p_graph p);
      pi_sub : forall x, In x (p_graph p) -> In x g \/ In x l;
      pi_all : forall x, In x l <-> In x P \/ In x todo;
      pi_anc : forall x, In x (p_graph p) -> In x g \/ exists y, In y P /\ ancestor w y x;
      pi_checked : forall o c d n, In o P -> In c g \/ In c l -> In d g \/ In d l ->
        In (o, n) (deleted w c) -> In (o, n) (deleted w d) -> c = d;
      pi_space : forall x, In x P -> space_of w x = p_space p0;
      pi_same : p_base p = p_base p0 /\ p_space p = p_space p0;
      pi_cache : forall k L, assoc k (p_cache p) = Some L -> NoDup L /\
        (forall d, In d L -> In d (p_graph p) /\ In k (parents w d)) /\
        (forall d, In d (p_graph p) -> In k (parents w d) -> In d L \/ In d todo /\ ~ In d g)
    }.

    Lemma pinv_init todo p : (forall x, In x l <-> In x todo) -> p = p0 -> pinv [] todo p.
    Proof.
      intros E ->. constructor; auto; try contradiction.
      - intros x. rewrite E. cbn. tauto.
      - intros k L H. destruct G as [_ [_ [_ [_ [_ [_ C]]]]]]. destruct (C k L H) as [Cn C']. split; [assumption|]. split.
        + intros d Hd. now apply C'.
        + intros d Hd Hk. left. now apply C'.
    Qed.

    Lemma assoc_filter k c (m : list (nat * list nat)) :
      assoc k (invalidate_children c m) = if k =? c then None else assoc k m.
    Proof.
      unfold invalidate_children. induction m as [|[a v] m IH]; cbn; [now destruct (k =? c)|].
      destruct (Nat.eqb_spec a c) as [->|N]; cbn.
      - rewrite IH. destruct (k =? c); reflexivity.
      - rewrite IH. destruct (Nat.eqb_spec k a) as [->|M]; [|reflexivity].
        destruct (Nat.eqb_spec a c); [contradiction|reflexivity].
    Qed.
    Lemma assoc_invalidate k cs : forall (m : list (nat * list nat)),
      assoc k (fold_left (fun m q => invalidate_children q m) cs m) =
      if memb k cs then None else assoc k m.
    Proof.
      induction cs as [|c cs IH]; intros m; cbn; [reflexivity|].
      rewrite IH, assoc_filter. destruct (k =? c); cbn; [|reflexivity]. now destruct (memb k cs).
    Qed.

    Lemma children_commits_pinv P todo p c : pinv P todo p ->
      let '(p1, curr) := children_commits w p c in
      pinv P todo p1 /\ p_graph p1 = p_graph p /\
      (forall d, In d curr -> In d (p_graph p) /\ In c (parents w d)) /\
      (forall d, In d (p_graph p) -> In c (parents w d) -> In d curr \/ In d todo /\ ~ In d g).
    Proof.
      intros I. unfold children_commits. destruct (assoc c (p_cache p)) as [L|] eqn:E.
      - split; [assumption|]. split; [reflexivity|]. apply I, E.
      - split; [|split; [reflexivity|split]].
        + destruct I. constructor; cbn; auto. intros k L. destruct (Nat.eqb_spec k c) as [->|N].
          * intros [= <-]. split; [apply graph_children_NoDup|].
            split; intros d; rewrite graph_children_In; auto.
          * apply pi_cache0.
        + intros d. now rewrite graph_children_In.
        + intros d Hd Hk. left. now apply graph_children_In.
    Qed.

    Lemma add_step P c todo p p1 curr :
      pinv P (c :: todo) p -> space_of w c = p_space p ->
      children_commits w p c = (p1, curr) ->
      find_conflicting_node w c (uniq [] (curr ++ filter (fun d => memb c (parents w d)) l)) = None ->
      pinv (c :: P) todo
        (PHugr (insert w (p_graph p1) c) (p_base p1) (p_space p1)
           (fold_left (fun k q => invalidate_children q k) (parents w c) (p_cache p1))).
    Proof.
      intros I S CH F. pose proof (children_commits_pinv P (c :: todo) p c I) as Q. rewrite CH in Q.
      destruct Q as [I1 [Eg [C1 C2]]]. destruct I1.
      destruct (IN w (p_graph p1) c) as [X1 [X2 X3]].
      assert (In c l) as Lc by (apply pi_all0; right; now left).
      constructor; cbn [p_graph p_base p_space p_cache].
      - intros x Hx. apply X2. auto.
      - intros x [<-|Hx]; auto.
      - intros x Hx. apply X3 in Hx as [Hx|Hx]; [auto|]. apply or_comm. eapply anc_in; eauto.
      - intros x. rewrite pi_all0. cbn. tauto.
      - intros x Hx. apply X3 in Hx as [Hx|Hx].
        + apply pi_anc0 in Hx as [Hx|[y [Hy Hx]]]; [auto|]. right. exists y. cbn. auto.
        + right. exists c. cbn. auto.
      - intros o a d n [<-|Ho] Ha Hd Xa Xd; [|eauto].
        assert (forall z, In z g \/ In z l -> In (c, n) (deleted w z) ->
                  In z (uniq [] (curr ++ filter (fun d => memb c (parents w d)) l))) as Z.
        { intros z Hz Xz. apply (wf_del w W) in Xz. cbn in Xz. rewrite uniq_nil_In, in_app_iff.
          destruct (in_dec Nat.eq_dec z l) as [Il|Il].
          - right. apply filter_In. now rewrite memb_In.
          - destruct Hz as [Hz|Hz]; [|contradiction]. left.
            destruct (C2 z) as [H|[_ H]]; auto; [|contradiction]. rewrite <- Eg. auto. }
        apply (check_sound w c _ F a d n); auto.
      - intros x [<-|Hx]; auto. rewrite S. apply I.
      - assumption.
      - intros k L. rewrite assoc_invalidate. destruct (memb k (parents w c)) eqn:M; [discriminate|].
        apply memb_nIn in M. intros H. destruct (pi_cache0 k L H) as [Y0 [Y1 Y2]]. split; [assumption|]. split.
        + intros d Hd. split; [|now apply Y1]. apply X2. now apply Y1.
        + intros d Hd Hk. destruct (Nat.eq_dec d c) as [->|N]; [contradiction|].
          destruct (in_dec Nat.eq_dec d (p_graph p1)) as [Dg|Dg].
          * destruct (Y2 d Dg Hk) as [Z|[[Z|Z] Z']]; [now left| |now right]. congruence.
          * right. apply X3 in Hd as [Hd|Hd]; [contradiction|].
            assert (~ In d g) as Ng by (intros Z; apply Dg; auto).
            split; [|assumption].
            destruct (anc_in c d Lc Hd) as [Z|Z]; [|contradiction].
            apply pi_all0 in Z as [Z|[Z|Z]]; [|congruence|assumption].
            exfalso. apply Dg. auto.
    Qed.

    Lemma pinv_good P p : pinv P [] p -> good w p.
    Proof.
      intros []. assert (forall x, In x P <-> In x l) as PL by (intro x; rewrite pi_all0; cbn; tauto).
      assert (forall x, In x (p_graph p) <-> In x g \/ In x l) as GE.
      { intros x. split; [auto|]. intros [H|H]; [auto|]. now apply pi_P0, PL. }
      destruct G as [G1 [G2 [G3 [G4 [G5 [G6 G7]]]]]]. destruct pi_same0 as [SB SS].
      assert (forall x, In x (p_graph p) -> space_of w x = p_space p) as SP.
      { intros x Hx. rewrite SS. apply GE in Hx as [Hx|Hx]; [auto|]. now apply pi_space0, PL. }
      assert (forall x, In x (p_graph p) -> x < length w) as LT.
      { intros x Hx. apply GE in Hx as [Hx|Hx]; auto. }
      split; [assumption|]. split; [|split; [|split; [|split; [|split]]]].
      - intros c d [o n] Hc Hd Xc Xd. apply GE in Hc, Hd.
        destruct (in_dec Nat.eq_dec c g) as [Ic|Ic]; destruct (in_dec Nat.eq_dec d g) as [Id|Id].
        + eapply G2; eauto.
        + destruct Hd as [Hd|Hd]; [contradiction|].
          apply (pi_checked0 o c d n); auto. apply PL. apply (LC d); auto.
          apply (wf_del w W) in Xd. assumption.
        + destruct Hc as [Hc|Hc]; [contradiction|].
          apply (pi_checked0 o c d n); auto. apply PL. apply (LC c); auto.
          apply (wf_del w W) in Xc. assumption.
        + destruct Hc as [Hc|Hc]; [contradiction|].
          apply (pi_checked0 o c d n); auto. apply PL. apply (LC c); auto.
          apply (wf_del w W) in Xc. assumption.
      - intros c a Hc H. apply GE. apply GE in Hc as [Hc|Hc].
        + left. eauto.
        + apply or_comm. eapply anc_in; eauto.
      - rewrite SB. auto.
      - intros c Hc. rewrite SB. split; [|intros ->; now apply (G5 (p_base p0) G4)].
        intros B. apply (wf_one_base w W); [assumption|now apply (G5 (p_base p0) G4)|].
        rewrite (SP c Hc), SS. symmetry. auto.
      - assumption.
      - intros k L H. destruct (pi_cache0 k L H) as [Y0 [Y1 Y2]]. split; [assumption|].
        intros d. split; [apply Y1|].
        intros [H1 H2]. destruct (Y2 d H1 H2) as [Z|[[] _]]. assumption.
    Qed.

    Lemma add_loop_spec : forall todo P p, pinv P todo p ->
      match add_loop insert w l todo p with
      | (p', Ok _) => good w p' /\ (forall x, In x (p_graph p') <-> In x g \/ In x l)
      | (p', Err e) => exists P' c todo', pinv P' (c :: todo') p' /\ rev P' ++ c :: todo' = rev P ++ todo /\
          (space_of w c <> p_space p0 \/
           exists n c1 c2, c1 <> c2 /\ (In c1 g \/ In c1 l) /\ (In c2 g \/ In c2 l) /\
             In (c, n) (deleted w c1) /\ In (c, n) (deleted w c2))
      end.
    Proof.
      induction todo as [|c todo IH]; intros P p I; cbn [add_loop].
      - split; [now apply (pinv_good P)|]. intros x. split; [apply I|]. intros [H|H].
        + now apply I.
        + apply (pi_P _ _ _ I). apply (pi_all _ _ _ I) in H as [H|[]]. assumption.
      - destruct (Nat.eqb_spec (space_of w c) (p_space p)) as [E|E]; cbn [negb].
        + destruct (children_commits w p c) as [p1 curr] eqn:CH.
          destruct (find_conflicting_node w c _) as [n|] eqn:F.
          * pose proof (children_commits_pinv P (c :: todo) p c I) as Q. rewrite CH in Q.
            destruct Q as [I1 [Eg [C1 C2]]].
            exists P, c, todo. split; [assumption|]. split; [reflexivity|]. right. exists n.
            apply (check_hit w W) in F as [d [e [N [Hd [He [X Y]]]]]]; [|apply uniq_NoDup].
            assert (forall z, In z (uniq [] (curr ++ filter (fun d => memb c (parents w d)) l)) ->
                      In z g \/ In z l) as Z.
            { intros z. rewrite uniq_nil_In, in_app_iff, filter_In. intros [Hz|Hz]; [|tauto].
              apply (pi_sub _ _ _ I), C1, Hz. }
            exists d, e. auto.
          * pose proof (add_step _ _ _ _ _ _ I E CH F) as I'.
            specialize (IH _ _ I'). cbn [rev] in IH. rewrite <- app_assoc in IH. exact IH.
        + exists P, c, todo. split; [assumption|]. split; [reflexivity|]. left.
          destruct (pi_same _ _ _ I) as [_ <-]. assumption.
    Qed.

    (** Stopping early is harmless when the commits come ancestors first. *)
    Lemma pinv_stop_good P c todo p : pinv P (c :: todo) p -> NoDup l ->
      rev P ++ c :: todo = rev l ->
      (forall l1 a l2 x, l = l1 ++ a :: l2 -> In x l2 -> ~ In x g -> In a (parents w x) -> False) ->
      good w p.
    Proof.
      intros I ND E O.
      assert (forall y q, In y P -> ~ In y g -> In q (parents w y) -> In q P) as PC.
      { intros y q Hy Ny Hq. destruct I.
        assert (In q l) as Lq by (apply (LC y); [apply pi_all0; now left|assumption|assumption]).
        pose proof (proj1 (pi_all0 q) Lq) as [H|H]; [assumption|]. exfalso.
        assert (l = rev todo ++ [c] ++ P) as El.
        { rewrite <- (rev_involutive l), <- E, rev_app_distr, rev_involutive. cbn.
          now rewrite <- app_assoc. }
        assert (exists l1 l2, rev todo ++ [c] = l1 ++ q :: l2) as [l1 [l2 E']].
        { apply in_split. apply in_app_iff. destruct H as [<-|H]; [right; now left|].
          left. now apply -> in_rev. }
        rewrite app_assoc, E', <- app_assoc in El. cbn in El.
        apply (O _ _ _ y El); auto. apply in_app_iff. now right. }
      assert (forall y a, ancestor w y a -> In y P -> In a g \/ In a P) as PA.
      { intros y a H. induction H as [y|y q a H H' IH]; intros Hy; [now right|].
        destruct (in_dec Nat.eq_dec y g) as [Yg|Yg].
        - left. destruct G as [_ [_ [AP _]]]. apply (AP y); [assumption|]. econstructor; eauto.
        - apply IH. eauto. }
      destruct I.
      assert (forall x, In x (p_graph p) <-> In x g \/ In x P) as GE.
      { intros x. split; [|intros [H|H]; auto]. intros H.
        apply pi_anc0 in H as [H|[y [Hy H]]]; [auto|]. eauto. }
      destruct G as [G1 [G2 [G3 [G4 [G5 [G6 G7]]]]]]. destruct pi_same0 as [SB SS].
      assert (forall x, In x P -> In x l) as PL by (intros x H; apply pi_all0; now left).
      assert (forall x, In x (p_graph p) -> space_of w x = p_space p) as SP.
      { intros x Hx. rewrite SS. apply GE in Hx as [Hx|Hx]; auto. }
      assert (forall o c d n, In o P -> In c g \/ In c P -> In d g \/ In d P ->
        In (o, n) (deleted w c) -> In (o, n) (deleted w d) -> c = d) as CK.
      { intros o c1 d n Ho Hc Hd Xc Xd. apply (pi_checked0 o c1 d n); auto;
          [destruct Hc|destruct Hd]; auto. }
      split; [|split; [|split; [|split; [|split; [|split]]]]].
      - intros x Hx. apply GE in Hx as [Hx|Hx]; auto.
      - intros a d [o n] Ha Hd Xa Xd. apply GE in Ha, Hd.
        destruct (in_dec Nat.eq_dec a g) as [Ia|Ia]; destruct (in_dec Nat.eq_dec d g) as [Id|Id].
        + eapply G2; eauto.
        + destruct Hd as [Hd|Hd]; [contradiction|].
          apply (CK o a d n); auto.
          apply (PC d); auto. apply (wf_del w W) in Xd. assumption.
        + destruct Ha as [Ha|Ha]; [contradiction|].
          apply (CK o a d n); auto.
          apply (PC a); auto. apply (wf_del w W) in Xa. assumption.
        + destruct Ha as [Ha|Ha]; [contradiction|].
          apply (CK o a d n); auto.
          apply (PC a); auto. apply (wf_del w W) in Xa. assumption.
      - intros x a Hx H. apply GE. apply GE in Hx as [Hx|Hx]; [left|]; eauto.
      - rewrite SB. auto.
      - intros x Hx. rewrite SB. split; [|intros ->; now apply (G5 (p_base p0) G4)].
        intros B. apply (wf_one_base w W); [assumption|now apply (G5 (p_base p0) G4)|].
        rewrite (SP x Hx), SS. symmetry. auto.
      - assumption.
      - intros k L H. destruct (pi_cache0 k L H) as [Y0 [Y1 Y2]]. split; [assumption|].
        intros d. split; [apply Y1|].
        intros [H1 H2]. destruct (Y2 d H1 H2) as [Z|[Z Z']]; [assumption|]. exfalso.
        apply GE in H1 as [H1|H1]; [contradiction|].
        assert (NoDup (rev P ++ c :: todo)) as N by (rewrite E; now apply NoDup_rev).
        apply NoDup_app_iff_local in N as [_ [_ N]]. apply (N d); [|assumption].
        now apply -> in_rev.
    Qed.
  End Add.

  Lemma gaw_new w (W : wfw w) p cs : (forall c, In c cs -> c < length w) ->
    exists l, get_ancestors_while w cs (fun c => negb (memb c (p_graph p))) = Some l /\ NoDup l /\
      (forall x, In x l -> x < length w) /\
      (forall x q, In x l -> ~ In x (p_graph p) -> In q (parents w x) -> In q l) /\
      (forall x, In x l -> ancestors_of w cs x) /\ (forall c, In c cs -> In c l).
  Proof.
    intros L. set (cont := fun c => negb (memb c (p_graph p))).
    destruct (ancestors_spec w (wf_lt w W) cont cs L) as [l [s [E A]]].
    exists l. split; [assumption|]. split; [apply A|]. split; [apply A|]. split; [|split; [|apply A]].
    - intros x q Hx Nx Hq. apply (ai_closed _ _ _ _ _ A x q); auto.
      unfold cont. now rewrite (proj2 (memb_nIn x (p_graph p)) Nx).
    - intros x Hx. apply A in Hx as [c [Hc R]]. exists c. split; [assumption|].
      clear - R. induction R; econstructor; eauto.
  Qed.

  (** The exact condition under which commits are added. *)
  Lemma try_add_spec w (W : wfw w) p (G : good w p) cs : (forall c, In c cs -> c < length w) ->
    exists r, try_add_commits insert w p cs = Some r /\
    match r with
    | (p', Ok _) => good w p' /\
        (forall a, In a (p_graph p') <-> In a (p_graph p) \/ ancestors_of w cs a)
    | (p', Err e) =>
        (exists c, ancestors_of w cs c /\ space_of w c <> p_space p) \/
        (exists c d x, c <> d /\ (In c (p_graph p) \/ ancestors_of w cs c) /\
           (In d (p_graph p) \/ ancestors_of w cs d) /\
           In x (deleted w c) /\ In x (deleted w d))
    end.
  Proof.
    intros L. destruct (gaw_new w W p cs L) as [l [E [N [LT [LC [LA LS]]]]]].
    unfold try_add_commits. rewrite E. eexists. split; [reflexivity|].
    assert (pinv w p l [] (rev l) p) as I.
    { apply pinv_init; [assumption|intro x; apply in_rev|reflexivity]. }
    pose proof (add_loop_spec w W p G l LT LC _ _ _ I) as S.
    destruct (add_loop insert w l (rev l) p) as [p' [u|e]].
    - destruct S as [S1 S2]. split; [assumption|]. intros a. rewrite S2. split.
      + intros [H|H]; auto.
      + intros [H|[c [Hc H]]]; [now left|]. apply LS in Hc.
        apply or_comm. apply (anc_in w p G l LC c); assumption.
    - destruct S as [P [c [todo [I' [Eq [S|[n [c1 [c2 [N12 [H1 [H2 [X1 X2]]]]]]]]]]]]].
      + left. exists c. split; [|assumption]. apply LA. apply (pi_all _ _ _ _ _ _ I'). right. now left.
      + right. exists c1, c2, (c, n). repeat split; auto.
        * destruct H1; auto.
        * destruct H2; auto.
  Qed.

  Lemma try_add_stop w (W : wfw w) p (G : good w p) cs (rank : nat -> nat) p' r :
    (forall c, In c cs -> c < length w) ->
    (forall c q, In q (parents w c) -> rank q = S (rank c)) ->
    try_add_commits insert w p cs = Some (p', r) -> good w p'.
  Proof.
    intros L RK H. destruct (gaw_new w W p cs L) as [l [E [N [LT [LC [LA LS]]]]]].
    unfold try_add_commits in H. rewrite E in H. injection H as H.
    assert (pinv w p l [] (rev l) p) as I.
    { apply pinv_init; [assumption|intro x; apply in_rev|reflexivity]. }
    pose proof (add_loop_spec w W p G l LT LC _ _ _ I) as S. rewrite H in S.
    destruct r as [u|e]; [now destruct S|].
    destruct S as [P [c [todo [I' [Eq _]]]]]. cbn in Eq.
    apply (pinv_stop_good w W p G l LT LC P c todo p' I' N Eq).
    intros l1 a l2 x El Hx Nx Ha.
    set (cont := fun c => negb (memb c (p_graph p))) in *.
    assert (ordered w cont l) as O.
    { unfold get_ancestors_while in E.
      eapply (ancestors_ordered_aux w (wf_lt w W) cont rank RK cs [] [] []); eauto.
      - constructor; cbn; try tauto. constructor.
      - intros k1 y k2 z Ek. now destruct k1. }
    apply (O l1 a l2 x El Hx). apply reach_up with a; [|assumption|constructor].
    unfold cont. now rewrite (proj2 (memb_nIn x (p_graph p)) Nx).
  Qed.

  (** ** The world may grow under a history *)
  Lemma good_grow w x p : wfw w -> good w p -> good (w ++ [x]) p.
  Proof.
    intros W [G1 [G2 [G3 [G4 [G5 [G6 G7]]]]]].
    split; [intros c H; rewrite app_length; cbn; apply G1 in H; lia|].
    split; [|split; [|split; [|split; [|split]]]].
    - intros c d y Hc Hd. rewrite !deleted_old by auto. now apply G2.
    - intros c a Hc H. apply (ancestor_old w x (wf_lt w W)) in H; eauto.
    - assumption.
    - intros c Hc. rewrite is_base_old by auto. auto.
    - intros c Hc. rewrite space_old by auto. auto.
    - intros c L H. destruct (G7 c L H) as [K1 K2]. split; [assumption|].
      intros d. rewrite K2. split; intros [Hd P]; (split; [assumption|]);
        rewrite parents_old in *; auto.
  Qed.

  Lemma good_children w p c : good w p ->
    let '(p1, chs) := children_commits w p c in
    good w p1 /\ p_graph p1 = p_graph p /\ p_base p1 = p_base p /\ p_space p1 = p_space p /\
    NoDup chs /\ (forall d, In d chs <-> In d (p_graph p) /\ In c (parents w d)).
  Proof.
    intros G. unfold children_commits. destruct (assoc c (p_cache p)) as [L|] eqn:E.
    - destruct G as [G1 [G2 [G3 [G4 [G5 [G6 G7]]]]]]. destruct (G7 c L E) as [K1 K2].
      split; [repeat (split; [assumption|]); assumption|].
      split; [reflexivity|]. split; [reflexivity|]. split; [reflexivity|]. split; assumption.
    - destruct G as [G1 [G2 [G3 [G4 [G5 [G6 G7]]]]]].
      split; [|cbn; split; [reflexivity|]; split; [reflexivity|]; split; [reflexivity|];
        split; [apply graph_children_NoDup|exact (graph_children_In w (p_graph p) c)]].
      split; [assumption|]. cbn. repeat (split; [assumption|]).
      intros k L. cbn. destruct (Nat.eqb_spec k c) as [->|N]; [|apply G7].
      intros [= <-]. split; [apply graph_children_NoDup|]. intro d. apply graph_children_In.
  Qed.

  (** ** Replacements *)
  Lemma check_parents_spec w (W : wfw w) del : forall owners p, good w p ->
    let '(p1, r) := check_parents w p del owners in
    good w p1 /\ p_graph p1 = p_graph p /\ p_base p1 = p_base p /\ p_space p1 = p_space p /\
    match r with
    | Ok _ => forall o n d, In o owners -> In (o, n) del -> In d (p_graph p) ->
                            ~ In (o, n) (deleted w d)
    | Err e => exists o n d, e = IncompatibleHistory o n /\ In (o, n) del /\ In d (p_graph p) /\
                             In (o, n) (deleted w d)
    end.
  Proof.
    induction owners as [|o owners IH]; intros p G; cbn [check_parents].
    - repeat (split; [auto|]). intros o n d [].
    - unfold deleted_nodes. pose proof (good_children w p o G) as C.
      destruct (children_commits w p o) as [p1 chs]. destruct C as [G1 [E1 [E2 [E3 [CN C]]]]].
      destruct (find _ _) as [n|] eqn:F.
      + apply find_some in F as [F1 F2]. repeat (split; [auto|]).
        apply memb_In, in_flat_map in F2 as [d [Hd X]]. apply deleted_of_In in X.
        apply C in Hd as [Hd _]. exists o, n, d. repeat split; auto.
        apply in_map_iff in F1 as [[o' m] [<- F1]]. apply filter_In in F1 as [F1 Eo].
        cbn in Eo. apply Nat.eqb_eq in Eo. now subst.
      + specialize (IH p1 G1). destruct (check_parents w p1 del owners) as [p2 r].
        destruct IH as [G2 [E1' [E2' [E3' IH]]]].
        split; [assumption|]. split; [congruence|]. split; [congruence|]. split; [congruence|].
        rewrite E1 in IH. destruct r as [u|e]; [|assumption].
        intros o' n d [<-|Ho] Hn Hd X; [|eapply IH; eauto].
        rewrite find_none in F. specialize (F n).
        assert (memb n (flat_map (deleted_of w o) chs) = false) as M.
        { apply F. apply in_map_iff. exists (o, n). split; [reflexivity|].
          apply filter_In. split; [assumption|]. apply Nat.eqb_refl. }
        apply memb_nIn in M. apply M, in_flat_map. exists d. split; [|now apply deleted_of_In].
        apply C. split; [assumption|]. apply (wf_del w W) in X. assumption.
  Qed.

  Lemma commit_wfw' w s del w' c : wfw w -> NoDup del ->
    commit_try_new w s del [] = Ok (w', c) -> wfw w'.
  Proof. intros. eapply commit_wfw; eauto. intros x []. Qed.

  (** The exact condition under which a replacement is added, when its nodes are in the history. *)
  Lemma try_add_replacement_spec w (W : wfw w) p (G : good w p) del :
    NoDup del -> (forall x, In x del -> In (fst x) (p_graph p)) ->
    exists w' p' r, try_add_replacement insert w p del = Some (w', p', r) /\
      match r with
      | Ok c => c = length w /\ w' = w ++ [Commit (p_space p) false (uniq [] (map fst del)) del] /\
                good w' p' /\ (forall a, In a (p_graph p') <-> In a (p_graph p) \/ a = c) /\
                del <> [] /\ (forall d x, In d (p_graph p) -> In x del -> ~ In x (deleted w d))
      | Err e => good w p' /\ w' = w /\ (forall a, In a (p_graph p') <-> In a (p_graph p)) /\
                 ((del = [] /\ e = EmptyReplacement) \/
                  exists o n d, e = IncompatibleHistory o n /\ In (o, n) del /\
                                In d (p_graph p) /\ In (o, n) (deleted w d))
      end.
  Proof.
    intros ND OW. unfold try_add_replacement.
    pose proof (check_parents_spec w W del (uniq [] (map fst del)) p G) as C.
    destruct (check_parents w p del (uniq [] (map fst del))) as [p1 [u|e]].
    2:{ destruct C as [G1 [E1 [E2 [E3 C]]]]. do 3 eexists. split; [reflexivity|].
        split; [assumption|]. split; [reflexivity|]. split; [intro; now rewrite E1|]. now right. }
    destruct C as [G1 [E1 [E2 [E3 C]]]].
    assert (forall d x, In d (p_graph p) -> In x del -> ~ In x (deleted w d)) as FREE.
    { intros d [o n] Hd Hx X. apply (C o n d); auto. apply uniq_nil_In.
      apply in_map_iff. exists (o, n). auto. }
    destruct del as [|d0 del'].
    { cbn. do 3 eexists. split; [reflexivity|]. split; [assumption|]. split; [reflexivity|].
      split; [intro; now rewrite E1|]. now left. }
    set (del := d0 :: del') in *.
    destruct G as [GL [GC [GA [GB [GO [GS GK]]]]]].
    assert (get_parent_commits w (p_space p) del = Ok (uniq [] (map fst del))) as EP.
    { unfold get_parent_commits. rewrite (proj2 (find_none _ _)); [reflexivity|].
      intros o Ho. apply uniq_nil_In, in_map_iff in Ho as [x [<- Hx]].
      apply negb_false_iff. unfold try_upgrade. pose proof (OW x Hx) as H.
      pose proof (GS _ H) as S. unfold space_of in S.
      destruct (nth_error w (fst x)) eqn:E; [now apply Nat.eqb_eq|].
      apply nth_error_None in E. apply GL in H. lia. }
    set (ps := uniq [] (map fst del)) in *.
    set (w' := w ++ [Commit (p_space p) false (uniq [] ps) del]).
    assert (uniq [] ps = ps) as UU.
    { clear. unfold ps. generalize (map fst del) as l. intros l. generalize (uniq_NoDup l []).
      generalize (uniq [] l). clear. intros l.
      assert (forall seen, NoDup l -> (forall x, In x l -> ~ In x seen) -> uniq seen l = l) as H.
      { induction l as [|x l IH]; cbn; intros seen N D; [reflexivity|].
        apply NoDup_cons_iff in N as [N1 N2]. rewrite (proj2 (memb_nIn x seen)) by (apply D; now left).
        f_equal. apply IH; [assumption|]. intros y Hy [<-|F]; [contradiction|]. apply (D y); auto. }
      intros N. apply H; auto. }
    assert (forall q, In q ps <-> exists x, In x del /\ fst x = q) as PS.
    { intros q. unfold ps. rewrite uniq_nil_In, in_map_iff. split; intros [x [A B]]; exists x; auto. }
    assert (parents w' (length w) = ps) as EPar
      by (unfold parents, w'; rewrite nth_new; cbn; exact UU).
    assert (forall c q, In q (parents w' c) -> q < c) as L1.
    { intros c q H. pose proof (parents_lt _ _ _ H) as Lc. unfold w' in Lc.
      rewrite app_length in Lc; cbn in Lc. destruct (Nat.eq_dec c (length w)) as [->|N].
      - rewrite EPar in H. apply PS in H as [x [Hx <-]]. apply GL, OW, Hx.
      - unfold w' in H. rewrite parents_old in H by lia. now apply (wf_lt w W). }
    assert (forall a, ancestor w' (length w) a <-> a = length w \/
              exists q, In q ps /\ ancestor w q a) as ANC.
    { intros a. split.
      - intros H. inversion H as [|? q ? Hq Ha]; subst; [now left|]. right. exists q.
        rewrite EPar in Hq. split; [assumption|]. apply (ancestor_old w _ (wf_lt w W)) in Ha; [assumption|].
        apply PS in Hq as [x [Hx <-]]. apply GL, OW, Hx.
      - intros [->|[q [Hq Ha]]]; [constructor|]. apply anc_up with q; [now rewrite EPar|].
        apply ancestor_old; [exact (wf_lt w W)| |assumption].
        apply PS in Hq as [x [Hx <-]]. apply GL, OW, Hx. }
    assert (is_base w' (length w) = false) as NB by (unfold is_base, w'; now rewrite nth_new).
    assert (forall a, In a (base_ancestors w' (length w)) <-> a = p_base p) as BA.
    { intros a. rewrite base_ancestors_In by exact L1. rewrite ANC. split.
      - intros [[->|[q [Hq Ha]]] B]; [congruence|].
        apply PS in Hq as [x [Hx <-]]. assert (In a (p_graph p)) as Hag by eauto.
        apply (GO a Hag). unfold w' in B. rewrite is_base_old in B by auto. assumption.
      - intros ->. split.
        + right. exists (fst d0). split; [apply PS; exists d0; split; [now left|reflexivity]|].
          assert (In (fst d0) (p_graph p)) as H0 by (apply OW; now left).
          destruct (wf_has_base w W (fst d0)) as [b [Hb B]]; [auto|].
          assert (b = p_base p) as <-; [|assumption]. apply GO; eauto.
        + unfold w'. rewrite is_base_old by auto. now apply GO. }
    assert (commit_try_new w (p_space p) del [] = Ok (w', length w)) as EC.
    { unfold commit_try_new. unfold del at 1. rewrite EP. cbn [app]. fold w'. cbv zeta.
      rewrite (nodup_same_length _ (p_base p) (base_ancestors_NoDup _ _) BA). reflexivity. }
    rewrite EC. assert (wfw w') as W' by (eapply commit_wfw'; eauto).
    assert (good w' p1) as G1' by (apply good_grow; assumption).
    assert (length w < length w') as LW by (unfold w'; rewrite app_length; cbn; lia).
    unfold try_add_commit.
    destruct (try_add_spec w' W' p1 G1' [length w]) as [[p2 r] [E S]].
    { intros c [<-|[]]. assumption. }
    rewrite E.
    assert (forall a, In a (p_graph p1) \/ ancestors_of w' [length w] a <->
                      In a (p_graph p) \/ a = length w) as SET.
    { intros a. rewrite E1. split.
      - intros [H|[c [[<-|[]] H]]]; [now left|]. apply ANC in H as [->|[q [Hq Ha]]]; [now right|].
        left. apply PS in Hq as [x [Hx <-]]. eauto.
      - intros [H| ->]; [now left|]. right. exists (length w). split; [now left|constructor]. }
    assert (forall c d x, c <> d -> In c (p_graph p) \/ c = length w ->
              In d (p_graph p) \/ d = length w ->
              In x (deleted w' c) -> In x (deleted w' d) -> False) as NC.
    { assert (deleted w' (length w) = del) as ED by (unfold deleted, w'; now rewrite nth_new).
      assert (forall c, In c (p_graph p) -> deleted w' c = deleted w c) as EO.
      { intros c Hc. apply deleted_old. auto. }
      intros c d x N Hc Hd Xc Xd. destruct Hc as [Hc| ->], Hd as [Hd| ->].
      - apply N. rewrite EO in Xc, Xd by assumption. eapply GC; eauto.
      - rewrite ED in Xd. rewrite EO in Xc by assumption. eapply FREE; eauto.
      - rewrite ED in Xc. rewrite EO in Xd by assumption. eapply FREE; eauto.
      - congruence. }
    destruct r as [u'|e].
    - exists w', p2, (Ok (length w)). split; [reflexivity|].
      destruct S as [S1 S2]. split; [reflexivity|]. split; [unfold w'; now rewrite UU|].
      split; [assumption|]. split; [|split; [discriminate|assumption]].
      intros a. now rewrite S2, SET.
    - exfalso. destruct S as [[c [Hc Sc]]|[c [d [x [N [Hc [Hd [Xc Xd]]]]]]]].
      + apply Sc. destruct Hc as [c' [[<-|[]] Ha]]. rewrite (space_anc w' W' (length w) c) by assumption.
        unfold space_of, w'. rewrite nth_new. now rewrite E3.
      + apply (NC c d x N); auto; now apply SET.
  Qed.

  (** ** Histories *)
  Lemma history_good w p : history insert w p -> wfw w /\ good w p.
  Proof.
    induction 1 as [w cs p M L H|w p s w' c H IH E|w p s del extra w' c H IH N X E
                   |w p cs p' H IH L E|w p del w' p' c H IH N O E].
    - pose proof (made_wfw w M) as W. split; [assumption|].
      destruct (try_new_spec w W cs L) as [r [E S]]. rewrite E in H. injection H as ->. apply S.
    - destruct IH as [W G]. pose proof (base_wfw w s w' c W E). split; [assumption|].
      apply try_set_base_inv in E as [_ [-> _]]. now apply good_grow.
    - destruct IH as [W G]. pose proof (commit_wfw w s del extra w' c W N X E). split; [assumption|].
      apply commit_try_new_inv in E as [ps [_ [_ [_ [-> _]]]]]. now apply good_grow.
    - destruct IH as [W G]. split; [assumption|].
      destruct (try_add_spec w W p G cs L) as [r [E' S]]. rewrite E' in E. injection E as ->.
      apply S.
    - destruct IH as [W G]. destruct (try_add_replacement_spec w W p G del N O)
        as [w'' [p'' [r [E' S]]]]. rewrite E' in E. injection E as -> -> ->.
      destruct S as [_ [-> [S _]]]. split; [|assumption].
      assert (commit_try_new w (p_space p) del [] = Ok (w ++ [Commit (p_space p) false (uniq [] (map fst del)) del], c) \/ True) as _ by now right.
      clear S. revert E'. unfold try_add_replacement.
      destruct (check_parents w p del _) as [p1 [u|e]]; [|discriminate].
      destruct (commit_try_new w (p_space p) del []) as [[w1 c1]|e] eqn:EC; [|discriminate].
      destruct (try_add_commit insert w1 p1 c1) as [[p2 r2]|]; [|discriminate].
      intros [= <- _ _]. eapply commit_wfw'; eauto.
  Qed.

  (** ** is_valid and node queries *)
  Lemma valid_loop_spec w (W : wfw w) : forall todo p found, good w p ->
    (forall c, In c todo -> In c (p_graph p)) ->
    (found = true \/ In (p_base p) todo) ->
    snd (valid_loop w p todo found) = Ok tt.
  Proof.
    induction todo as [|c todo IH]; intros p found G S F; cbn [valid_loop].
    - destruct F as [->|[]]. reflexivity.
    - assert (is_base w c && negb (c =? p_base p) = false) as ->.
      { destruct (is_base w c) eqn:B; [|reflexivity]. cbn. apply negb_false_iff, Nat.eqb_eq.
        destruct G as [_ [_ [_ [_ [GO _]]]]]. apply (GO c); [|assumption]. apply S. now left. }
      pose proof (good_children w p c G) as C.
      destruct (children_commits w p c) as [p1 chs]. destruct C as [G1 [E1 [E2 [E3 [CN C]]]]].
      rewrite (check_complete w W c chs CN).
      + apply IH; [assumption| |].
        * intros d Hd. rewrite E1. apply S. now right.
        * rewrite E2. destruct F as [->|[->|F]]; [now left| |now right].
          left. destruct G as [_ [_ [_ [GB [GO _]]]]]. rewrite (proj2 (GO _ GB) eq_refl).
          apply orb_true_r.
      + intros a d n Ha Hd Xa Xd. apply C in Ha as [Ha _], Hd as [Hd _].
        destruct G as [_ [GC _]]. eapply GC; eauto.
  Qed.

  (** A history that passes the check, with right caches, is good apart from being complete. *)
  Lemma valid_loop_sound w : forall todo p found p',
    cache_right w p -> valid_loop w p todo found = (p', Ok tt) ->
    (forall c, In c todo -> is_base w c = true -> c = p_base p) /\
    (found = true \/ exists c, In c todo /\ is_base w c = true) /\
    (forall o c d n, In o todo -> In c (p_graph p) -> In d (p_graph p) ->
       In o (parents w c) -> In o (parents w d) ->
       In (o, n) (deleted w c) -> In (o, n) (deleted w d) -> c = d).
  Proof.
    induction todo as [|c todo IH]; intros p found p' K; cbn [valid_loop].
    - destruct found; [|discriminate]. intros _. repeat split; auto; contradiction.
    - destruct (is_base w c && negb (c =? p_base p)) eqn:B; [discriminate|].
      destruct (children_commits w p c) as [p1 chs] eqn:CH.
      assert (cache_right w p1 /\ p_graph p1 = p_graph p /\ p_base p1 = p_base p /\
              forall d, In d chs <-> In d (p_graph p) /\ In c (parents w d)) as [K1 [E1 [E2 C]]].
      { revert CH. unfold children_commits. destruct (assoc c (p_cache p)) as [L|] eqn:E.
        - intros [= <- <-]. destruct (K c L E) as [Q1 Q2]. auto.
        - intros [= <- <-]. cbn.
          split; [|split; [reflexivity|split; [reflexivity|exact (graph_children_In w (p_graph p) c)]]].
          intros k L. cbn. destruct (Nat.eqb_spec k c) as [->|N]; [|apply K].
          intros [= <-]. split; [apply graph_children_NoDup|]. intro d. apply graph_children_In. }
      destruct (find_conflicting_node w c chs) as [n|] eqn:F; [discriminate|].
      intros H. apply IH in H as [H1 [H2 H3]]; [|assumption]. rewrite E1, E2 in *.
      split; [|split].
      + intros d [<-|Hd] Bd; [|auto]. rewrite Bd in B. cbn in B.
        apply negb_false_iff, Nat.eqb_eq in B. assumption.
      + destruct H2 as [H2|[d [Hd Bd]]]; [|right; exists d; cbn; auto].
        apply orb_true_iff in H2 as [->|H2]; [now left|]. right. exists c. cbn. auto.
      + intros o a d n [<-|Ho] Ha Hd Pa Pd Xa Xd; [|eauto].
        apply (check_sound w c chs F a d n); auto; apply C; auto.
  Qed.

  Lemma find_deleting_spec w (W : wfw w) p c n : good w p ->
    (forall d, find_deleting_commit w p c n = Some d <->
               In d (p_graph p) /\ In (c, n) (deleted w d)) /\
    (contains_node w p c n = true <->
     In c (p_graph p) /\ forall d, In d (p_graph p) -> ~ In (c, n) (deleted w d)).
  Proof.
    intros G. unfold find_deleting_commit, contains_node, deleted_nodes.
    pose proof (good_children w p c G) as C.
    destruct (children_commits w p c) as [p1 chs]. destruct C as [G1 [E1 [E2 [E3 [CN C]]]]]. cbn [snd].
    assert (forall d, In d (p_graph p) -> In (c, n) (deleted w d) ->
                      In d chs /\ memb n (deleted_of w c d) = true) as U.
    { intros d Hd X. split; [|now apply memb_In, deleted_of_In]. apply C. split; [assumption|].
      apply (wf_del w W) in X. assumption. }
    split.
    - intros d. split.
      + intros H. apply find_some in H as [H1 H2]. apply C in H1 as [H1 _]. split; [assumption|].
        now apply deleted_of_In, memb_In.
      + intros [Hd X]. destruct (U d Hd X) as [U1 U2].
        destruct (find _ chs) as [d'|] eqn:F.
        * apply find_some in F as [F1 F2]. apply C in F1 as [F1 _].
          apply memb_In, deleted_of_In in F2. f_equal. destruct G as [_ [GC _]]. eapply GC; eauto.
        * rewrite find_none in F. rewrite (F d U1) in U2. discriminate.
    - rewrite andb_true_iff, negb_true_iff, memb_In, memb_nIn, in_flat_map. split.
      + intros [Hc H]. split; [assumption|]. intros d Hd X. apply H. exists d.
        destruct (U d Hd X) as [U1 U2]. split; [assumption|]. now apply memb_In.
      + intros [Hc H]. split; [assumption|]. intros [d [Hd X]]. apply C in Hd as [Hd _].
        apply (H d Hd). now apply deleted_of_In.
  Qed.
End Insert.
