(** Lemmas about inserting nodes. *)
From Coq Require Import List Bool NArith Arith Lia Permutation.
From Verif Require Import GraphModel GraphSpec GraphProofs GraphRemove GraphBfs InsertModel.
Import ListNotations.

Lemma lookup_In : forall A (m : list (N * A)) k v, lookup m k = Some v -> In (k, v) m.
Proof.
  induction m as [|[a b] m IH]; cbn [lookup]; intros k v E; [discriminate|].
  destruct (N.eqb_spec a k) as [->|]; [injection E as ->; now left|right; auto].
Qed.
Lemma lookup_None : forall A (m : list (N * A)) k, lookup m k = None <-> ~ In k (map fst m).
Proof.
  induction m as [|[a b] m IH]; cbn [lookup map]; intros k; [split; auto|].
  destruct (N.eqb_spec a k) as [->|Ne]; [split; [discriminate|]; intros H; destruct H; now left|].
  rewrite IH. cbn. intuition.
Qed.
Lemma lookup_nodup : forall A (m : list (N * A)) k v, NoDup (map fst m) -> In (k, v) m -> lookup m k = Some v.
Proof.
  induction m as [|[a b] m IH]; cbn [lookup map In]; intros k v D I; [destruct I|].
  inversion D as [|? ? Na D']; subst. destruct I as [E|I].
  - inversion E; subst. now rewrite N.eqb_refl.
  - destruct (N.eqb_spec a k) as [->|]; [|auto]. exfalso. apply Na. apply in_map_iff. exists (k, v). auto.
Qed.
Lemma lookup_iff : forall A (m : list (N * A)), NoDup (map fst m) -> forall k v, lookup m k = Some v <-> In (k, v) m.
Proof. intros A m D k v. split; [apply lookup_In|now apply lookup_nodup]. Qed.
Lemma lookup_ex : forall A (m : list (N * A)) k, In k (map fst m) -> exists v, lookup m k = Some v.
Proof.
  intros A m k I. destruct (lookup m k) eqn:E; [eauto|]. apply lookup_None in E. contradiction.
Qed.
Lemma lookup_inj : forall (m : list (N * N)), NoDup (map snd m) -> forall a b v, lookup m a = Some v -> lookup m b = Some v -> a = b.
Proof.
  intros m D a b v A B. apply lookup_In in A, B. induction m as [|[x y] m IH]; [destruct A|].
  cbn [map] in D. inversion D as [|? ? Ny D']; subst.
  assert (G : forall k w, In (k, w) m -> In w (map snd m)).
  { intros k w I. apply in_map_iff. exists (k, w). auto. }
  destruct A as [A|A], B as [B|B].
  - congruence.
  - inversion A; subst. exfalso. apply Ny. eauto.
  - inversion B; subst. exfalso. apply Ny. eauto.
  - auto.
Qed.

(** ** Links touching a node *)
Lemma filter_or : forall A (f g : A -> bool) l, (forall x, In x l -> f x = true -> g x = false) ->
  Permutation (filter (fun x => f x || g x) l) (filter f l ++ filter g l).
Proof.
  intros A f g l H. induction l as [|x l IH]; [constructor|]. cbn [filter].
  assert (H' : forall y, In y l -> f y = true -> g y = false) by (intros y I; apply H; now right).
  specialize (IH H'). destruct (f x) eqn:F; cbn [orb].
  - rewrite (H x (or_introl eq_refl) F). cbn [app]. now constructor.
  - destruct (g x); [|exact IH]. eapply Permutation_trans; [constructor; exact IH|]. apply Permutation_middle.
Qed.

Lemma ports_partition : forall (key : link -> endpoint) old ls k,
  (forall l, In l ls -> fst (key l) = old -> snd (key l) < k) ->
  Permutation (flat_map (fun t => filter (fun l => ep_eqb (key l) (old, t)) ls) (seq 0 k))
              (filter (fun l => N.eqb (fst (key l)) old) ls).
Proof.
  intros key old ls k B.
  assert (G : forall k, Permutation (flat_map (fun t => filter (fun l => ep_eqb (key l) (old, t)) ls) (seq 0 k))
                          (filter (fun l => N.eqb (fst (key l)) old && Nat.ltb (snd (key l)) k) ls)).
  { clear B k. induction k as [|k IH].
    - cbn [seq flat_map]. replace (filter (fun l => N.eqb (fst (key l)) old && Nat.ltb (snd (key l)) 0) ls) with (@nil link); [constructor|].
      symmetry. clear. induction ls as [|l ls IH]; [reflexivity|]. cbn [filter].
      destruct (Nat.ltb_spec (snd (key l)) 0); [lia|]. now rewrite andb_false_r.
    - rewrite seq_S, flat_map_app. cbn [flat_map plus]. rewrite app_nil_r.
      eapply Permutation_trans; [apply Permutation_app_tail; exact IH|].
      eapply Permutation_trans; [apply Permutation_sym, filter_or|].
      + intros l _ E. apply andb_true_iff in E. destruct E as [_ E]. apply Nat.ltb_lt in E.
        unfold ep_eqb. cbn [fst snd]. destruct (Nat.eqb_spec (snd (key l)) k); [lia|]. apply andb_false_r.
      + apply Permutation_refl'. apply filter_ext. intros l. unfold ep_eqb. cbn [fst snd].
        destruct (N.eqb (fst (key l)) old); [cbn [andb orb]|reflexivity].
        destruct (Nat.ltb_spec (snd (key l)) k), (Nat.eqb_spec (snd (key l)) k), (Nat.ltb_spec (snd (key l)) (S k)); auto; lia. }
  eapply Permutation_trans; [apply G|]. apply Permutation_refl'. apply filter_ext_in. intros l I.
  destruct (N.eqb_spec (fst (key l)) old) as [E|]; [|reflexivity]. cbn [andb]. apply Nat.ltb_lt. now apply B.
Qed.

Section Insert.
  Context {O M : Type}.
  Variable o_default : O.
  Variable o_in o_out : O -> nat.
  Variable m_empty : M -> bool.
  Notation hugr := (hugr O M).

  Definition mapped (m : list (N * N)) (l : link) : bool :=
    memN (fst (fst l)) (map fst m) && memN (fst (snd l)) (map fst m).
  Definition image_of (m : list (N * N)) (n : N) : N := match lookup m n with Some v => v | None => n end.
  Definition image (m : list (N * N)) (l : link) : link :=
    ((image_of m (fst (fst l)), snd (fst l)), (image_of m (fst (snd l)), snd (snd l))).

  Lemma links_in_perm : forall (other : hugr), wf other -> forall old,
    Permutation (links_in other old) (filter (fun l => N.eqb (fst (snd l)) old) (h_links other)).
  Proof.
    intros other W old. unfold links_in, at_port. apply (ports_partition snd).
    intros l I <-. apply (wf_links other W l I).
  Qed.
  Lemma links_out_perm : forall (other : hugr), wf other -> forall old,
    Permutation (links_out other old) (filter (fun l => N.eqb (fst (fst l)) old) (h_links other)).
  Proof.
    intros other W old. unfold links_out, at_port. apply (ports_partition fst).
    intros l I <-. apply (wf_links other W l I).
  Qed.

  (** Connecting a list of links. *)
  Lemma connect_all_spec : forall m ls (h : hugr),
    (forall l, In l ls -> mapped m l = true -> out_port h (fst (image m l)) /\ in_port h (snd (image m l))) ->
    connect_all m h ls = Some (set_links h (h_links h ++ map (image m) (filter (mapped m) ls))).
  Proof.
    intros m ls. induction ls as [|[[s i] [t j]] ls IH]; intros h H.
    - cbn. rewrite app_nil_r. destruct h; reflexivity.
    - cbn [connect_all filter]. unfold mapped at 1. cbn [fst snd].
      assert (R : forall x, In x ls -> mapped m x = true -> out_port h (fst (image m x)) /\ in_port h (snd (image m x))).
      { intros x I. apply H. now right. }
      destruct (lookup m s) as [s'|] eqn:Es.
      + assert (Ms : memN s (map fst m) = true).
        { apply memN_iff. apply lookup_In in Es. apply in_map_iff. exists (s, s'). auto. }
        rewrite Ms. cbn [andb]. destruct (lookup m t) as [t'|] eqn:Et.
        * assert (Mt : memN t (map fst m) = true).
          { apply memN_iff. apply lookup_In in Et. apply in_map_iff. exists (t, t'). auto. }
          rewrite Mt. destruct (H ((s, i), (t, j)) (or_introl eq_refl)) as [Po Pi].
          { unfold mapped. cbn [fst snd]. now rewrite Ms, Mt. }
          unfold image, image_of in Po, Pi. cbn [fst snd] in Po, Pi. rewrite Es in Po. rewrite Et in Pi.
          unfold connect. rewrite (proj2 (valid_port_out h s' i) Po), (proj2 (valid_port_in h t' j) Pi). cbn [andb].
          rewrite IH; [|exact R]. cbn [set_links h_links map h_nodes h_ops h_meta h_in h_out h_parent h_kids h_root h_entry].
          rewrite <- app_assoc. cbn [app]. unfold image at 2, image_of. cbn [fst snd]. rewrite Es, Et. reflexivity.
        * apply lookup_None, memN_false in Et. rewrite Et. now apply IH.
      + apply lookup_None, memN_false in Es. rewrite Es. cbn [andb]. now apply IH.
  Qed.

  (** ** The first loop *)
  Record loaded (h0 other : hugr) (m : list (N * N)) (h : hugr) : Prop := {
    ld_nodes : h_nodes h = map snd m ++ h_nodes h0;
    ld_fresh : forall y, In y (map snd m) -> ~ In y (h_nodes h0);
    ld_keys : NoDup (map fst m);
    ld_vals : NoDup (map snd m);
    ld_ports : forall x y, In (x, y) m -> h_in h y = h_in other x /\ h_out h y = h_out other x;
    ld_ports_old : forall y, In y (h_nodes h0) -> h_in h y = h_in h0 y /\ h_out h y = h_out h0 y;
    ld_ops : forall y, In y (h_nodes h0) -> h_ops h y = h_ops h0 y;
    ld_meta : h_meta h = h_meta h0;
    ld_parent : h_parent h = h_parent h0;
    ld_kids : h_kids h = h_kids h0;
    ld_root : h_root h = h_root h0;
    ld_entry : h_entry h = h_entry h0;
    ld_links : Permutation (h_links h) (h_links h0 ++ map (image m) (filter (mapped m) (h_links other))) }.

  Lemma image_cons_other : forall m x y l, NoDup (x :: map fst m) -> mapped m l = true -> image ((x, y) :: m) l = image m l.
  Proof.
    intros m x y [[s i] [t j]] D E. inversion D as [|? ? Nx _]; subst. unfold mapped in E. cbn [fst snd] in E.
    apply andb_true_iff in E. rewrite !memN_iff in E. destruct E as [E1 E2]. unfold image, image_of. cbn [fst snd lookup].
    destruct (N.eqb_spec x s) as [->|]; [contradiction|]. destruct (N.eqb_spec x t) as [->|]; [contradiction|]. reflexivity.
  Qed.

  (** The links that become complete when [x] is mapped. *)
  Lemma mapped_split : forall m x y ls, ~ In x (map fst m) ->
    Permutation (filter (mapped ((x, y) :: m)) ls)
      (filter (mapped m) ls ++
       (filter (mapped ((x, y) :: m)) (filter (fun l => N.eqb (fst (snd l)) x) ls) ++
        filter (mapped ((x, y) :: m)) (filter (fun l => negb (N.eqb (fst (snd l)) x)) (filter (fun l => N.eqb (fst (fst l)) x) ls)))).
  Proof.
    intros m x y ls Nx. rewrite !filter_filter.
    eapply Permutation_trans; [|apply Permutation_app_head; apply filter_or].
    2:{ intros [[s i] [t j]] _ E. cbn [fst snd] in *. destruct (N.eqb t x); [|discriminate]. cbn [negb andb]. now rewrite ?andb_false_r. }
    eapply Permutation_trans; [|apply filter_or].
    2:{ intros [[s i] [t j]] _ E. unfold mapped in *. cbn [fst snd map] in *. apply andb_true_iff in E. rewrite !memN_iff in E.
        destruct E as [E1 E2]. destruct (N.eqb_spec t x) as [->|]; [contradiction|]. destruct (N.eqb_spec s x) as [->|]; [contradiction|].
        reflexivity. }
    apply Permutation_refl'. apply filter_ext. intros [[s i] [t j]]. unfold mapped. cbn [fst snd map].
    pose proof (proj2 (memN_false x (map fst m)) Nx) as Fx.
    rewrite !memN_cons. destruct (N.eqb_spec s x) as [->|], (N.eqb_spec t x) as [->|]; cbn [orb andb negb];
      rewrite ?Fx; cbn [orb andb]; try reflexivity;
      repeat match goal with |- context[memN ?a ?l] => destruct (memN a l) end; reflexivity.
  Qed.

  Lemma load_step : forall (h0 other h h' : hugr) m old new, wf h0 -> wf other -> loaded h0 other m h ->
    ~ In old (map fst m) -> ~ In new (h_nodes h) ->
    In old (h_nodes other) ->
    exists h1 h2 h3 h4, add_node o_in o_out h new o_default = Some h1 /\
      set_num_ports h1 new (h_in other old) (h_out other old) = Some h2 /\
      connect_all ((old, new) :: m) h2 (links_in other old) = Some h3 /\
      connect_all ((old, new) :: m) h3 (filter (fun l => negb (N.eqb (fst (snd l)) old)) (links_out other old)) = Some h4 /\
      loaded h0 other ((old, new) :: m) h4.
  Proof.
    intros h0 other h _ m old new W0 W L No Nn Io.
    set (m' := (old, new) :: m).
    assert (NnK : ~ In new (map snd m)).
    { intros I. apply Nn. rewrite (ld_nodes _ _ _ _ L). apply in_app_iff. now left. }
    assert (Nn0 : ~ In new (h_nodes h0)).
    { intros I. apply Nn. rewrite (ld_nodes _ _ _ _ L). apply in_app_iff. now right. }
    eexists _, _, _, _.
    split. { unfold add_node. rewrite (proj2 (memN_false new (h_nodes h)) Nn : contains h new = false). reflexivity. }
    split. { unfold set_num_ports. cbn [contains set_ops set_ports set_nodes h_nodes memN existsb]. unfold contains, memN. cbn [h_nodes set_ops set_ports set_nodes existsb].
             rewrite N.eqb_refl. cbn [orb]. reflexivity. }
    cbn [set_ops set_ports set_nodes set_links h_nodes h_in h_out h_links h_ops h_meta h_parent h_kids h_root h_entry].
    (** the links of [h] do not touch the new node *)
    assert (Old : forall l, In l (h_links h) -> fst (fst l) <> new /\ fst (snd l) <> new).
    { intros l I. apply (Permutation_in _ (ld_links _ _ _ _ L)) in I. apply in_app_iff in I. destruct I as [I|I].
      - destruct (wf_links h0 W0 l I) as [[A _] [B _]]. split; intros E; apply Nn0; now rewrite <- E.
      - apply in_map_iff in I. destruct I as (l0 & <- & I). apply filter_In in I. destruct I as [_ Mp].
        destruct l0 as [[s i] [t j]]. unfold mapped in Mp. cbn [fst snd] in Mp. apply andb_true_iff in Mp. rewrite !memN_iff in Mp.
        destruct Mp as [Ms Mt]. unfold image, image_of. cbn [fst snd].
        destruct (lookup_ex _ m s Ms) as (s' & Es). destruct (lookup_ex _ m t Mt) as (t' & Et). rewrite Es, Et.
        apply lookup_In in Es, Et. split; intros ->; apply NnK; apply in_map_iff; [exists (s, new)|exists (t, new)]; auto. }
    replace (filter (fun l : link => negb (N.eqb (fst (fst l)) new && Nat.leb (h_out other old) (snd (fst l))) &&
               negb (N.eqb (fst (snd l)) new && Nat.leb (h_in other old) (snd (snd l)))) (h_links h)) with (h_links h).
    2:{ symmetry. revert Old. generalize (h_links h). induction l as [|l ls IH]; intros Old; [reflexivity|]. cbn [filter].
        destruct (Old l (or_introl eq_refl)) as [A B]. apply N.eqb_neq in A, B. rewrite A, B. cbn [andb negb]. f_equal.
        apply IH. intros x I. apply Old. now right. }
    match goal with |- connect_all _ ?g _ = _ /\ _ => set (h2 := g) end.
    assert (Ports : forall l, In l (h_links other) -> mapped m' l = true -> out_port h2 (fst (image m' l)) /\ in_port h2 (snd (image m' l))).
    { intros [[s i] [t j]] I Mp. destruct (wf_links other W _ I) as [[_ Bo] [_ Bi]]. cbn [fst snd] in Bo, Bi.
      unfold mapped in Mp. cbn [fst snd] in Mp. apply andb_true_iff in Mp. rewrite !memN_iff in Mp. destruct Mp as [Ms Mt].
      assert (G : forall x, In x (map fst m') -> exists y, image_of m' x = y /\ In y (h_nodes h2) /\ h_in h2 y = h_in other x /\ h_out h2 y = h_out other x).
      { intros x Ix. destruct (lookup_ex _ m' x Ix) as (y & Ey). exists y. unfold image_of. rewrite Ey. split; [reflexivity|].
        unfold m' in Ey. cbn [lookup] in Ey. destruct (N.eqb_spec old x) as [<-|Nx].
        - injection Ey as <-. subst h2. cbn. rewrite !upd_same. auto.
        - apply lookup_In in Ey. assert (Yn : y <> new) by (intros ->; apply NnK; apply in_map_iff; exists (x, new); auto).
          subst h2. cbn. rewrite !upd_other by exact Yn. destruct (ld_ports _ _ _ _ L x y Ey) as [P1 P2].
          split; [|auto]. right. rewrite (ld_nodes _ _ _ _ L). apply in_app_iff. left. apply in_map_iff. exists (x, y). auto. }
      destruct (G s Ms) as (s' & Es & Is & _ & Os). destruct (G t Mt) as (t' & Et & It & Ji & _).
      unfold image. cbn [fst snd]. rewrite Es, Et. unfold out_port, in_port. cbn [fst snd]. rewrite Os, Ji. auto. }
    assert (SubIn : forall l, In l (links_in other old) -> In l (h_links other)).
    { intros l I. apply (Permutation_in _ (links_in_perm other W old)) in I. apply filter_In in I. tauto. }
    assert (SubOut : forall l, In l (filter (fun l => negb (N.eqb (fst (snd l)) old)) (links_out other old)) -> In l (h_links other)).
    { intros l I. apply filter_In in I. destruct I as [I _]. apply (Permutation_in _ (links_out_perm other W old)) in I.
      apply filter_In in I. tauto. }
    split. { apply connect_all_spec. intros l I. apply Ports. now apply SubIn. }
    split. { apply connect_all_spec. intros l I Mp. destruct (Ports l (SubOut l I) Mp) as [[A B] [C D]]. split; split; assumption. }
    subst h2. constructor; cbn [set_links set_ports set_ops set_nodes h_nodes h_in h_out h_links h_ops h_meta h_parent h_kids h_root h_entry map snd fst]; try apply L.
    - rewrite (ld_nodes _ _ _ _ L). reflexivity.
    - intros y [<-|I]; [exact Nn0|]. now apply (ld_fresh _ _ _ _ L).
    - constructor; [exact No|apply (ld_keys _ _ _ _ L)].
    - constructor; [exact NnK|apply (ld_vals _ _ _ _ L)].
    - intros x y [E|I].
      + injection E as <- <-. now rewrite !upd_same.
      + assert (Yn : y <> new) by (intros ->; apply NnK; apply in_map_iff; exists (x, new); auto).
        rewrite !upd_other by exact Yn. now apply (ld_ports _ _ _ _ L).
    - intros y I. assert (Yn : y <> new) by (intros ->; contradiction). rewrite !upd_other by exact Yn.
      now apply (ld_ports_old _ _ _ _ L).
    - intros y I. assert (Yn : y <> new) by (intros ->; contradiction). rewrite !upd_other by exact Yn.
      now apply (ld_ops _ _ _ _ L).
    - rewrite <- app_assoc, <- map_app.
      eapply Permutation_trans; [apply Permutation_app_tail; apply (ld_links _ _ _ _ L)|]. rewrite <- app_assoc.
      apply Permutation_app_head.
      assert (Eq : map (image m) (filter (mapped m) (h_links other)) = map (image m') (filter (mapped m) (h_links other))).
      { apply map_ext_in. intros l I. apply filter_In in I. symmetry. apply image_cons_other; [|tauto].
        constructor; [exact No|apply (ld_keys _ _ _ _ L)]. }
      rewrite Eq, <- map_app. apply Permutation_map. apply Permutation_sym.
      eapply Permutation_trans; [apply (mapped_split m old new (h_links other) No)|].
      apply Permutation_app_head. apply Permutation_app.
      + apply filter_perm. apply Permutation_sym. now apply links_in_perm.
      + apply filter_perm. apply filter_perm. apply Permutation_sym. now apply links_out_perm.
  Qed.

  Lemma insert_nodes_spec : forall (h0 other : hugr), wf h0 -> wf other -> forall pairs m h, loaded h0 other m h ->
    NoDup (map fst m ++ map fst pairs) -> NoDup (map snd pairs) ->
    (forall y, In y (map snd pairs) -> ~ In y (h_nodes h)) ->
    (forall x, In x (map fst pairs) -> In x (h_nodes other)) ->
    exists h', insert_nodes o_default o_in o_out other h m pairs = Done (h', rev pairs ++ m) /\
      loaded h0 other (rev pairs ++ m) h'.
  Proof.
    intros h0 other W0 W pairs. induction pairs as [|[old new] pairs IH]; intros m h L D1 D2 Fr Lo.
    - exists h. cbn. auto.
    - cbn [map fst snd] in *. inversion D2 as [|? ? Nn D2']; subst.
      assert (No : ~ In old (map fst m)).
      { intros I. apply NoDup_remove_2 in D1. apply D1. apply in_app_iff. now left. }
      destruct (load_step h0 other h h m old new W0 W L No) as (h1 & h2 & h3 & h4 & E1 & E2 & E3 & E4 & L').
      { apply Fr. now left. }
      { apply Lo. now left. }
      cbn [insert_nodes]. rewrite E1. rewrite (proj2 (lookup_None _ m old) No), E2, E3, E4.
      destruct (IH ((old, new) :: m) h4 L') as (h' & E & L'').
      + cbn [map fst]. apply (Permutation_NoDup (l := map fst m ++ old :: map fst pairs)); [|exact D1].
        apply Permutation_sym. apply Permutation_middle.
      + exact D2'.
      + intros y I. rewrite (ld_nodes _ _ _ _ L'). cbn [map snd]. rewrite in_app_iff. cbn [In].
        rewrite (ld_nodes _ _ _ _ L) in Fr. specialize (Fr y (or_intror I)). rewrite in_app_iff in Fr.
        intros [[->|X]|X]; tauto.
      + intros x I. apply Lo. now right.
      + exists h'. cbn [rev]. rewrite <- app_assoc. auto.
  Qed.
End Insert.
