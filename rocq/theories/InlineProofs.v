(** Proofs about the inlining of a dataflow graph: the links. *)
From Coq Require Import List Bool NArith Arith Lia Permutation.
From Verif Require Import TypesModel GraphModel GraphSpec GraphProofs GraphRemove OpModel DeadModel DeadProofs InlineModel.
Import ListNotations.

(** ** Lists up to order *)
Lemma filter_perm : forall A (f : A -> bool) l l', Permutation l l' -> Permutation (filter f l) (filter f l').
Proof.
  intros A f l l' P. induction P as [|x l l' P IH|x y l|l m l' P1 IH1 P2 IH2]; cbn [filter].
  - constructor.
  - destruct (f x); [now constructor|exact IH].
  - destruct (f x), (f y); try constructor; try apply Permutation_refl; try (constructor; apply Permutation_refl).
  - now transitivity (filter f m).
Qed.

Lemma redirect_perm : forall A (f : A -> bool) (g : A -> A) l,
  Permutation (filter (fun x => negb (f x)) l ++ map g (filter f l)) (map (fun x => if f x then g x else x) l).
Proof.
  intros A f g. induction l as [|x l IH]; [constructor|]. cbn [filter map]. destruct (f x); cbn [negb map app].
  - symmetry. apply Permutation_cons_app. now symmetry.
  - now constructor.
Qed.

Lemma filter_map : forall A B (f : B -> bool) (g : A -> B) l, filter f (map g l) = map g (filter (fun x => f (g x)) l).
Proof. intros A B f g l. induction l as [|x l IH]; [reflexivity|]. cbn [map filter]. destruct (f (g x)); cbn [map]; now rewrite IH. Qed.

Lemma filter_none : forall A (f : A -> bool) l, (forall x, In x l -> f x = false) -> filter f l = [].
Proof.
  intros A f l E. induction l as [|x l IH]; [reflexivity|]. cbn [filter]. rewrite (E x (or_introl eq_refl)). apply IH. intros y I. apply E. now right.
Qed.

Lemma single_perm : forall A (x : A) l, Permutation [x] l -> l = [x].
Proof. intros A x l P. now apply Permutation_length_1_inv. Qed.

Lemma flat_cons_perm : forall A B (f : A -> B) (g : A -> list B) l, Permutation (flat_map (fun t => f t :: g t) l) (map f l ++ flat_map g l).
Proof.
  intros A B f g. induction l as [|x l IH]; [constructor|]. cbn [flat_map map app]. constructor.
  etransitivity; [apply Permutation_app_head; exact IH|]. rewrite !app_assoc. apply Permutation_app_tail, Permutation_app_comm.
Qed.

Lemma others_last : forall k, others (S k) k = seq 0 k.
Proof.
  intros k. unfold others. replace (seq 0 (S k)) with (seq 0 k ++ [k]) by (rewrite <- seq_S; reflexivity). rewrite filter_app. cbn [filter]. rewrite Nat.eqb_refl. cbn [negb].
  rewrite app_nil_r. apply filter_all. intros x I. apply in_seq in I. apply negb_true_iff, Nat.eqb_neq. lia.
Qed.

Lemma flat_single : forall A B (f : A -> B) (l : list A), flat_map (fun t => [f t]) l = map f l.
Proof. intros A B f l. induction l as [|x l IH]; [reflexivity|]. cbn. now rewrite IH. Qed.

Section Links.
  Context {M : Type}.
  Notation hugr := (hugr op M).
  Variable h : hugr.
  Notation at_links L := (set_links h L).

  Definition into (e : endpoint) (l : link) : bool := ep_eqb (snd l) e.
  Definition outof (e : endpoint) (l : link) : bool := ep_eqb (fst l) e.
  Definition oo (s : N) : nat := match other_port (h_ops h s) Out with Some i => i | None => 0 end.
  Definition oi (t : N) : nat := match other_port (h_ops h t) Inc with Some i => i | None => 0 end.
  Definition can_out (s : N) : Prop := other_port (h_ops h s) Out = Some (oo s) /\ out_port h (s, oo s).
  Definition can_in (t : N) : Prop := other_port (h_ops h t) Inc = Some (oi t) /\ in_port h (t, oi t).
  Definition ord (s t : N) : link := ((s, oo s), (t, oi t)).

  Lemma connect_at : forall L s i d j, out_port h (s, i) -> in_port h (d, j) -> connect (at_links L) s i d j = Some (at_links (L ++ [((s, i), (d, j))])).
  Proof.
    intros L s i d j [A B] [A' B']. unfold connect, valid_port, contains, num_ports. cbn [set_links h_nodes h_in h_out h_links fst snd] in *.
    rewrite (proj2 (memN_iff s (h_nodes h)) A), (proj2 (memN_iff d (h_nodes h)) A'), (proj2 (Nat.ltb_lt _ _) B), (proj2 (Nat.ltb_lt _ _) B'). reflexivity.
  Qed.

  Lemma order_at : forall L s t, can_out s -> can_in t -> add_other_edge (at_links L) s t = Some (at_links (L ++ [ord s t])).
  Proof.
    intros L s t [A B] [A' B']. unfold add_other_edge. cbn [set_links h_ops]. rewrite A, A'. rewrite connect_at by assumption. reflexivity.
  Qed.

  Lemma each_append : forall A (f : hugr -> A -> option hugr) (g : A -> list link) (l : list A),
    (forall x L, In x l -> f (at_links L) x = Some (at_links (L ++ g x))) -> forall L, each f l (at_links L) = Some (at_links (L ++ flat_map g l)).
  Proof.
    intros A f g. induction l as [|x l IH]; intros E L; cbn [each flat_map]; [now rewrite app_nil_r|]. rewrite E by now left.
    rewrite IH by (intros; apply E; now right). now rewrite app_assoc.
  Qed.

  Lemma disconnect_in_at : forall L n i, in_port h (n, i) -> disconnect (at_links L) n Inc i = Some (at_links (filter (fun l => negb (into (n, i) l)) L)).
  Proof.
    intros L n i [A B]. unfold disconnect, valid_port, contains, num_ports. cbn [set_links h_nodes h_in h_links fst snd] in *.
    rewrite (proj2 (memN_iff n (h_nodes h)) A), (proj2 (Nat.ltb_lt _ _) B). reflexivity.
  Qed.
  Lemma disconnect_out_at : forall L n i, out_port h (n, i) -> disconnect (at_links L) n Out i = Some (at_links (filter (fun l => negb (outof (n, i) l)) L)).
  Proof.
    intros L n i [A B]. unfold disconnect, valid_port, contains, num_ports. cbn [set_links h_nodes h_out h_links fst snd] in *.
    rewrite (proj2 (memN_iff n (h_nodes h)) A), (proj2 (Nat.ltb_lt _ _) B). reflexivity.
  Qed.

  Lemma into_iff : forall e l, into e l = true <-> snd l = e.
  Proof. intros e l. apply ep_eqb_iff. Qed.
  Lemma outof_iff : forall e l, outof e l = true <-> fst l = e.
  Proof. intros e l. apply ep_eqb_iff. Qed.
  Lemma into_false : forall e l, into e l = false <-> snd l <> e.
  Proof. intros e l. rewrite <- into_iff. destruct (into e l); split; congruence. Qed.
  Lemma outof_false : forall e l, outof e l = false <-> fst l <> e.
  Proof. intros e l. rewrite <- outof_iff. destruct (outof e l); split; congruence. Qed.

  (** Sending the links that leave [e] from [s] instead. *)
  Definition via (e s : endpoint) (l : link) : link := if outof e l then (s, snd l) else l.
  Lemma via_snd : forall e s l, snd (via e s l) = snd l.
  Proof. intros e s l. unfold via. destruct (outof e l); reflexivity. Qed.

  (** The common part of the two loops: the links of [V], where those that leave [e] come from [s] now, [s] being
      the source of [t], and [t] is disconnected. *)
  Definition splice (e t s : endpoint) (V : list link) : list link := map (via e s) (filter (fun l => negb (into t l)) V).

  Lemma splice_into : forall e t s V t', t' <> t -> filter (into t') (splice e t s V) = map (via e s) (filter (into t') V).
  Proof.
    intros e t s V t' Ne. unfold splice. rewrite filter_map. f_equal. rewrite filter_filter. apply filter_ext. intros l. unfold into at 2. rewrite via_snd. fold (into t' l).
    destruct (into t' l) eqn:X; [|now rewrite andb_false_r]. apply into_iff in X. rewrite andb_true_r. apply negb_true_iff, into_false. congruence.
  Qed.

  Variables n input output : N.
  Variables ki ko : nat.

  (** ** Value inputs *)
  Section Inputs.
    Variable src : nat -> endpoint.
    Variable succs : list endpoint.
    Hypothesis Psrc : forall p, p < ki -> fst (src p) <> n /\ fst (src p) <> input /\ out_port h (src p) /\ can_out (fst (src p)) /\ in_port h (n, p) /\ out_port h (input, p).
    Hypothesis Psucc : forall t, In t succs -> can_in (fst t).

    Definition new_in (p : nat) : list link := map (fun t => ord (fst (src p)) (fst t)) succs.

    Lemma input_step : forall p L V Q, p < ki -> Permutation L (V ++ Q) ->
      filter (into (n, p)) V = [(src p, (n, p))] -> (forall l, In l Q -> snd l <> (n, p) /\ fst l <> (input, p)) ->
      (forall l, In l V -> outof (input, p) l = true -> in_port h (snd l)) ->
      exists L', inline_input n input succs (at_links L) p = Some (at_links L') /\ Permutation L' (splice (input, p) (n, p) (src p) V ++ Q ++ new_in p).
    Proof.
      intros p L V Q Lp P One Nq Vp. destruct (Psrc p Lp) as (N1 & N2 & Po & Co & Pi & Pq). unfold inline_input, single_linked_output, linked_outputs.
      cbn [set_links h_links]. assert (E : filter (fun l => ep_eqb (snd l) (n, p)) L = [(src p, (n, p))]).
      { apply single_perm. symmetry. etransitivity; [apply filter_perm; exact P|]. rewrite filter_app. change (fun l => ep_eqb (snd l) (n, p)) with (into (n, p)). rewrite One.
        rewrite (filter_none _ (into (n, p)) Q) by (intros l Il; apply into_false; apply (Nq l Il)). now rewrite app_nil_r. }
      rewrite E. cbn [map fst]. rewrite disconnect_in_at by exact Pi. rewrite disconnect_out_at by exact Pq.
      unfold linked_inputs. cbn [set_links h_links]. set (L1 := filter (fun l => negb (into (n, p) l)) L).
      change (fun l => ep_eqb (fst l) (input, p)) with (outof (input, p)).
      assert (P1 : Permutation L1 (filter (fun l => negb (into (n, p) l)) V ++ Q)).
      { unfold L1. etransitivity; [apply filter_perm; exact P|]. rewrite filter_app. apply Permutation_app_head.
        rewrite filter_all; [apply Permutation_refl|]. intros l Il. apply negb_true_iff, into_false. apply (Nq l Il). }
      assert (Eo : Permutation (filter (outof (input, p)) L1) (filter (outof (input, p)) (filter (fun l => negb (into (n, p) l)) V))).
      { etransitivity; [apply filter_perm; exact P1|]. rewrite filter_app, (filter_none _ (outof (input, p)) Q), app_nil_r; [apply Permutation_refl|].
        intros l Il. apply outof_false. apply (Nq l Il). }
      rewrite (each_append _ _ (fun t => [(src p, t)])).
      2:{ intros t L2 It. destruct t as [tn tp]. cbn [fst snd]. rewrite connect_at; [destruct (src p); reflexivity| |].
          - destruct (src p); exact Po.
          - apply in_map_iff in It. destruct It as (l & El & Il). apply (Permutation_in l Eo) in Il. apply filter_In in Il. destruct Il as [Il Ol].
            apply filter_In in Il. specialize (Vp l (proj1 Il) Ol). now rewrite El in Vp. }
      rewrite (each_append _ _ (fun t => [ord (fst (src p)) (fst t)])).
      2:{ intros t L2 It. apply order_at; [exact Co|]. now apply Psucc. }
      eexists. split; [reflexivity|]. rewrite <- !app_assoc.
      assert (Fm : forall A (f : A -> link) (l : list A), flat_map (fun t => [f t]) l = map f l).
      { intros A f l. induction l as [|x l IH]; [reflexivity|]. cbn. now rewrite IH. }
      rewrite (Fm _ (fun t => (src p, t))), (Fm _ (fun t => ord (fst (src p)) (fst t))). fold (new_in p). rewrite map_map.
      rewrite !app_assoc. apply Permutation_app_tail.
      set (f := outof (input, p)). change (map (fun x => (src p, snd x)) (filter f L1)) with (map (fun l : link => (src p, snd l)) (filter f L1)).
      etransitivity; [apply redirect_perm|]. etransitivity; [apply Permutation_map; exact P1|]. rewrite map_app. unfold splice, via. fold f.
      apply Permutation_app_head. erewrite map_ext_in; [rewrite map_id; apply Permutation_refl|]. intros l Il. cbn beta.
      unfold f. rewrite (proj2 (outof_false (input, p) l)); [reflexivity|]. apply (Nq l Il).
    Qed.

    Fixpoint spliced_in (ps : list nat) (V : list link) : list link :=
      match ps with [] => V | p :: ps => spliced_in ps (splice (input, p) (n, p) (src p) V) end.

    Lemma inputs_loop : forall ps L V Q, NoDup ps -> (forall p, In p ps -> p < ki) -> Permutation L (V ++ Q) ->
      (forall p, In p ps -> filter (into (n, p)) V = [(src p, (n, p))]) ->
      (forall p l, In p ps -> In l Q -> snd l <> (n, p) /\ fst l <> (input, p)) ->
      (forall p t, In p ps -> In t succs -> (fst t, oi (fst t)) <> (n, p)) ->
      (forall l, In l V -> in_port h (snd l)) ->
      exists L', each (inline_input n input succs) ps (at_links L) = Some (at_links L') /\ Permutation L' (spliced_in ps V ++ Q ++ flat_map new_in ps).
    Proof.
      induction ps as [|p ps IH]; intros L V Q ND Lp P One Nq Ns Vp.
      - exists L. split; [reflexivity|]. cbn [spliced_in flat_map]. now rewrite app_nil_r.
      - inversion ND as [|? ? Np ND']; subst. cbn [each spliced_in flat_map].
        destruct (input_step p L V Q (Lp p (or_introl eq_refl)) P (One p (or_introl eq_refl)) (fun l => Nq p l (or_introl eq_refl)) (fun l Il _ => Vp l Il)) as (L1 & -> & P1).
        destruct (IH L1 (splice (input, p) (n, p) (src p) V) (Q ++ new_in p)) as (L' & E & P'); auto.
        + intros q Iq. apply Lp. now right.
        + intros q Iq. rewrite splice_into by (intros X; injection X as ->; contradiction). rewrite One by now right.
          cbn [map]. unfold via, outof. cbn [fst]. destruct (ep_eqb (src q) (input, p)) eqn:X; [|reflexivity]. apply ep_eqb_iff in X.
          destruct (Psrc q) as (_ & Ni & _); [apply Lp; now right|]. now rewrite X in Ni.
        + intros q l Iq Il. apply in_app_iff in Il. destruct Il as [Il|Il]; [apply Nq; [now right|exact Il]|].
          apply in_map_iff in Il. destruct Il as (t & <- & It). cbn [ord fst snd]. split; [apply Ns; [now right|exact It]|].
          destruct (Psrc p) as (_ & Ni & _); [apply Lp; now left|]. intros X. injection X as X _. contradiction.
        + intros q t Iq. apply Ns. now right.
        + intros l Il. unfold splice in Il. apply in_map_iff in Il. destruct Il as (l0 & <- & Il). rewrite via_snd. apply filter_In in Il. apply Vp, Il.
        + exists L'. split; [exact E|]. now rewrite <- app_assoc in P'.
    Qed.
  End Inputs.

  (** ** Value outputs *)
  Section Outputs.
    Variable src : nat -> endpoint.
    Variable preds : list endpoint.
    Hypothesis Psrc : forall p, p < ko -> fst (src p) <> n /\ out_port h (src p) /\ in_port h (output, p) /\ out_port h (n, p).
    Hypothesis Ppred : forall s, In s preds -> can_out (fst s) /\ fst s <> n.

    Definition new_out (p : nat) (V : list link) : list link :=
      flat_map (fun t => map (fun s => ord (fst s) (fst t)) preds) (map snd (filter (outof (n, p)) V)).

    Lemma output_step : forall p L V Q, p < ko -> n <> output -> Permutation L (V ++ Q) ->
      filter (into (output, p)) V = [(src p, (output, p))] -> (forall l, In l Q -> snd l <> (output, p) /\ fst l <> (n, p)) ->
      (forall l, In l V -> outof (n, p) l = true -> in_port h (snd l) /\ can_in (fst (snd l)) /\ snd l <> (output, p)) ->
      exists L' R, inline_output n output preds (at_links L) p = Some (at_links L') /\ Permutation L' (splice (n, p) (output, p) (src p) V ++ Q ++ R) /\
        forall l, In l R <-> In l (new_out p V).
    Proof.
      intros p L V Q Lp Nno P One Nq Vp. destruct (Psrc p Lp) as (N1 & Po & Pi & Pq). unfold inline_output, single_linked_output, linked_outputs.
      cbn [set_links h_links]. assert (E : filter (fun l => ep_eqb (snd l) (output, p)) L = [(src p, (output, p))]).
      { apply single_perm. symmetry. etransitivity; [apply filter_perm; exact P|]. rewrite filter_app. change (fun l => ep_eqb (snd l) (output, p)) with (into (output, p)). rewrite One.
        rewrite (filter_none _ (into (output, p)) Q) by (intros l Il; apply into_false; apply (Nq l Il)). now rewrite app_nil_r. }
      rewrite E. cbn [map fst]. rewrite disconnect_in_at by exact Pi.
      unfold linked_inputs. cbn [set_links h_links]. set (L1 := filter (fun l => negb (into (output, p) l)) L).
      change (fun l => ep_eqb (fst l) (n, p)) with (outof (n, p)).
      assert (P1 : Permutation L1 (filter (fun l => negb (into (output, p) l)) V ++ Q)).
      { unfold L1. etransitivity; [apply filter_perm; exact P|]. rewrite filter_app. apply Permutation_app_head.
        rewrite filter_all; [apply Permutation_refl|]. intros l Il. apply negb_true_iff, into_false. apply (Nq l Il). }
      assert (Eo : Permutation (filter (outof (n, p)) L1) (filter (outof (n, p)) V)).
      { etransitivity; [apply filter_perm; exact P1|]. rewrite filter_app, (filter_none _ (outof (n, p)) Q), app_nil_r.
        - rewrite filter_filter. apply Permutation_refl' . apply filter_in_ext. intros l Il. destruct (outof (n, p) l) eqn:X; [|now rewrite andb_false_r].
          destruct (Vp l Il X) as (_ & _ & Y). apply into_false in Y. now rewrite Y.
        - intros l Il. apply outof_false. apply (Nq l Il). }
      set (ts := map snd (filter (outof (n, p)) L1)).
      assert (Hts : forall t, In t ts -> in_port h t /\ can_in (fst t)).
      { intros t It. apply in_map_iff in It. destruct It as (l & <- & Il). apply (Permutation_in l Eo) in Il. apply filter_In in Il. destruct Il as [Il X].
        destruct (Vp l Il X) as (A & B & _). auto. }
      rewrite (each_append _ _ (fun t => (src p, t) :: map (fun s => ord (fst s) (fst t)) preds)).
      2:{ intros t L2 It. destruct (Hts t It) as [Pt Ct]. rewrite connect_at; [|destruct (src p); exact Po|destruct t; exact Pt].
          assert (Fm : forall A (f : A -> link) (l : list A), flat_map (fun t => [f t]) l = map f l).
          { intros A f l. induction l as [|x l IH]; [reflexivity|]. cbn. now rewrite IH. }
          rewrite (each_append _ _ (fun s => [ord (fst s) (fst t)])).
          - rewrite (Fm _ (fun s => ord (fst s) (fst t))), <- app_assoc. destruct (src p), t. reflexivity.
          - intros s L3 Is. apply order_at; [apply (Ppred s Is)|exact Ct]. }
      rewrite disconnect_out_at by exact Pq. eexists. exists (flat_map (fun t => map (fun s => ord (fst s) (fst t)) preds) ts). split; [reflexivity|]. split.
      - rewrite filter_app.
        rewrite (filter_all _ _ (flat_map _ ts)).
        2:{ intros l Il. apply in_flat_map in Il. destruct Il as (t & It & Il). apply negb_true_iff, outof_false. destruct Il as [<-|Il].
            - cbn. intros X. rewrite X in N1. now apply N1.
            - apply in_map_iff in Il. destruct Il as (s & <- & Is). destruct (Ppred s Is) as [_ Ns]. cbn. intros X. injection X as X _. contradiction. }
        transitivity (filter (fun l => negb (outof (n, p) l)) L1 ++ map (fun l : link => (src p, snd l)) (filter (outof (n, p)) L1) ++ flat_map (fun t => map (fun s => ord (fst s) (fst t)) preds) ts).
        { apply Permutation_app_head. etransitivity; [apply flat_cons_perm|]. apply Permutation_app_tail. unfold ts. rewrite map_map. apply Permutation_refl. }
        rewrite app_assoc. etransitivity; [apply Permutation_app_tail, redirect_perm|]. rewrite app_assoc. apply Permutation_app_tail.
        etransitivity; [apply Permutation_map; exact P1|]. rewrite map_app. unfold splice, via.
        apply Permutation_app_head. erewrite map_ext_in; [rewrite map_id; apply Permutation_refl|]. intros l Il. cbn beta.
        rewrite (proj2 (outof_false (n, p) l)); [reflexivity|]. apply (Nq l Il).
      - intros l. unfold new_out. rewrite !in_flat_map. split; intros (t & It & X); exists t; (split; [|exact X]); apply in_map_iff in It; destruct It as (l0 & <- & Il); apply in_map.
        + now apply (Permutation_in l0 Eo).
        + apply Permutation_sym in Eo. now apply (Permutation_in l0 Eo).
    Qed.

    Fixpoint spliced_out (ps : list nat) (V : list link) : list link :=
      match ps with [] => V | p :: ps => spliced_out ps (splice (n, p) (output, p) (src p) V) end.

    Lemma outputs_loop : forall ps L V Q, n <> output -> NoDup ps -> (forall p, In p ps -> p < ko) -> Permutation L (V ++ Q) ->
      (forall p, In p ps -> filter (into (output, p)) V = [(src p, (output, p))]) ->
      (forall p l, In p ps -> In l Q -> snd l <> (output, p) /\ fst l <> (n, p)) ->
      (forall l, In l V -> fst (fst l) = n -> in_port h (snd l) /\ can_in (fst (snd l)) /\ fst (snd l) <> output) ->
      exists L' R, each (inline_output n output preds) ps (at_links L) = Some (at_links L') /\ Permutation L' (spliced_out ps V ++ Q ++ R) /\
        forall l, In l R <-> exists p, In p ps /\ In l (new_out p V).
    Proof.
      induction ps as [|p ps IH]; intros L V Q Nno ND Lp P One Nq Vp.
      - exists L, []. split; [reflexivity|]. cbn [spliced_out]. rewrite !app_nil_r. split; [exact P|]. intros l. split; [intros []|intros (p & [] & _)].
      - inversion ND as [|? ? Np ND']; subst. cbn [each spliced_out].
        destruct (output_step p L V Q (Lp p (or_introl eq_refl)) Nno P (One p (or_introl eq_refl)) (fun l => Nq p l (or_introl eq_refl))) as (L1 & R1 & -> & P1 & HR1).
        { intros l Il X. apply outof_iff in X. destruct (Vp l Il) as (A & B & C); [now rewrite X|]. split; [exact A|]. split; [exact B|]. intros Y. rewrite Y in C. now apply C. }
        assert (Src : fst (src p) <> n) by (apply Psrc, Lp; now left).
        assert (InV : forall l, In l (splice (n, p) (output, p) (src p) V) -> fst (fst l) = n -> In l V).
        { intros l Il Fl. unfold splice in Il. apply in_map_iff in Il. destruct Il as (l0 & <- & Il). apply filter_In in Il. unfold via in *.
          destruct (outof (n, p) l0); [cbn in Fl; contradiction|apply Il]. }
        destruct (IH L1 (splice (n, p) (output, p) (src p) V) (Q ++ R1)) as (L' & R & E & P' & HR); auto.
        + intros q Iq. apply Lp. now right.
        + intros q Iq. rewrite splice_into by (intros X; injection X as ->; contradiction). rewrite One by now right.
          cbn [map]. unfold via, outof. cbn [fst]. destruct (ep_eqb (src q) (n, p)) eqn:X; [|reflexivity]. apply ep_eqb_iff in X.
          destruct (Psrc q) as (Ni & _); [apply Lp; now right|]. now rewrite X in Ni.
        + intros q l Iq Il. apply in_app_iff in Il. destruct Il as [Il|Il]; [apply Nq; [now right|exact Il]|].
          apply HR1 in Il. unfold new_out in Il. apply in_flat_map in Il. destruct Il as (t & It & Il). apply in_map_iff in Il. destruct Il as (s & <- & Is).
          apply in_map_iff in It. destruct It as (l0 & <- & Il0). apply filter_In in Il0. destruct Il0 as [Il0 X]. apply outof_iff in X.
          destruct (Vp l0 Il0) as (_ & _ & C); [now rewrite X|]. cbn [ord fst snd]. split; [intros Y; injection Y as Y _; contradiction|].
          destruct (Ppred s Is) as [_ Ns]. intros Y. injection Y as Y _. contradiction.
        + exists L', (R1 ++ R). split; [exact E|]. split; [now rewrite <- app_assoc in P'|].
          assert (Same : forall q l, In q ps -> In l (new_out q (splice (n, p) (output, p) (src p) V)) <-> In l (new_out q V)).
          { intros q l Iq. unfold new_out. rewrite !in_flat_map. split; intros (t & It & Il); exists t; (split; [|exact Il]); apply in_map_iff in It;
              destruct It as (l0 & <- & Il0); apply in_map; apply filter_In in Il0; destruct Il0 as [Il0 X]; apply filter_In; (split; [|exact X]); apply outof_iff in X.
            - apply InV; [exact Il0|now rewrite X].
            - unfold splice. apply in_map_iff. exists l0. split.
              + unfold via. rewrite (proj2 (outof_false (n, p) l0)); [reflexivity|]. rewrite X. intros Y. injection Y as ->. contradiction.
              + apply filter_In. split; [exact Il0|]. apply negb_true_iff, into_false. destruct (Vp l0 Il0) as (_ & _ & C); [now rewrite X|]. intros Y. rewrite Y in C. now apply C. }
          intros l. rewrite in_app_iff, HR1, HR. split.
          * intros [Il|(q & Iq & Il)]; [exists p; split; [now left|exact Il]|]. exists q. split; [now right|]. now apply (Same q l Iq).
          * intros (q & [<-|Iq] & Il); [now left|]. right. exists q. split; [exact Iq|]. now apply (Same q l Iq).
    Qed.
  End Outputs.

  Lemma each_append_inv : forall A (f : hugr -> A -> option hugr) (g : A -> list link) (Inv : list link -> Prop) (l : list A),
    (forall x L, In x l -> Inv L -> f (at_links L) x = Some (at_links (L ++ g x)) /\ Inv (L ++ g x)) ->
    forall L, Inv L -> each f l (at_links L) = Some (at_links (L ++ flat_map g l)).
  Proof.
    intros A f g Inv. induction l as [|x l IH]; intros E L IL; cbn [each flat_map]; [now rewrite app_nil_r|].
    destruct (E x L (or_introl eq_refl) IL) as [-> I2]. rewrite IH; [now rewrite app_assoc| |exact I2]. intros; apply E; [now right|assumption].
  Qed.

  (** ** All links *)
  (** What is needed of the links at the boundary. *)
  Record boundary_facts (src so : nat -> endpoint) : Prop := {
    bf_distinct : n <> input /\ n <> output /\ input <> output;
    bf_ports : forall l, In l (h_links h) -> out_port h (fst l) /\ in_port h (snd l);
    bf_flow : forall l, In l (h_links h) -> In (fst (fst l)) [n; input] \/ In (fst (snd l)) [n; output] -> can_out (fst (fst l)) /\ can_in (fst (snd l));
    bf_order : oi n = ki /\ oo n = ko /\ oo input = ki /\ oi output = ko;
    bf_in : forall p, p < ki -> filter (into (n, p)) (h_links h) = [(src p, (n, p))] /\ in_port h (n, p) /\ out_port h (input, p);
    bf_out : forall p, p < ko -> filter (into (output, p)) (h_links h) = [(so p, (output, p))] /\ in_port h (output, p) /\ out_port h (n, p) /\
      (fst (so p) = input -> snd (so p) < ki);
    bf_to : forall l, In l (h_links h) -> fst (snd l) = n -> ~ In (fst (fst l)) [n; input; output];
    bf_from : forall l, In l (h_links h) -> fst (fst l) = n -> ~ In (fst (snd l)) [n; input; output];
    bf_to_out : forall l, In l (h_links h) -> fst (snd l) = output -> fst (fst l) <> n;
    bf_from_in : forall l, In l (h_links h) -> fst (fst l) = input -> fst (snd l) <> n;
    bf_into_in : forall l, In l (h_links h) -> fst (snd l) <> input;
    bf_from_out : forall l, In l (h_links h) -> fst (fst l) <> output }.

  Section Whole.
    Variables src so : nat -> endpoint.
    Hypothesis F : boundary_facts src so.

    Definition inner := spliced_in src (seq 0 ki) (h_links h).
    (** The order edges of the first two loops. *)
    Definition early (l : link) : Prop :=
      (exists s t a b c, In ((s, a), (n, ki)) (h_links h) /\ In ((input, b), (t, c)) (h_links h) /\ l = ord s t) \/
      (exists p t c, p < ki /\ In ((input, ki), (t, c)) (h_links h) /\ l = ord (fst (src p)) t).
    Definition via_in (l : link) : link :=
      if N.eqb (fst (fst l)) input && Nat.ltb (snd (fst l)) ki then (src (snd (fst l)), snd l) else l.
    Definition into_n (l : link) : bool := N.eqb (fst (snd l)) n && Nat.ltb (snd (snd l)) ki.

    Lemma src_facts : forall p, p < ki -> fst (src p) <> n /\ fst (src p) <> input /\ fst (src p) <> output /\ out_port h (src p) /\ can_out (fst (src p)) /\ In (src p, (n, p)) (h_links h).
    Proof.
      intros p Lp. destruct (bf_in _ _ F p Lp) as (E & _). assert (I : In (src p, (n, p)) (h_links h)).
      { assert (X : In (src p, (n, p)) (filter (into (n, p)) (h_links h))) by (rewrite E; now left). now apply filter_In in X. }
      pose proof (bf_to _ _ F _ I eq_refl) as Nt. cbn [fst snd In] in Nt. destruct (bf_ports _ _ F _ I) as [A _].
      destruct (bf_flow _ _ F _ I) as [B _]; [right; now left|]. cbn [fst snd] in *. repeat (split; [first [exact A|exact B|exact I|intros X; apply Nt; rewrite X; auto]|]). exact I.
    Qed.

    Lemma spliced_in_eq : forall ps V, (forall p, In p ps -> fst (src p) <> input) -> NoDup ps ->
      spliced_in src ps V = map (fun l => if N.eqb (fst (fst l)) input && existsb (Nat.eqb (snd (fst l))) ps then (src (snd (fst l)), snd l) else l)
        (filter (fun l => negb (N.eqb (fst (snd l)) n && existsb (Nat.eqb (snd (snd l))) ps)) V).
    Proof.
      induction ps as [|p ps IH]; intros V Ns ND; cbn [spliced_in].
      - cbn [existsb]. rewrite (map_ext _ (fun l => l)) by (intros l; now rewrite andb_false_r). rewrite map_id. symmetry. apply filter_all.
        intros l _. now rewrite andb_false_r.
      - inversion ND as [|? ? Np ND']; subst. rewrite IH by (auto using in_cons). unfold splice. rewrite filter_map, map_map, filter_filter. cbn [existsb].
        assert (Ef : filter (fun x => negb (into (n, p) x) && negb (N.eqb (fst (snd (via (input, p) (src p) x))) n && existsb (Nat.eqb (snd (snd (via (input, p) (src p) x)))) ps)) V =
                     filter (fun l => negb (N.eqb (fst (snd l)) n && (Nat.eqb (snd (snd l)) p || existsb (Nat.eqb (snd (snd l))) ps))) V).
        { apply filter_ext. intros l. rewrite via_snd. destruct l as [[a b] [c d]]. unfold into, ep_eqb. cbn [fst snd]. destruct (N.eqb c n), (Nat.eqb d p), (existsb (Nat.eqb d) ps); reflexivity. }
        etransitivity; [apply f_equal; exact Ef|]. apply map_ext. intros [[a b] [c d]]. unfold via, outof, ep_eqb. cbn [fst snd].
        destruct (N.eqb_spec a input) as [Ei|Ni]; cbn [andb].
        + destruct (Nat.eqb_spec b p) as [Ep|Npp]; cbn [orb fst snd].
          * destruct (N.eqb_spec (fst (src p)) input) as [Ex|_]; [exfalso; apply (Ns p); [now left|exact Ex]|]. cbn [andb]. now rewrite Ep.
          * rewrite (proj2 (N.eqb_eq _ _) Ei). reflexivity.
        + cbn [fst snd]. apply N.eqb_neq in Ni. now rewrite Ni.
    Qed.

    Lemma existsb_seq : forall k i, existsb (Nat.eqb i) (seq 0 k) = Nat.ltb i k.
    Proof.
      intros k i. apply eq_true_iff_eq. rewrite existsb_exists, Nat.ltb_lt. split.
      - intros (x & I & E). apply Nat.eqb_eq in E. subst. apply in_seq in I. lia.
      - intros L. exists i. split; [apply in_seq; lia|apply Nat.eqb_refl].
    Qed.

    Lemma inner_eq : inner = map via_in (filter (fun l => negb (into_n l)) (h_links h)).
    Proof.
      unfold inner. rewrite spliced_in_eq; [|intros p I; apply in_seq in I; apply src_facts; lia|apply seq_NoDup].
      unfold via_in, into_n. erewrite map_ext, filter_ext; [reflexivity| |]; intros l; cbn beta; now rewrite existsb_seq.
    Qed.

    Lemma spliced_out_eq : forall g ps V, (forall p, In p ps -> fst (g p) <> n) -> NoDup ps ->
      spliced_out g ps V = map (fun l => if N.eqb (fst (fst l)) n && existsb (Nat.eqb (snd (fst l))) ps then (g (snd (fst l)), snd l) else l)
        (filter (fun l => negb (N.eqb (fst (snd l)) output && existsb (Nat.eqb (snd (snd l))) ps)) V).
    Proof.
      induction ps as [|p ps IH]; intros V Ns ND; cbn [spliced_out].
      - cbn [existsb]. rewrite (map_ext _ (fun l => l)) by (intros l; now rewrite andb_false_r). rewrite map_id. symmetry. apply filter_all.
        intros l _. now rewrite andb_false_r.
      - inversion ND as [|? ? Np ND']; subst. rewrite IH by (auto using in_cons). unfold splice. rewrite filter_map, map_map, filter_filter. cbn [existsb].
        assert (Ef : filter (fun x => negb (into (output, p) x) && negb (N.eqb (fst (snd (via (n, p) (g p) x))) output && existsb (Nat.eqb (snd (snd (via (n, p) (g p) x)))) ps)) V =
                     filter (fun l => negb (N.eqb (fst (snd l)) output && (Nat.eqb (snd (snd l)) p || existsb (Nat.eqb (snd (snd l))) ps))) V).
        { apply filter_ext. intros l. rewrite via_snd. destruct l as [[a b] [c d]]. unfold into, ep_eqb. cbn [fst snd]. destruct (N.eqb c output), (Nat.eqb d p), (existsb (Nat.eqb d) ps); reflexivity. }
        etransitivity; [apply f_equal; exact Ef|]. apply map_ext. intros [[a b] [c d]]. unfold via, outof, ep_eqb. cbn [fst snd].
        destruct (N.eqb_spec a n) as [Ei|Ni]; cbn [andb].
        + destruct (Nat.eqb_spec b p) as [Ep|Npp]; cbn [orb fst snd].
          * destruct (N.eqb_spec (fst (g p)) n) as [Ex|_]; [exfalso; apply (Ns p); [now left|exact Ex]|]. cbn [andb]. now rewrite Ep.
          * rewrite (proj2 (N.eqb_eq _ _) Ei). reflexivity.
        + cbn [fst snd]. apply N.eqb_neq in Ni. now rewrite Ni.
    Qed.

    (** The source of an output of the inner graph once the inputs are inlined. *)
    Definition so' (p : nat) : endpoint := fst (via_in (so p, (output, p))).
    Definition via_out (l : link) : link :=
      if N.eqb (fst (fst l)) n && Nat.ltb (snd (fst l)) ko then (so' (snd (fst l)), snd l) else l.
    Definition into_o (l : link) : bool := N.eqb (fst (snd l)) output && Nat.ltb (snd (snd l)) ko.

    Lemma via_in_snd : forall l, snd (via_in l) = snd l.
    Proof. intros l. unfold via_in. destruct (_ && _); reflexivity. Qed.

    Lemma so_facts : forall p, p < ko -> In (so p, (output, p)) (h_links h) /\ fst (so' p) <> n /\ fst (so' p) <> input /\ fst (so' p) <> output /\ out_port h (so' p) /\
      (fst (so p) <> input /\ so' p = so p \/ fst (so p) = input /\ snd (so p) < ki /\ so' p = src (snd (so p))).
    Proof.
      intros p Lp. destruct (bf_out _ _ F p Lp) as (E & _ & _ & Q). assert (I : In (so p, (output, p)) (h_links h)).
      { assert (X : In (so p, (output, p)) (filter (into (output, p)) (h_links h))) by (rewrite E; now left). now apply filter_In in X. }
      split; [exact I|]. unfold so', via_in. cbn [fst snd].
      pose proof (bf_to_out _ _ F _ I eq_refl) as A1. pose proof (bf_from_out _ _ F _ I) as A2. destruct (bf_ports _ _ F _ I) as [A3 _]. cbn [fst snd] in *.
      destruct (N.eqb_spec (fst (so p)) input) as [Ei|Ni]; cbn [andb].
      - specialize (Q Ei). rewrite (proj2 (Nat.ltb_lt _ _) Q). cbn [fst]. destruct (src_facts _ Q) as (B1 & B2 & B3 & B4 & _). auto 10.
      - cbn [fst]. auto 10.
    Qed.

    Lemma inner_cases : forall l, In l inner -> ~ In (fst (snd l)) [input] /\
      (In l (h_links h) /\ ~ (fst (fst l) = input /\ snd (fst l) < ki) \/
       exists p, p < ki /\ In ((input, p), snd l) (h_links h) /\ fst l = src p).
    Proof.
      intros l I. rewrite inner_eq in I. apply in_map_iff in I. destruct I as (l0 & <- & I). apply filter_In in I. destruct I as [I _].
      rewrite via_in_snd. split; [intros [X|[]]; symmetry in X; now apply (bf_into_in _ _ F _ I)|]. unfold via_in.
      destruct (N.eqb_spec (fst (fst l0)) input) as [Ei|Ni]; cbn [andb]; [|left; split; [exact I|tauto]].
      destruct (Nat.ltb_spec (snd (fst l0)) ki) as [Lt|Ge]; [|left; split; [exact I|lia]].
      right. exists (snd (fst l0)). split; [exact Lt|]. cbn [fst snd]. split; [|reflexivity]. destruct l0 as [[a b] t]. cbn [fst snd] in *. now subst a.
    Qed.

    Lemma inner_from_n : forall l : link, fst (fst l) = n -> In l inner <-> In l (h_links h).
    Proof.
      intros l E. split.
      - intros I. destruct (inner_cases l I) as [_ [[X _]|(p & Lp & _ & X)]]; [exact X|]. destruct (src_facts p Lp) as [Y _]. exfalso. apply Y. now rewrite <- X.
      - intros I. rewrite inner_eq. apply in_map_iff. exists l. destruct (bf_distinct _ _ F) as (D1 & _). split.
        + destruct l as [[a b] t]. cbn [fst] in E. subst a. unfold via_in. cbn [fst]. apply N.eqb_neq in D1. now rewrite D1.
        + apply filter_In. split; [exact I|]. apply negb_true_iff. unfold into_n. pose proof (bf_from _ _ F _ I E) as X. cbn in X.
          destruct l as [a [c d]]. cbn [fst snd] in *. destruct (N.eqb_spec c n) as [Y|_]; [exfalso; apply X; auto|reflexivity].
    Qed.

    Lemma inner_to_out : forall l, In l inner -> fst (snd l) = output -> can_out (fst (fst l)) /\ fst (fst l) <> n /\ fst (fst l) <> output.
    Proof.
      intros l I E. destruct (inner_cases l I) as [_ [[X _]|(p & Lp & _ & X)]].
      - destruct (bf_flow _ _ F _ X) as [A _]; [right; right; now left|]. split; [exact A|]. split; [now apply (bf_to_out _ _ F)|now apply (bf_from_out _ _ F)].
      - rewrite X. destruct (src_facts p Lp) as (A & _ & B & _ & C & _). auto.
    Qed.

    Lemma early_facts : forall l, early l -> exists s t, l = ord s t /\ can_out s /\ can_in t /\ s <> n /\ s <> input /\ s <> output /\ t <> n /\ t <> input /\ exists b c, In ((input, b), (t, c)) (h_links h).
    Proof.
      intros l [(s & t & a & b & c & I1 & I2 & ->)|(p & t & c & Lp & I2 & ->)].
      - exists s, t. split; [reflexivity|]. pose proof (bf_to _ _ F _ I1 eq_refl) as X. cbn in X.
        destruct (bf_flow _ _ F _ I1) as [A _]; [right; now left|]. destruct (bf_flow _ _ F _ I2) as [_ B]; [left; right; now left|].
        split; [exact A|]. split; [exact B|]. split; [intros ->; auto|]. split; [intros ->; auto|]. split; [intros ->; auto|].
        split; [exact (bf_from_in _ _ F _ I2 eq_refl)|]. split; [exact (bf_into_in _ _ F _ I2)|]. eauto.
      - exists (fst (src p)), t. split; [reflexivity|]. destruct (src_facts p Lp) as (A1 & A2 & A3 & _ & A4 & _).
        destruct (bf_flow _ _ F _ I2) as [_ B]; [left; right; now left|]. repeat (split; [assumption|]).
        split; [exact (bf_from_in _ _ F _ I2 eq_refl)|]. split; [exact (bf_into_in _ _ F _ I2)|]. eauto.
    Qed.

    (** The order edges of the last two loops. *)
    Definition late (l : link) : Prop :=
      exists s a t c, l = ord s t /\
        ((exists b, In ((n, ko), (t, c)) (h_links h) /\ (In ((s, a), (output, b)) inner \/ early ((s, a), (output, b)))) \/
         (exists p, p < ko /\ In ((n, p), (t, c)) (h_links h) /\ (In ((s, a), (output, ko)) inner \/ early ((s, a), (output, ko))))).

    Lemma inline_links_spec : h_in h n = S ki -> h_out h n = S ko ->
      exists L Q, inline_links n input output ki ko ki ko h = Some (at_links L) /\
        Permutation L (map via_out (filter (fun l => negb (into_o l)) inner) ++ Q) /\ forall l, In l Q <-> early l \/ late l.
    Proof.
      intros Hi Ho. destruct (bf_distinct _ _ F) as (D1 & D2 & D3). destruct (bf_order _ _ F) as (O1 & O2 & O3 & O4). set (L0 := h_links h).
      assert (E0 : at_links L0 = h) by (unfold L0; destruct h; reflexivity).
      unfold inline_links.
      (* the order input *)
      set (nb := output_neighbours h input).
      assert (Hnb : forall t, In t nb <-> exists b c, In ((input, b), (t, c)) L0).
      { intros t. unfold nb, output_neighbours. rewrite in_map_iff. split.
        - intros ([[a b] [t' c]] & E & I). apply filter_In in I. destruct I as [I X]. cbn [fst snd] in *. apply N.eqb_eq in X. subst. eauto.
        - intros (b & c & I). exists ((input, b), (t, c)). split; [reflexivity|]. apply filter_In. split; [exact I|]. cbn. apply N.eqb_refl. }
      assert (PA : each (inline_order_in input) (linked_outputs h n ki) h = Some (at_links (L0 ++ flat_map (fun s => map (ord (fst s)) nb) (linked_outputs h n ki)))).
      { transitivity (each (inline_order_in input) (linked_outputs h n ki) (at_links L0)); [now rewrite E0|].
        apply (each_append_inv _ _ _ (fun L => output_neighbours (at_links L) input = nb)); [|now rewrite E0].
        intros s L Is EL. unfold linked_outputs in Is. apply in_map_iff in Is. destruct Is as (l & <- & Il). apply filter_In in Il. destruct Il as [Il X].
        apply ep_eqb_iff in X. assert (Fn : fst (snd l) = n) by now rewrite X. pose proof (bf_to _ _ F _ Il Fn) as Nt. cbn in Nt. split.
        - unfold inline_order_in. rewrite EL. rewrite (each_append _ _ (fun t => [ord (fst (fst l)) t])).
          + now rewrite flat_single.
          + intros t L2 It. cbn [fst]. rewrite order_at; [reflexivity| |].
            * apply (bf_flow _ _ F _ Il). right. left. auto.
            * apply Hnb in It. destruct It as (b & c & It). apply (bf_flow _ _ F _ It). left. right. now left.
        - unfold output_neighbours in *. cbn [set_links h_links] in *. rewrite filter_app, map_app. rewrite (filter_none _ _ (map (ord (fst (fst l))) nb)); [cbn [map]; rewrite app_nil_r; exact EL|].
          intros l2 I2. apply in_map_iff in I2. destruct I2 as (t & <- & _). cbn [ord fst snd]. apply N.eqb_neq. intros Y. apply Nt. auto. }
      set (QA := flat_map (fun s => map (ord (fst s)) nb) (linked_outputs h n ki)) in *. rewrite PA.
      cbv beta iota. change (h_in (at_links (L0 ++ QA)) n) with (h_in h n). rewrite Hi, others_last.
      assert (HQA : forall l, In l QA <-> exists s t a b c, In ((s, a), (n, ki)) (h_links h) /\ In ((input, b), (t, c)) (h_links h) /\ l = ord s t).
      { intros l. unfold QA. rewrite in_flat_map. split.
        - intros ([s a] & Is & Il). unfold linked_outputs in Is. apply in_map_iff in Is. destruct Is as ([e e'] & E & Is). apply filter_In in Is. destruct Is as [Is X].
          apply ep_eqb_iff in X. cbn [fst snd] in *. subst. apply in_map_iff in Il. destruct Il as (t & <- & It). apply Hnb in It. destruct It as (b & c & It). exists s, t, a, b, c. auto.
        - intros (s & t & a & b & c & I1 & I2 & ->). exists (s, a). split.
          + unfold linked_outputs. apply in_map_iff. exists ((s, a), (n, ki)). split; [reflexivity|]. apply filter_In. split; [exact I1|]. now apply ep_eqb_iff.
          + cbn [fst]. apply in_map. apply Hnb. eauto. }
      assert (EA : forall l, In l QA -> early l) by (intros l Il; left; now apply HQA).
      (* the value inputs *)
      set (succs := linked_inputs (at_links (L0 ++ QA)) input ki).
      assert (Hs : forall t, In t succs <-> In ((input, ki), t) (h_links h)).
      { intros t. unfold succs, linked_inputs. cbn [set_links h_links]. rewrite in_map_iff. split.
        - intros (l & <- & Il). apply filter_In in Il. destruct Il as [Il X]. apply ep_eqb_iff in X. apply in_app_iff in Il. destruct Il as [Il|Il].
          + rewrite <- X. now destruct l.
          + exfalso. destruct (early_facts l (EA l Il)) as (s & t & -> & _ & _ & _ & Y & _). cbn in X. injection X as X _. contradiction.
        - intros Il. exists ((input, ki), t). split; [reflexivity|]. apply filter_In. split; [apply in_app_iff; now left|]. now apply ep_eqb_iff. }
      destruct (inputs_loop src succs) with (ps := seq 0 ki) (L := L0 ++ QA) (V := L0) (Q := QA) as (LB & -> & PB).
      { intros p Lp. destruct (src_facts p Lp) as (A1 & A2 & _ & A3 & A4 & _). destruct (bf_in _ _ F p Lp) as (_ & A5 & A6). auto 10. }
      { intros t It. apply Hs in It. apply (bf_flow _ _ F _ It). left. right. now left. }
      { apply seq_NoDup. }
      { intros p Ip. apply in_seq in Ip. lia. }
      { apply Permutation_refl. }
      { intros p Ip. apply in_seq in Ip. apply (bf_in _ _ F p). lia. }
      { intros p l Ip Il. destruct (early_facts l (EA l Il)) as (s & t & -> & _ & _ & _ & Y & _ & Z & _). cbn [ord fst snd]. split; intros X; injection X as X _; contradiction. }
      { intros p t Ip It X. injection X as X _. apply Hs in It. now apply (bf_from_in _ _ F _ It). }
      { intros l Il. now apply (bf_ports _ _ F). }
      fold inner in PB. set (QB := flat_map (new_in src succs) (seq 0 ki)) in *.
      assert (HQB : forall l, In l QB <-> exists p t c, p < ki /\ In ((input, ki), (t, c)) (h_links h) /\ l = ord (fst (src p)) t).
      { intros l. unfold QB. rewrite in_flat_map. split.
        - intros (p & Ip & Il). apply in_seq in Ip. apply in_map_iff in Il. destruct Il as ([t c] & <- & It). apply Hs in It. exists p, t, c. split; [lia|auto].
        - intros (p & t & c & Lp & It & ->). exists p. split; [apply in_seq; lia|]. unfold new_in. apply in_map_iff. exists (t, c). split; [reflexivity|]. now apply Hs. }
      assert (HE : forall l, In l (QA ++ QB) <-> early l) by (intros l; rewrite in_app_iff, HQA, HQB; reflexivity).
      assert (HLB : forall l, In l LB <-> In l inner \/ early l).
      { intros l. rewrite <- HE, <- in_app_iff. split; apply Permutation_in; [exact PB|now symmetry]. }
      cbv beta iota. change (h_out (at_links LB) n) with (h_out h n).
      (* the order output *)
      set (bn := input_neighbours (at_links LB) output).
      assert (Hbn : forall s, In s bn <-> exists a b, In ((s, a), (output, b)) LB).
      { intros s. unfold bn, input_neighbours. cbn [set_links h_links]. rewrite in_map_iff. split.
        - intros ([[s' a] [t b]] & E & I). apply filter_In in I. destruct I as [I X]. cbn [fst snd] in *. apply N.eqb_eq in X. subst. eauto.
        - intros (a & b & I). exists ((s, a), (output, b)). split; [reflexivity|]. apply filter_In. split; [exact I|]. cbn. apply N.eqb_refl. }
      assert (Cbn : forall s a b, In ((s, a), (output, b)) LB -> can_out s /\ s <> n).
      { intros s a b I. apply HLB in I. destruct I as [I|I].
        - destruct (inner_to_out _ I eq_refl) as (A & B & _). auto.
        - destruct (early_facts _ I) as (s' & t & E & A & _ & B & _). injection E as -> _ _ _. auto. }
      assert (Htn : forall t, In t (linked_inputs (at_links LB) n ko) <-> In ((n, ko), t) (h_links h)).
      { intros t. unfold linked_inputs. cbn [set_links h_links]. rewrite in_map_iff. split.
        - intros (l & <- & Il). apply filter_In in Il. destruct Il as [Il X]. apply ep_eqb_iff in X. apply HLB in Il. destruct Il as [Il|Il].
          + rewrite <- X. destruct l as [e e']. cbn [fst snd] in *. subst e. now apply inner_from_n in Il.
          + exfalso. destruct (early_facts l Il) as (s & t & -> & _ & _ & Y & _). cbn in X. injection X as X _. contradiction.
        - intros Il. exists ((n, ko), t). split; [reflexivity|]. apply filter_In. split; [apply HLB; left; now apply inner_from_n|]. now apply ep_eqb_iff. }
      rewrite (each_append_inv _ (inline_order_out output) (fun t => map (fun s => ord s (fst t)) bn) (fun L => input_neighbours (at_links L) output = bn)); [| |reflexivity].
      2:{ intros t L It EL. apply Htn in It. pose proof (bf_from _ _ F _ It eq_refl) as Nt. cbn in Nt. split.
          - unfold inline_order_out. rewrite EL. rewrite (each_append _ _ (fun s => [ord s (fst t)])).
            + now rewrite flat_single.
            + intros s L2 Is. cbn beta. rewrite order_at; [reflexivity| |].
              * apply Hbn in Is. destruct Is as (a & b & Is). now apply Cbn in Is.
              * apply (bf_flow _ _ F _ It). left. now left.
          - unfold input_neighbours in *. cbn [set_links h_links] in *. rewrite filter_app, map_app. rewrite (filter_none _ _ (map (fun s => ord s (fst t)) bn)); [cbn [map]; rewrite app_nil_r; exact EL|].
            intros l2 I2. apply in_map_iff in I2. destruct I2 as (s & <- & _). cbn [ord fst snd]. apply N.eqb_neq. intros Y. apply Nt. auto. }
      set (QC := flat_map (fun t : endpoint => map (fun s => ord s (fst t)) bn) (linked_inputs (at_links LB) n ko)).
      cbv beta iota. change (h_out (at_links (LB ++ QC)) n) with (h_out h n). rewrite Ho, others_last.
      assert (HQC : forall l, In l QC <-> exists s a t b c, In ((n, ko), (t, c)) (h_links h) /\ In ((s, a), (output, b)) LB /\ l = ord s t).
      { intros l. unfold QC. rewrite in_flat_map. split.
        - intros ([t c] & It & Il). apply Htn in It. apply in_map_iff in Il. destruct Il as (s & <- & Is). apply Hbn in Is. destruct Is as (a & b & Is). exists s, a, t, b, c. auto.
        - intros (s & a & t & b & c & It & Is & ->). exists (t, c). split; [now apply Htn|]. apply in_map_iff. exists s. split; [reflexivity|]. apply Hbn. eauto. }
      assert (FQC : forall l, In l QC -> fst (fst l) <> n /\ fst (snd l) <> output).
      { intros l Il. apply HQC in Il. destruct Il as (s & a & t & b & c & It & Is & ->). cbn [ord fst snd]. split; [now apply Cbn in Is|].
        pose proof (bf_from _ _ F _ It eq_refl) as Nt. cbn in Nt. intros ->. auto. }
      (* the value outputs *)
      set (preds := linked_outputs (at_links (LB ++ QC)) output ko).
      assert (Hp : forall s, In s preds <-> In (s, (output, ko)) LB).
      { intros s. unfold preds, linked_outputs. cbn [set_links h_links]. rewrite in_map_iff. split.
        - intros (l & <- & Il). apply filter_In in Il. destruct Il as [Il X]. apply ep_eqb_iff in X. apply in_app_iff in Il. destruct Il as [Il|Il].
          + rewrite <- X. now destruct l.
          + exfalso. destruct (FQC l Il) as [_ Y]. apply Y. now rewrite X.
        - intros Il. exists (s, (output, ko)). split; [reflexivity|]. apply filter_In. split; [apply in_app_iff; now left|]. now apply ep_eqb_iff. }
      destruct (outputs_loop so' preds) with (ps := seq 0 ko) (L := LB ++ QC) (V := inner) (Q := (QA ++ QB) ++ QC) as (L' & R & -> & P' & HR).
      { intros p Lp. destruct (so_facts p Lp) as (_ & A1 & _ & _ & A2 & _). destruct (bf_out _ _ F p Lp) as (_ & A5 & A6 & _). auto. }
      { intros [s a] Is. apply Hp in Is. now apply Cbn in Is. }
      { exact D2. }
      { apply seq_NoDup. }
      { intros p Ip. apply in_seq in Ip. lia. }
      { rewrite app_assoc. now apply Permutation_app_tail. }
      { intros p Ip. apply in_seq in Ip. rewrite inner_eq, filter_map, filter_filter.
        assert (Ef : filter (fun x => negb (into_n x) && into (output, p) (via_in x)) (h_links h) = [(so p, (output, p))]).
        { destruct (bf_out _ _ F p) as (E & _); [lia|]. rewrite <- E. apply filter_ext. intros l. unfold into. rewrite via_in_snd.
          destruct (ep_eqb (snd l) (output, p)) eqn:X; [|now rewrite andb_false_r]. apply ep_eqb_iff in X. rewrite andb_true_r. apply negb_true_iff.
          unfold into_n. rewrite X. cbn [fst snd]. apply N.eqb_neq in D2. rewrite N.eqb_sym in D2. now rewrite D2. }
        rewrite Ef. cbn [map]. unfold so'. pose proof (via_in_snd (so p, (output, p))) as Z. destruct (via_in (so p, (output, p))) as [e e']. cbn [fst snd] in *. now subst e'. }
      { intros p l Ip Il. apply in_seq in Ip. apply in_app_iff in Il. destruct Il as [Il|Il].
        - apply HE in Il. destruct (early_facts l Il) as (s & t & -> & _ & _ & Y & _). cbn [ord fst snd]. split; intros X; injection X as X X'; [|contradiction].
          subst t. rewrite O4 in X'. lia.
        - destruct (FQC l Il) as [A B]. split; intros X; [apply B|apply A]; now rewrite X. }
      { intros l Il El. apply inner_from_n in Il; [|exact El]. split; [now apply (bf_ports _ _ F)|]. split; [apply (bf_flow _ _ F _ Il); left; left; auto|].
        pose proof (bf_from _ _ F _ Il El) as Nt. cbn in Nt. intros X. apply Nt. auto. }
      exists L', (((QA ++ QB) ++ QC) ++ R). split; [reflexivity|]. split.
      - replace (map via_out (filter (fun l => negb (into_o l)) inner)) with (spliced_out so' (seq 0 ko) inner); [exact P'|].
        rewrite spliced_out_eq; [|intros p Ip; apply in_seq in Ip; apply so_facts; lia|apply seq_NoDup].
        unfold via_out, into_o. erewrite map_ext, filter_ext; [reflexivity| |]; intros l; cbn beta; now rewrite existsb_seq.
      - intros l. rewrite in_app_iff, in_app_iff, HE, HQC, HR. unfold late. split.
        + intros [[A|(s & a & t & b & c & It & Is & ->)]|(p & Ip & Il)]; [now left| |].
          * right. exists s, a, t, c. split; [reflexivity|]. left. exists b. split; [exact It|]. now apply HLB.
          * apply in_seq in Ip. unfold new_out in Il. apply in_flat_map in Il. destruct Il as ([t c] & It & Il). apply in_map_iff in Il. destruct Il as ([s a] & <- & Is).
            apply in_map_iff in It. destruct It as ([e e'] & Et & It). apply filter_In in It. destruct It as [It X]. apply outof_iff in X. cbn [fst snd] in *. subst e e'.
            right. exists s, a, t, c. split; [reflexivity|]. right. exists p. split; [lia|]. split; [now apply inner_from_n in It|]. now apply HLB, Hp.
        + intros [A|(s & a & t & c & -> & [(b & It & Is)|(p & Lp & It & Is)])]; [now left; left| |].
          * left. right. exists s, a, t, b, c. split; [exact It|]. split; [now apply HLB|reflexivity].
          * right. exists p. split; [apply in_seq; lia|]. unfold new_out. apply in_flat_map. exists (t, c). split.
            -- apply in_map_iff. exists ((n, p), (t, c)). split; [reflexivity|]. apply filter_In. split; [now apply inner_from_n|]. now apply outof_iff.
            -- apply in_map_iff. exists (s, a). split; [reflexivity|]. now apply Hp, HLB.
    Qed.
  End Whole.
End Links.
