(** The stages of a replacement: the region is inserted, opened, connected, and the subgraph removed. *)
From Coq Require Import List Bool NArith Arith Lia Permutation.
From Verif Require Import TagModel TypesModel GraphModel GraphSpec GraphProofs GraphRemove GraphProps InsertModel InsertSpec InsertProofs InsertProps OpModel DeadModel DeadProofs
  InlineModel InlineProofs InlineTree ReplaceModel ReplaceSpec ReplaceProofs.
Import ListNotations.

Lemma below_live : forall O M (h : hugr O M) x y, wf h -> In y (h_nodes h) -> below h x y -> In x (h_nodes h).
Proof.
  intros O M h x y W I B. unfold below in B. inversion B as [|? p ? E _]; subst; [exact I|]. now apply (wf_parent_live h W x p).
Qed.

Lemma remove_from : forall M (h : hugr op M) n h', wf h -> remove_node OModule h n = Some h' -> culled h [n] h'.
Proof. intros M h n h' W E. apply (cull_step h h h' [] n W (culled_none h)); [intros []|exact E]. Qed.

Section Stages.
  Context {M : Type}.
  Notation hugr := (hugr op M).
  Variables h repl : hugr.
  Variables i o parent : N.
  Variable fresh : list N.
  Hypothesis W : wf h.
  Hypothesis Wr : wf repl.
  Hypothesis Ip : In parent (h_nodes h).
  Variable rest : list N.
  Hypothesis Kids : h_kids repl (h_entry repl) = i :: o :: rest.
  Hypothesis Li : h_kids repl i = [].
  Hypothesis Lo : h_kids repl o = [].
  Hypothesis Df : NoDup fresh.
  Hypothesis Fr : forall y, In y fresh -> ~ In y (h_nodes h).
  Hypothesis Len : length (h_nodes repl) <= length fresh.
  Notation e := (h_entry repl).
  Notation interior := (interior repl i o).

  Definition inner_link (l : link) : Prop := interior (fst (fst l)) /\ interior (fst (snd l)).

  (** The copy, without its boundary. *)
  Record opened (f : N -> N) (m : list (N * N)) (h' : hugr) : Prop := {
    op_wf : wf h';
    op_map : forall x y, InsertModel.lookup m x = Some y <-> interior x /\ y = f x;
    op_inj : forall x y, interior x -> interior y -> f x = f y -> x = y;
    op_fresh : forall x, interior x -> ~ In (f x) (h_nodes h);
    op_nodes : forall y, In y (h_nodes h') <-> In y (h_nodes h) \/ exists x, interior x /\ y = f x;
    op_copies : forall x, interior x -> h_ops h' (f x) = h_ops repl x /\ h_meta h' (f x) = h_meta repl x /\
      h_in h' (f x) = h_in repl x /\ h_out h' (f x) = h_out repl x /\ h_kids h' (f x) = map f (h_kids repl x) /\
      h_parent h' (f x) = option_map (fun p => if N.eqb p e then parent else f p) (h_parent repl x);
    op_host : forall y, In y (h_nodes h) -> same_node h h' y /\ (y <> parent -> h_kids h' y = h_kids h y);
    op_kids : h_kids h' parent = h_kids h parent ++ map f rest;
    op_root : h_root h' = h_root h;
    op_entry : h_entry h' = h_entry h;
    op_links : exists inner, (forall l, In l (h_links repl) -> inner l = true <-> inner_link l) /\
      Permutation (h_links h') (h_links h ++ map (move_link f) (filter inner (h_links repl))) }.

  Lemma child_below : forall c, In c (h_kids repl e) -> below repl c e /\ c <> e.
  Proof.
    intros c I. apply (wf_kids repl Wr) in I. split; [apply up_next with e; [exact I|constructor]|].
    intros ->. apply (no_cycle repl Wr e e I). constructor.
  Qed.

  Lemma interior_child : forall c, In c rest -> interior c.
  Proof.
    intros c I. pose proof (wf_kids_once repl Wr e) as D. rewrite Kids in D. inversion D as [|? ? N1 D1]; subst. inversion D1 as [|? ? N2 _]; subst.
    destruct (child_below c) as [B Ne]; [rewrite Kids; cbn; auto|]. split; [exact B|]. split; [exact Ne|]. split; intros ->; [apply N1; now right|contradiction].
  Qed.

  Lemma interior_down : forall x c, interior x -> In c (h_kids repl x) -> interior c.
  Proof.
    intros x c (B & N1 & N2 & N3) I. apply (wf_kids repl Wr) in I. split; [apply up_next with x; [exact I|exact B]|]. split; [|split].
    - intros ->. apply (no_cycle repl Wr e x I B).
    - intros ->. assert (X : In i (h_kids repl e)) by (rewrite Kids; now left). apply (wf_kids repl Wr) in X. congruence.
    - intros ->. assert (X : In o (h_kids repl e)) by (rewrite Kids; right; now left). apply (wf_kids repl Wr) in X. congruence.
  Qed.

  Lemma interior_up : forall x p, interior x -> h_parent repl x = Some p -> p = e \/ interior p.
  Proof.
    intros x p (B & N1 & N2 & N3) E. destruct (N.eq_dec p e) as [->|Np]; [now left|right].
    split; [inversion B as [|? q ? E' B']; subst; [contradiction|]; rewrite E' in E; injection E as ->; exact B'|]. split; [exact Np|].
    apply (wf_kids repl Wr) in E. split; intros ->; [rewrite Li in E|rewrite Lo in E]; destruct E.
  Qed.

  Lemma forget_lookup : forall m n x, InsertModel.lookup (forget m n) x = if N.eqb x n then None else InsertModel.lookup m x.
  Proof.
    intros m n x. unfold forget. induction m as [|[a b] m IH]; [cbn; now destruct (N.eqb x n)|]. cbn [filter fst InsertModel.lookup].
    destruct (N.eqb_spec a n) as [En|Na]; cbn [negb InsertModel.lookup]; rewrite IH; destruct (N.eqb_spec x n) as [Ex|Nx]; destruct (N.eqb_spec a x) as [Ea|_]; try reflexivity; congruence.
  Qed.

  Lemma open_region : exists h1 m i' o' e' h2 h3 h4 f,
    insert_hugr OModule in_count out_count h parent repl fresh = InsertModel.Done (h1, m) /\
    InsertModel.lookup m i = Some i' /\ InsertModel.lookup m o = Some o' /\ InsertModel.lookup m e = Some e' /\
    remove_nodes h1 [i'; o'] = Some h2 /\ each (fun h c => set_parent h c parent) (h_kids h2 e') h2 = Some h3 /\
    remove_node OModule h3 e' = Some h4 /\ opened f (forget (forget (forget m i) o) e) h4.
  Proof.
    destruct (insert_hugr_faithful op M OModule in_count out_count h repl parent fresh W Wr Ip Df Fr Len)
      as (h1 & m & f & E1 & W1 & Hm & Inj & Fresh & Nodes & Copies & Hosts & Root & Entry & nodes & Hn & Links).
    assert (Be : below repl e e) by constructor.
    destruct (child_below i) as [Bi Nie]; [rewrite Kids; now left|]. destruct (child_below o) as [Bo Noe]; [rewrite Kids; right; now left|].
    assert (Nio : i <> o). { pose proof (wf_kids_once repl Wr e) as D. rewrite Kids in D. inversion D as [|? ? N1 _]; subst. intros ->. apply N1. now left. }
    assert (Int : forall x, interior x -> below repl x e) by (intros x (B & _); exact B).
    assert (Fne : forall x y, below repl x e -> below repl y e -> x <> y -> f x <> f y) by (intros x y Bx By Ne X; apply Ne; now apply Inj).
    assert (Live1 : forall x, below repl x e -> In (f x) (h_nodes h1)) by (intros x B; apply Nodes; right; exists x; auto).
    assert (Old : forall x, below repl x e -> f x <> h_entry h /\ f x <> h_root h /\ f x <> parent).
    { intros x B. split; [|split]; intros X; apply (Fresh x B); rewrite X; [apply (wf_entry h W)|apply (wf_root h W)|exact Ip]. }
    destruct (remove_nodes_spec h1 W1 [f i; f o] [] h1 (culled_none h1)) as (h2 & E2 & C2).
    { constructor; [intros [X|[]]; symmetry in X; revert X; now apply Fne|]. constructor; [intros []|constructor]. }
    { intros n [<-|[<-|[]]]; (split; [now apply Live1|split; [rewrite Entry; now apply Old|intros []]]). }
    cbn [rev app] in C2.
    assert (NR2 : forall n, (n <> f o /\ n <> f i) -> memN n [f o; f i] = false).
    { intros n [A B]. apply memN_false. intros [X|[X|[]]]; congruence. }
    assert (W2 : wf h2).
    { apply (culled_wf h1 h2 [f o; f i] W1 C2).
      - rewrite Root. intros [X|[X|[]]]; symmetry in X; revert X; apply not_eq_sym; now apply Old.
      - rewrite Entry. intros [X|[X|[]]]; symmetry in X; revert X; apply not_eq_sym; now apply Old.
      - intros c p Ec Ipp. apply (wf_kids h1 W1) in Ec. destruct Ipp as [<-|[<-|[]]]; [destruct (Copies o Bo) as (_ & _ & _ & _ & K & _); rewrite K, Lo in Ec|destruct (Copies i Bi) as (_ & _ & _ & _ & K & _); rewrite K, Li in Ec]; destruct Ec. }
    destruct (Copies e Be) as (_ & _ & _ & _ & Ke & Pe). rewrite Kids in Ke. cbn [map] in Ke. rewrite N.eqb_refl in Pe.
    assert (Ne2 : memN (f e) [f o; f i] = false) by (apply NR2; split; apply Fne; auto).
    assert (Np2 : memN parent [f o; f i] = false). { apply NR2. split; apply not_eq_sym; now apply Old. }
    assert (K2 : h_kids h2 (f e) = map f rest).
    { rewrite (cu_kids _ _ _ C2), Ne2, Ke. cbn [filter]. rewrite !memN_cons, N.eqb_refl, orb_true_r. cbn [negb orb]. rewrite N.eqb_refl. cbn [orb negb].
      apply filter_all. intros c Ic. apply in_map_iff in Ic. destruct Ic as (x & <- & Ix). apply negb_true_iff, NR2.
      destruct (interior_child x Ix) as (B & _ & A1 & A2). split; now apply Fne. }
    assert (P2 : h_parent h2 (f e) = Some parent) by (rewrite (cu_parent _ _ _ C2), Ne2, Pe, Np2; reflexivity).
    assert (ND : NoDup (map f rest)) by (rewrite <- K2; apply (wf_kids_once h2 W2)).
    destruct (move_children h2 (f e) parent W2 P2 (map f rest) [] h2) as (h3 & E3 & Mv).
    { constructor; [exact W2|do 7 (split; [reflexivity|]); reflexivity|reflexivity|]. intros k. cbn [memN existsb]. rewrite app_nil_r. destruct (N.eqb_spec k parent) as [->|_]; [reflexivity|]. destruct (N.eqb_spec k (f e)) as [->|_]; [|reflexivity].
      symmetry. now apply filter_all. }
    { exact ND. }
    { intros c Ic. cbn [app] in Ic. rewrite <- K2 in Ic. now apply (wf_kids h2 W2). }
    cbn [app] in Mv. pose proof (mv_wf _ _ _ _ _ Mv) as W3. destruct (mv_same _ _ _ _ _ Mv) as (S1 & S2 & S3 & S4 & S5 & S6 & S7 & S8).
    destruct (proj2 (remove_node_iff OModule h3 (f e))) as (h4 & E4).
    { rewrite S1, S8, (cu_nodes _ _ _ C2), (cu_entry _ _ _ C2), filter_In, Ne2, Entry. split; [split; [now apply Live1|reflexivity]|now apply Old]. }
    pose proof (remove_from M h3 (f e) h4 W3 E4) as C4.
    assert (K3 : h_kids h3 (f e) = []).
    { rewrite (mv_kids _ _ _ _ _ Mv), N.eqb_refl, K2. destruct (N.eqb_spec (f e) parent) as [X|_]; [destruct (Old e Be) as (_ & _ & A); contradiction|].
      apply InlineProofs.filter_none. intros c Ic. apply memN_iff in Ic. now rewrite Ic. }
    exists h1, m, (f i), (f o), (f e), h2, h3, h4, f. split; [exact E1|]. do 3 (split; [apply Hm; auto|]). split; [exact E2|]. rewrite K2. split; [exact E3|]. split; [exact E4|].
    assert (N4 : forall n, n <> f e -> memN n [f e] = false) by (intros n A; apply memN_false; intros [X|[]]; congruence).
    assert (Fi : forall x, interior x -> memN (f x) [f o; f i] = false /\ memN (f x) [f e] = false).
    { intros x (B & A1 & A2 & A3). split; [apply NR2; split|apply N4]; now apply Fne. }
    assert (Fh : forall y, In y (h_nodes h) -> memN y [f o; f i] = false /\ memN y [f e] = false).
    { intros y Iy. assert (X : forall x, below repl x e -> y <> f x) by (intros x B ->; now apply (Fresh x B)). split; [apply NR2; split|apply N4]; now apply X. }
    assert (Hrest : forall y, In y (h_nodes h) -> memN y (map f rest) = false).
    { intros y Iy. apply memN_false. intros X. apply in_map_iff in X. destruct X as (x & <- & Ix). apply (Fresh x); [apply Int, interior_child, Ix|exact Iy]. }
    constructor.
    - apply (culled_wf h3 h4 [f e] W3 C4).
      + rewrite S7, (cu_root _ _ _ C2), Root. intros [X|[]]. destruct (Old e Be) as (_ & A & _). contradiction.
      + rewrite S8, (cu_entry _ _ _ C2), Entry. intros [X|[]]. destruct (Old e Be) as (A & _). contradiction.
      + intros c p Ec [<-|[]]. apply (wf_kids h3 W3) in Ec. rewrite K3 in Ec. destruct Ec.
    - intros x y. rewrite !forget_lookup. unfold ReplaceSpec.interior. destruct (N.eqb_spec x e) as [->|A1]; [split; [discriminate|tauto]|].
      destruct (N.eqb_spec x o) as [->|A2]; [split; [discriminate|tauto]|]. destruct (N.eqb_spec x i) as [->|A3]; [split; [discriminate|tauto]|]. rewrite Hm. tauto.
    - intros x y Ix Iy. apply Inj; now apply Int.
    - intros x Ix. now apply Fresh, Int.
    - intros y. rewrite (cu_nodes _ _ _ C4), filter_In, S1, (cu_nodes _ _ _ C2), filter_In, !negb_true_iff, Nodes. split.
      + intros [[[Iy|(x & Bx & ->)] A] B]; [now left|right]. exists x. split; [|reflexivity]. apply memN_false in A, B. cbn [In] in A, B.
        split; [exact Bx|]. split; [intros ->; tauto|]. split; intros ->; tauto.
      + intros [Iy|(x & Ix & ->)]; [destruct (Fh y Iy); auto|]. destruct (Fi x Ix) as [A B]. split; [|exact B]. split; [|exact A]. right. exists x. split; [now apply Int|reflexivity].
    - intros x Ix. destruct (Copies x (Int x Ix)) as (O1 & O2 & O3 & O4 & O5 & O6). destruct (Fi x Ix) as [F1 F2].
      rewrite (cu_ops _ _ _ C4), F2, (cu_meta _ _ _ C4), (cu_in _ _ _ C4), (cu_out _ _ _ C4), S2, S3, S5, S6, (cu_ops _ _ _ C2), F1, (cu_meta _ _ _ C2), (cu_in _ _ _ C2), (cu_out _ _ _ C2).
      do 4 (split; [assumption|]). assert (Nx : x <> e) by apply Ix. split.
      + rewrite (cu_kids _ _ _ C4), F2, (mv_kids _ _ _ _ _ Mv). destruct (N.eqb_spec (f x) parent) as [X|_]; [destruct (Old x (Int x Ix)) as (_ & _ & A); contradiction|].
        destruct (N.eqb_spec (f x) (f e)) as [X|_]; [apply memN_false in F2; exfalso; apply F2; now left|]. rewrite (cu_kids _ _ _ C2), F1, O5, filter_filter.
        apply filter_all. intros c Ic. apply in_map_iff in Ic. destruct Ic as (z & <- & Iz). destruct (Fi z (interior_down x z Ix Iz)) as [-> ->]. reflexivity.
      + rewrite (cu_parent _ _ _ C4), F2, (mv_parent _ _ _ _ _ Mv). destruct (N.eqb_spec x e) as [X|_]; [contradiction|].
        destruct (h_parent repl x) as [p|] eqn:Ep.
        * cbn [option_map]. destruct (interior_up x p Ix Ep) as [->|Ipp].
          -- rewrite N.eqb_refl. assert (Ir : In x rest). { apply (wf_kids repl Wr) in Ep. rewrite Kids in Ep. destruct Ep as [X|[X|X]]; [destruct Ix as (_ & _ & A & _); congruence|destruct Ix as (_ & _ & _ & A); congruence|exact X]. }
             apply (in_map f), memN_iff in Ir. rewrite Ir. destruct (Fh parent Ip) as [_ ->]. reflexivity.
          -- destruct (N.eqb_spec p e) as [X|_]; [destruct Ipp as (_ & A & _); contradiction|]. destruct (Fi p Ipp) as [P1 P3].
             replace (memN (f x) (map f rest)) with false.
             ++ rewrite (cu_parent _ _ _ C2), F1, O6. cbn [option_map]. now rewrite P1, P3.
             ++ symmetry. apply memN_false. intros X. apply in_map_iff in X. destruct X as (z & Ez & Iz). apply Inj in Ez; [subst z|apply Int, interior_child, Iz|now apply Int].
                assert (X : In x (h_kids repl e)) by (rewrite Kids; right; now right). apply (wf_kids repl Wr) in X. rewrite X in Ep. destruct Ipp as (_ & A & _). congruence.
        * exfalso. destruct Ix as (B & N1 & _). inversion B as [|? q ? X _]; subst; [contradiction|congruence].
    - intros y Iy. destruct (Hosts y Iy) as ((A1 & A2 & A3 & A4 & A5) & A6). destruct (Fh y Iy) as [F1 F2]. split.
      + unfold same_node. rewrite (cu_ops _ _ _ C4), F2, (cu_meta _ _ _ C4), (cu_in _ _ _ C4), (cu_out _ _ _ C4), S2, S3, S5, S6, (cu_ops _ _ _ C2), F1, (cu_meta _ _ _ C2), (cu_in _ _ _ C2), (cu_out _ _ _ C2).
        do 4 (split; [assumption|]). rewrite (cu_parent _ _ _ C4), F2, (mv_parent _ _ _ _ _ Mv), (Hrest y Iy), (cu_parent _ _ _ C2), F1, A5.
        destruct (h_parent h y) as [p|] eqn:Ep; [|reflexivity]. destruct (Fh p) as [-> ->]; [now apply (wf_parent_live h W y p)|]. reflexivity.
      + intros Ny. rewrite (cu_kids _ _ _ C4), F2, (mv_kids _ _ _ _ _ Mv). destruct (N.eqb_spec y parent) as [X|_]; [contradiction|].
        destruct (N.eqb_spec y (f e)) as [X|_]; [apply memN_false in F2; exfalso; apply F2; subst; now left|]. rewrite (cu_kids _ _ _ C2), F1, A6, filter_filter.
        destruct (N.eqb_spec y parent) as [X|_]; [contradiction|]. apply filter_all. intros c Ic. apply (wf_kids h W) in Ic. destruct (Fh c) as [-> ->]; [now apply (wf_parent_live h W c y)|reflexivity].
    - rewrite (cu_kids _ _ _ C4). destruct (Fh parent Ip) as [F1 F2]. rewrite F2, (mv_kids _ _ _ _ _ Mv), N.eqb_refl, (cu_kids _ _ _ C2), F1.
      destruct (Hosts parent Ip) as (_ & A6). rewrite A6, N.eqb_refl, !filter_app, filter_filter. cbn [filter]. rewrite Ne2. cbn [negb filter]. rewrite memN_cons, N.eqb_refl. cbn [orb negb app filter].
      rewrite app_nil_r. f_equal; apply filter_all.
      + intros c Ic. apply (wf_kids h W) in Ic. destruct (Fh c) as [-> ->]; [now apply (wf_parent_live h W c parent)|reflexivity].
      + intros c Ic. apply in_map_iff in Ic. destruct Ic as (x & <- & Ix). destruct (Fi x (interior_child x Ix)) as [_ ->]. reflexivity.
    - now rewrite (cu_root _ _ _ C4), S7, (cu_root _ _ _ C2).
    - now rewrite (cu_entry _ _ _ C4), S8, (cu_entry _ _ _ C2).
    - set (ib := fun x => memN x nodes && negb (memN x [e; i; o])).
      assert (Hib : forall x, ib x = true <-> interior x).
      { intros x. unfold ib. rewrite andb_true_iff, negb_true_iff, memN_iff, memN_false, Hn. cbn [In]. unfold ReplaceSpec.interior. intuition congruence. }
      exists (fun l => ib (fst (fst l)) && ib (fst (snd l))). split.
      + intros l _. rewrite andb_true_iff, !Hib. reflexivity.
      + rewrite (cu_links _ _ _ C4), S4, (cu_links _ _ _ C2), filter_filter. etransitivity; [apply InlineProofs.filter_perm; exact Links|]. rewrite filter_app.
        rewrite (filter_all _ _ (h_links h)).
        2:{ intros l Il. destruct (wf_links h W l Il) as [[A _] [B _]]. destruct l as [[a p] [b q]]. cbn [fst snd] in *. destruct (Fh _ A) as [X1 X2], (Fh _ B) as [Y1 Y2]. now rewrite X1, X2, Y1, Y2. }
        apply Permutation_app_head. etransitivity; [apply Permutation_refl'; apply InlineProofs.filter_map|]. apply Permutation_map. rewrite filter_filter. apply Permutation_refl'.
        apply filter_ext. intros [[a p] [b q]]. unfold inside, move_link. cbn [fst snd].
        assert (X : forall x, memN x nodes = true -> ib x = negb (memN (f x) [f o; f i]) && negb (memN (f x) [f e])).
        { intros x Ix. unfold ib. rewrite Ix. cbn [andb]. apply memN_iff, Hn in Ix.
          destruct (memN x [e; i; o]) eqn:Z; [apply memN_iff in Z; destruct Z as [<-|[<-|[<-|[]]]]|apply memN_false in Z]; rewrite !memN_cons, ?N.eqb_refl, ?orb_true_r; cbn [negb orb andb memN existsb]; rewrite ?andb_false_r; try reflexivity.
          cbn [In] in Z. repeat (match goal with |- context [N.eqb (f x) (f ?z)] => destruct (N.eqb_spec (f x) (f z)) as [A|_]; [apply Inj in A; [exfalso; intuition congruence|auto|auto]|] end). reflexivity. }
        destruct (memN a nodes) eqn:Ea, (memN b nodes) eqn:Eb; cbn [andb].
        * rewrite (X a Ea), (X b Eb). rewrite !negb_orb. destruct (memN (f a) [f o; f i]), (memN (f b) [f o; f i]), (memN (f a) [f e]), (memN (f b) [f e]); reflexivity.
        * unfold ib. rewrite Eb. cbn [andb]. now rewrite andb_false_r.
        * unfold ib. rewrite Ea. reflexivity.
        * unfold ib. rewrite Ea. reflexivity.
  Qed.
End Stages.
