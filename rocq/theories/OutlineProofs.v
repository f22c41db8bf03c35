(** Proofs about moving blocks into a nested control-flow graph. *)
From Coq Require Import List Bool NArith Arith Lia.
From Verif Require Import TypesModel GraphModel GraphSpec GraphProofs GraphRemove OpModel DeadModel InlineModel ReplaceModel OutlineModel OutlineSpec.
Import ListNotations.
Local Notation wf := GraphSpec.wf.

Section Find.
  Context {M : Type}.
  Notation hugr := (hugr op M).

  Lemma enters_iff (h : hugr) blocks first n : enters h blocks first n = true <-> n = first \/ exists s i j, In ((s, i), (n, j)) (h_links h) /\ ~ In s blocks.
  Proof.
    unfold enters. rewrite orb_true_iff, N.eqb_eq, existsb_exists. split; (intros [E|E]; [left; exact E|right]).
    - destruct E as (s & A & B). apply negb_true_iff, memN_false in B. unfold input_neighbours in A. apply in_map_iff in A as ([[s0 i] [d j]] & E & A). apply filter_In in A as [A D]. cbn in E, D. apply N.eqb_eq in D. subst. eauto 6.
    - destruct E as (s & i & j & A & B). exists s. split; [|apply negb_true_iff, memN_false, B]. unfold input_neighbours. apply in_map_iff. exists ((s, i), (n, j)). split; [reflexivity|]. apply filter_In. split; [exact A|]. cbn. apply N.eqb_refl.
  Qed.

  Definition leaving (blocks : list N) (l : link) : bool := memN (fst (fst l)) blocks && negb (memN (fst (snd l)) blocks).
  Lemma leaving_iff blocks l : leaving blocks l = true <-> leaves blocks l.
  Proof. unfold leaving, leaves. rewrite andb_true_iff, memN_iff, negb_true_iff, memN_false. reflexivity. Qed.
  Definition out_of (blocks : list N) n (l : link) : bool := N.eqb (fst (fst l)) n && negb (memN (fst (snd l)) blocks).
  Lemma succs_of (h : hugr) blocks n : external_succs h blocks n = map (fun l : link => fst (snd l)) (filter (out_of blocks n) (h_links h)).
  Proof.
    unfold external_succs, output_neighbours. induction (h_links h) as [|[[s i] [d j]] ls IH]; [reflexivity|]. cbn -[memN N.eqb]. unfold out_of at 1. cbn [fst snd].
    destruct (N.eqb s n); cbn -[memN N.eqb]; [|exact IH]. destruct (memN d blocks); cbn -[memN N.eqb]; [exact IH|]. f_equal. exact IH.
  Qed.
  Lemma succs_in (h : hugr) blocks n o : In n blocks -> In o (external_succs h blocks n) -> exists i j, In ((n, i), (o, j)) (h_links h) /\ leaves blocks ((n, i), (o, j)).
  Proof.
    intros Hn. rewrite succs_of, in_map_iff. intros ([[s i] [d j]] & E & A). apply filter_In in A as [A B]. unfold out_of in B. cbn in E, B. apply andb_true_iff in B as [B C]. apply N.eqb_eq in B. apply negb_true_iff, memN_false in C. subst. exists i, j. split; [exact A|]. split; [exact Hn|exact C].
  Qed.
  Lemma succs_all (h : hugr) blocks l : In l (h_links h) -> leaves blocks l -> In (fst (snd l)) (external_succs h blocks (fst (fst l))).
  Proof.
    intros A [_ B]. rewrite succs_of. apply in_map_iff. exists l. split; [reflexivity|]. apply filter_In. split; [exact A|]. unfold out_of. rewrite N.eqb_refl. apply negb_true_iff, memN_false. exact B.
  Qed.

  Definition only_exit (exit : option (N * N)) (n : N) : list N := match exit with Some (x, o) => if N.eqb n x then [o] else [] | None => [] end.
  Record scanned (h : hugr) blocks first (done : list N) entry exit : Prop := {
    sc_entry : forall n, In n done -> enters h blocks first n = true <-> entry = Some n;
    sc_entry_in : forall e, entry = Some e -> In e done;
    sc_exit : forall n, In n done -> external_succs h blocks n = only_exit exit n;
    sc_exit_in : forall x o, exit = Some (x, o) -> In x done
  }.
  Definition explained (h : hugr) blocks first (e : outline_error) : Prop :=
    match e with
    | NotSiblings | ParentNotCfg _ => False
    | MultipleEntryNodes a b => a <> b /\ In a blocks /\ In b blocks /\ enters h blocks first a = true /\ enters h blocks first b = true
    | MultipleExitNodes a b => a <> b /\ In a blocks /\ In b blocks /\ external_succs h blocks a <> [] /\ external_succs h blocks b <> []
    | MultipleExitEdges n l => In n blocks /\ external_succs h blocks n = l /\ 2 <= length l
    | NoEntryNode => forall n, In n blocks -> enters h blocks first n = false
    | NoExitNode => forall n, In n blocks -> external_succs h blocks n = []
    end.

  Lemma scan_ok (h : hugr) blocks first : forall todo done entry exit, NoDup (done ++ todo) -> (forall n, In n (done ++ todo) <-> In n blocks) -> scanned h blocks first done entry exit ->
    match scan h blocks first todo entry exit with
    | Found e x o => scanned h blocks first blocks (Some e) (Some (x, o))
    | NotFound err => explained h blocks first err
    end.
  Proof.
    induction todo as [|n todo IH]; intros done entry exit Nd All [S1 S2 S3 S4]; cbn [scan].
    - rewrite app_nil_r in *. destruct entry as [e|].
      + destruct exit as [[x o]|].
        * constructor; [intros n Hn; apply S1, All, Hn|intros e0 E; apply All, S2, E|intros n Hn; apply S3, All, Hn|intros x0 o0 E; apply All, (S4 _ _ E)].
        * intros n Hn. apply All in Hn. rewrite (S3 n Hn). reflexivity.
      + intros n Hn. apply All in Hn. destruct (enters h blocks first n) eqn:E; [|reflexivity]. apply (S1 n Hn) in E. discriminate.
    - assert (Nn : ~ In n done). { intros H. apply NoDup_remove_2 in Nd. apply Nd, in_or_app. now left. }
      assert (Hn : In n blocks) by (apply All, in_or_app; right; now left).
      assert (Sub : forall y, In y done -> In y blocks) by (intros y H; apply All, in_or_app; now left).
      assert (Nd2 : NoDup ((done ++ [n]) ++ todo)) by (rewrite <- app_assoc; exact Nd).
      assert (All2 : forall y, In y ((done ++ [n]) ++ todo) <-> In y blocks) by (intros y; rewrite <- app_assoc; apply All).
      assert (Leave : forall entry2, (forall y, In y (done ++ [n]) -> enters h blocks first y = true <-> entry2 = Some y) -> (forall e, entry2 = Some e -> In e (done ++ [n])) ->
        match (match external_succs h blocks n with
        | [] => scan h blocks first todo entry2 exit
        | [o] => match exit with
                 | None => scan h blocks first todo entry2 (Some (n, o))
                 | Some (prev, _) => NotFound (MultipleExitNodes prev n)
                 end
        | succs => NotFound (MultipleExitEdges n succs)
        end) with
        | Found e x o => scanned h blocks first blocks (Some e) (Some (x, o))
        | NotFound err => explained h blocks first err
        end).
      { intros entry2 T1 T2. destruct (external_succs h blocks n) as [|o [|o2 l]] eqn:Ex.
        - apply (IH (done ++ [n])); [exact Nd2|exact All2|]. constructor; [exact T1|exact T2| |intros x o E; apply in_or_app; left; exact (S4 x o E)].
          intros y Hy. apply in_app_or in Hy as [Hy|[<-|[]]]; [apply S3, Hy|]. rewrite Ex. unfold only_exit. destruct exit as [[x o]|]; [|reflexivity]. destruct (N.eqb_spec n x) as [->|_]; [|reflexivity]. destruct (Nn (S4 x o eq_refl)).
        - destruct exit as [[x o0]|].
          + cbn. assert (Hx : In x done) by exact (S4 x o0 eq_refl). split; [intros ->; contradiction|]. split; [apply Sub, Hx|]. split; [exact Hn|]. split; [rewrite (S3 x Hx); cbn; rewrite N.eqb_refl; discriminate|rewrite Ex; discriminate].
          + apply (IH (done ++ [n])); [exact Nd2|exact All2|]. constructor; [exact T1|exact T2| |intros x o0 E; injection E as <- <-; apply in_or_app; right; now left].
            intros y Hy. apply in_app_or in Hy as [Hy|[<-|[]]]; cbn.
            * destruct (N.eqb_spec y n) as [->|_]; [contradiction|]. apply S3, Hy.
            * rewrite N.eqb_refl. exact Ex.
        - cbn. split; [exact Hn|]. split; [exact Ex|]. lia. }
      destruct (enters h blocks first n) eqn:En.
      + destruct entry as [prev|].
        * cbn. assert (Hp : In prev done) by exact (S2 prev eq_refl). split; [intros ->; contradiction|]. split; [apply Sub, Hp|]. split; [exact Hn|]. split; [|exact En]. apply (S1 prev Hp). reflexivity.
        * apply Leave.
          -- intros y Hy. apply in_app_or in Hy as [Hy|[<-|[]]]; [|tauto]. rewrite (S1 y Hy). split; intros E; [discriminate|]. injection E as ->. contradiction.
          -- intros e E. injection E as ->. apply in_or_app. right. now left.
      + apply Leave.
        * intros y Hy. apply in_app_or in Hy as [Hy|[<-|[]]]; [apply S1, Hy|]. rewrite En. split; intros E; [discriminate|]. destruct (Nn (S2 _ E)).
        * intros e E. apply in_or_app. left. exact (S2 e E).
  Qed.

  Lemma common_parent_iff (h : hugr) blocks p : wf h -> (forall n, In n blocks -> In n (h_nodes h)) -> common_parent h blocks = Some p <-> siblings h blocks p.
  Proof.
    intros W L. assert (G : forall n, In n blocks -> get_parent h n = h_parent h n).
    { intros n Hn. unfold get_parent. rewrite (proj2 (contains_iff h n) (L n Hn)). cbn. destruct (N.eqb_spec n (h_root h)) as [->|_]; [cbn; symmetry; apply (wf_top h W)|reflexivity]. }
    unfold siblings. destruct blocks as [|n rest]; cbn [common_parent]; [split; [discriminate|intros [E _]; contradiction]|]. rewrite (G n (or_introl eq_refl)). destruct (h_parent h n) as [q|] eqn:E.
    2: { split; [discriminate|]. intros [_ H]. rewrite (H n (or_introl eq_refl)) in E. discriminate. }
    destruct (forallb _ rest) eqn:F.
    - rewrite forallb_forall in F. split.
      + intros X. injection X as <-. split; [discriminate|]. intros m [<-|Hm]; [exact E|]. specialize (F m Hm). rewrite (G m (or_intror Hm)) in F. destruct (h_parent h m) as [r|]; [|discriminate]. apply N.eqb_eq in F. now subst.
      + intros [_ H]. rewrite (H n (or_introl eq_refl)) in E. congruence.
    - split; [discriminate|]. intros [_ H]. exfalso. assert (F2 : forallb (fun m => match get_parent h m with Some q0 => N.eqb q0 q | None => false end) rest = true).
      { apply forallb_forall. intros m Hm. rewrite (G m (or_intror Hm)), (H m (or_intror Hm)). rewrite (H n (or_introl eq_refl)) in E. injection E as ->. apply N.eqb_refl. }
      congruence.
  Qed.

  Lemma split_one {A} (f : A -> bool) l a : filter f l = [a] -> exists b c, l = b ++ a :: c /\ (forall y, In y b -> f y = false) /\ (forall y, In y c -> f y = false).
  Proof.
    induction l as [|y l IH]; cbn; [discriminate|]. destruct (f y) eqn:E.
    - intros X. injection X as -> X. exists [], l. split; [reflexivity|]. split; [intros ? []|]. intros z Hz. destruct (f z) eqn:Ez; [|reflexivity]. exfalso. assert (B : In z (filter f l)) by (apply filter_In; auto). rewrite X in B. destruct B.
    - intros X. destruct (IH X) as (b & c & -> & B & C). exists (y :: b), c. split; [reflexivity|]. split; [|exact C]. intros z [<-|Hz]; auto.
  Qed.
  Lemma filter_one {A} (f : A -> bool) l b a c : l = b ++ a :: c -> (forall y, In y b -> f y = false) -> (forall y, In y c -> f y = false) -> length (filter f l) <= 1.
  Proof.
    intros -> B C. assert (Z : forall l, (forall y, In y l -> f y = false) -> filter f l = []).
    { induction l as [|y l IH]; intros H; [reflexivity|]. cbn. rewrite (H y (or_introl eq_refl)). apply IH. intros z Hz. apply H. now right. }
    rewrite filter_app, (Z b B). cbn. rewrite (Z c C). destruct (f a); cbn; lia.
  Qed.
  Lemma compute_cases (h : hugr) blocks : wf h -> NoDup blocks -> (forall n, In n blocks -> In n (h_nodes h)) ->
    match compute_entry_exit h blocks with
    | Some (Found e x o) => exists p, movable h blocks p e x o
    | Some (NotFound err) => explains h blocks err
    | None => False
    end.
  Proof.
    intros W Nd L. unfold compute_entry_exit. destruct (common_parent h blocks) as [p|] eqn:Ep.
    2: { intros q S0. apply (common_parent_iff h blocks q W L) in S0. congruence. }
    apply (common_parent_iff h blocks p W L) in Ep. pose proof Ep as [Ne Par]. assert (NotC : (forall s, h_ops h p <> OCfg s) -> explains h blocks (ParentNotCfg p)) by (intros H; split; [exact Ep|exact H]).
    destruct (h_ops h p) as [| | | | | | | | | | | | | | | | | | | | |] eqn:Op; try (apply NotC; intros s0; discriminate).
    destruct (h_kids h p) as [|first kids] eqn:Ek.
    { destruct blocks as [|b l]; [contradiction|]. pose proof (Par b (or_introl eq_refl)) as Pb. apply (wf_kids h W) in Pb. rewrite Ek in Pb. destruct Pb. }
    assert (Ent : forall n, entry_of h p blocks n <-> In n blocks /\ enters h blocks first n = true).
    { intros n. unfold entry_of. rewrite enters_iff, Ek. split; (intros [A B]; split; [exact A|]); (destruct B as [B|B]; [left|right; exact B]); [destruct B as (r & B); congruence|exists kids; congruence]. }
    assert (OneP : forall q, siblings h blocks q -> q = p) by (intros q [_ H]; destruct blocks as [|b l]; [contradiction|]; specialize (H b (or_introl eq_refl)); rewrite (Par b (or_introl eq_refl)) in H; congruence).
    assert (S0 : scanned h blocks first [] None None) by (constructor; [intros ? []|discriminate|intros ? []|discriminate]).
    pose proof (scan_ok h blocks first blocks [] None None Nd (fun n => conj (fun H => H) (fun H => H)) S0) as Sc.
    destruct (scan h blocks first blocks None None) as [e x o|err].
    - destruct Sc as [S1 S2 S3 S4]. exists p. constructor; [exact Ep|eauto| |].
      + intros n. rewrite Ent. split; [intros [A B]; apply (S1 n A) in B; congruence|]. intros ->. pose proof (S2 e eq_refl) as He. split; [exact He|]. apply (S1 e He). reflexivity.
      + pose proof (S4 x o eq_refl) as Hx. pose proof (S3 x Hx) as Ex. cbn in Ex. rewrite N.eqb_refl, succs_of in Ex.
        assert (Fl : filter (leaving blocks) (h_links h) = filter (out_of blocks x) (h_links h)).
        { apply filter_ext_in. intros l Hl. destruct (leaving blocks l) eqn:E.
          - apply leaving_iff in E. pose proof (succs_all h blocks l Hl E) as A. destruct E as [E1 E2]. rewrite (S3 _ E1) in A. cbn in A. destruct (N.eqb_spec (fst (fst l)) x) as [X|]; [|destruct A]. unfold out_of. rewrite X, N.eqb_refl. symmetry. apply negb_true_iff, memN_false, E2.
          - symmetry. apply not_true_is_false. intros A. unfold out_of in A. apply andb_true_iff in A as [A B]. apply N.eqb_eq in A. unfold leaving in E. rewrite A, B, (proj2 (memN_iff x blocks) Hx) in E. discriminate. }
        destruct (filter (out_of blocks x) (h_links h)) as [|[[u i] [d j]] [|? ?]] eqn:F; try discriminate. cbn in Ex. injection Ex as ->.
        assert (Hs : In ((u, i), (o, j)) (filter (leaving blocks) (h_links h))) by (rewrite Fl; now left). apply filter_In in Hs as [_ Hs]. apply leaving_iff in Hs.
        assert (Es : u = x) by (assert (A : In ((u, i), (o, j)) (filter (out_of blocks x) (h_links h))) by (rewrite F; now left); apply filter_In in A as [_ A]; unfold out_of in A; apply andb_true_iff in A as [A _]; apply N.eqb_eq in A; exact A). subst u.
        destruct (split_one _ _ _ Fl) as (b & c & E & B & C). exists i, j, b, c. split; [exact E|]. split; [exact Hs|]. split; intros l Hl Lv; apply leaving_iff in Lv; [rewrite (B l Hl) in Lv|rewrite (C l Hl) in Lv]; discriminate.
    - destruct err as [| |a b|a b|n l| |]; cbn [explained] in Sc; try contradiction; cbn [explains].
      + destruct Sc as (A & B & C & D & E). split; [exact A|]. intros q Q. rewrite (OneP q Q), !Ent. auto.
      + destruct Sc as (A & B & C & D & E). split; [exact A|]. destruct (external_succs h blocks a) as [|o l] eqn:Ea; [contradiction|]. destruct (external_succs h blocks b) as [|o2 l2] eqn:Eb; [contradiction|].
        destruct (succs_in h blocks a o B) as (i & j & X & Y); [rewrite Ea; now left|]. destruct (succs_in h blocks b o2 C) as (i2 & j2 & X2 & Y2); [rewrite Eb; now left|]. exists i, o, j, i2, o2, j2. auto.
      + destruct Sc as (A & B & C). split; [exact C|]. rewrite succs_of in B. exists (filter (out_of blocks n) (h_links h)). split; [exact B|]. split; [|eauto]. intros k Hk. apply filter_In in Hk as [_ Hk]. unfold out_of in Hk. apply andb_true_iff in Hk as [K1 K2]. apply N.eqb_eq in K1. apply negb_true_iff, memN_false in K2. split; [exact K1|]. split; [rewrite K1; exact A|exact K2].
      + intros q n Q. rewrite (OneP q Q), Ent. intros [A B]. rewrite (Sc n A) in B. discriminate.
      + intros l Hl Lv. pose proof (succs_all h blocks l Hl Lv) as A. rewrite (Sc _ (proj1 Lv)) in A. destruct A.
  Qed.

  Lemma movable_found (h : hugr) blocks p e x o : wf h -> NoDup blocks -> (forall n, In n blocks -> In n (h_nodes h)) -> movable h blocks p e x o -> compute_entry_exit h blocks = Some (Found e x o).
  Proof.
    intros W Nd L Mv. pose proof (compute_cases h blocks W Nd L) as C. pose proof Mv as [Sb (sg & Cf) Me (i & j & b & c & Lk & Lv & B & C0)].
    assert (Hl : In ((x, i), (o, j)) (h_links h)) by (rewrite Lk; apply in_or_app; right; now left). assert (Uniq : forall l, In l (h_links h) -> leaves blocks l -> l = ((x, i), (o, j))).
    { intros l A D. rewrite Lk in A. apply in_app_or in A as [A|[A|A]]; [destruct (B _ A D)|auto|destruct (C0 _ A D)]. }
    assert (OneP : forall q, siblings h blocks q -> q = p) by (intros q [Ne H]; destruct Sb as [_ H2]; destruct blocks as [|y l]; [contradiction|]; specialize (H y (or_introl eq_refl)); rewrite (H2 y (or_introl eq_refl)) in H; congruence).
    destruct (compute_entry_exit h blocks) as [[e2 x2 o2|err]|]; [| |contradiction].
    - destruct C as (q & [Sb2 _ Me2 (i2 & j2 & b2 & c2 & Lk2 & Lv2 & _ & _)]). rewrite (OneP q Sb2) in Me2. assert (Ee : e = e2) by (apply Me2, Me; reflexivity).
      assert (A : In ((x2, i2), (o2, j2)) (h_links h)) by (rewrite Lk2; apply in_or_app; right; now left). specialize (Uniq _ A Lv2). injection Uniq as -> _ -> _. now subst.
    - exfalso. destruct err as [|q|a d|a d|n l| |]; cbn [explains] in C.
      + exact (C p Sb).
      + destruct C as [Q C]. rewrite (OneP q Q) in C. exact (C _ Cf).
      + destruct C as [Ne C]. destruct (C p Sb) as [X Y]. apply Me in X. apply Me in Y. congruence.
      + destruct C as (Ne & i1 & c1 & j1 & k & d1 & l & X1 & X2 & X3 & X4). apply (Uniq _ X1) in X2. apply (Uniq _ X3) in X4. congruence.
      + destruct C as (C & ls & E & F & keep & K). assert (Le : length ls <= 1).
        { rewrite K. apply (filter_one keep _ _ _ _ Lk); intros y Hy; apply not_true_is_false; intros Y; [apply (B y Hy)|apply (C0 y Hy)]; apply F; rewrite K; apply filter_In; (split; [rewrite Lk; apply in_or_app|exact Y]); [now left|right; now right]. }
        rewrite <- E, map_length in C. lia.
      + apply (C p e Sb). apply Me. reflexivity.
      + exact (C _ Hl Lv).
  Qed.
End Find.
