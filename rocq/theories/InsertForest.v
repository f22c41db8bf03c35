(** The insertion functions as a whole. *)
From Coq Require Import List Bool NArith Arith Lia Permutation.
From Verif Require Import GraphModel GraphSpec GraphProofs GraphRemove GraphBfs InsertModel InsertSpec InsertProofs InsertTree.
Import ListNotations.

Lemma up_linear : forall f x a b, up f x a -> up f x b -> up f a b \/ up f b a.
Proof.
  intros f x a b U. revert b. induction U as [x|x p a E U IH]; intros b V; [now left|].
  inversion V as [|? q ? E' V']; subst; [right; now apply up_next with p|]. rewrite E in E'. injection E' as <-. auto.
Qed.

Lemma combine_fst : forall A B (l : list A) (r : list B), length l <= length r -> map fst (combine l r) = l.
Proof.
  induction l as [|x l IH]; intros r Len; [reflexivity|]. destruct r as [|y r]; [cbn in Len; lia|]. cbn. f_equal. apply IH. cbn in Len. lia.
Qed.
Lemma combine_snd : forall A B (l : list A) (r : list B), incl (map snd (combine l r)) r.
Proof.
  induction l as [|x l IH]; intros r y I; [destruct I|]. destruct r as [|z r]; [destruct I|]. cbn in I.
  destruct I as [<-|I]; [now left|right; now apply (IH r)].
Qed.
Lemma combine_snd_nodup : forall A B (l : list A) (r : list B), NoDup r -> NoDup (map snd (combine l r)).
Proof.
  induction l as [|x l IH]; intros r D; [constructor|]. destruct r as [|z r]; [constructor|]. inversion D; subst. cbn. constructor; auto.
  intros I. apply combine_snd in I. contradiction.
Qed.

Section Forest.
  Context {O M : Type}.
  Variable o_default : O.
  Variable o_in o_out : O -> nat.
  Variable m_empty : M -> bool.
  Notation hugr := (hugr O M).

  Lemma get_parent_wf : forall (h : hugr) n, wf h -> get_parent h n = h_parent h n.
  Proof.
    intros h n W. unfold get_parent, contains. destruct (memN n (h_nodes h)) eqn:E.
    - destruct (N.eqb_spec n (h_root h)) as [->|]; [symmetry; apply (wf_top h W)|reflexivity].
    - apply memN_false in E. symmetry. apply (wf_unused h W n E).
  Qed.

  Lemma loaded_start : forall h0 other : hugr, loaded h0 other [] h0.
  Proof.
    intros h0 other. constructor; auto; cbn [map]; try (constructor; fail); try (intros; contradiction).
    - cbn. replace (filter (mapped []) (h_links other)) with (@nil link).
      + cbn. rewrite app_nil_r. apply Permutation_refl.
      + induction (h_links other) as [|[[s i] [t j]] l IH]; [reflexivity|exact IH].
  Qed.

  Lemma set_parent_meta : forall (h h' : hugr) n p, set_parent h n p = Some h' -> h_meta h' = h_meta h.
  Proof.
    intros h h' n p S. unfold set_parent, push_child in S. destruct (contains h p && contains h n); [|discriminate].
    assert (D : h_meta (detach h n) = h_meta h) by (unfold detach; now destruct (h_parent h n)).
    destruct (h_parent (detach h n) n); [discriminate|]. destruct (climbs _ _ _ _); [discriminate|]. injection S as <-. exact D.
  Qed.
  Lemma place_roots_meta : forall m roots (h h' : hugr), place_roots m h roots = Some h' -> h_meta h' = h_meta h.
  Proof.
    intros m. induction roots as [|[r p] rs IH]; cbn [place_roots]; intros h h' E; [congruence|].
    destruct (lookup m r) as [n|]; [|discriminate]. destruct (set_parent h n p) as [h1|] eqn:S; [|discriminate].
    rewrite (IH _ _ E). exact (set_parent_meta _ _ _ _ S).
  Qed.
  Lemma place_rest_meta : forall (other : hugr) m nodes (h h' : hugr), place_rest other m h nodes = Some h' -> h_meta h' = h_meta h.
  Proof.
    intros other m. induction nodes as [|x xs IH]; cbn [place_rest]; intros h h' E; [congruence|].
    destruct (lookup m x) as [n|]; [|discriminate]. destruct (get_parent h n); [auto|].
    destruct (get_parent other x) as [p|]; [|discriminate]. destruct (lookup m p) as [p'|]; [|discriminate].
    destruct (set_parent h n p') as [h1|] eqn:S; [|discriminate]. rewrite (IH _ _ E). exact (set_parent_meta _ _ _ _ S).
  Qed.

  Lemma internal_spec : forall (h other : hugr) nodes fresh roots, wf h -> wf other ->
    NoDup nodes -> incl nodes (h_nodes other) -> NoDup fresh -> (forall y, In y fresh -> ~ In y (h_nodes h)) ->
    length nodes <= length fresh -> NoDup (map fst roots) -> incl (map fst roots) nodes ->
    (forall r p, In (r, p) roots -> In p (h_nodes h)) ->
    (forall x, In x nodes -> is_root roots x = false -> exists p, h_parent other x = Some p /\ In p nodes) ->
    exists h' m, insert_forest_internal o_default o_in o_out h other nodes fresh roots = Done (h', m) /\
      m = rev (combine nodes fresh) /\ NoDup (map fst m) /\ NoDup (map snd m) /\ (forall x, In x nodes <-> In x (map fst m)) /\
      grafted h other nodes roots (image_of m) h' /\ wf h' /\ h_meta h' = h_meta h.
  Proof.
    intros h other nodes fresh roots W0 W Dn Ln Df Fr Len Dr Ri Rt Cl.
    set (m := rev (combine nodes fresh)).
    destruct (insert_nodes_spec o_default o_in o_out h other W0 W (combine nodes fresh) [] h (loaded_start h other)) as (h1 & E & L).
    - cbn. now rewrite combine_fst.
    - now apply combine_snd_nodup.
    - intros y I. apply Fr. now apply combine_snd in I.
    - intros x I. rewrite combine_fst in I by exact Len. now apply Ln.
    - rewrite app_nil_r in E, L. fold m in E, L.
      assert (K : forall x, In x nodes <-> In x (map fst m)).
      { intros x. unfold m. rewrite map_rev, <- in_rev. now rewrite combine_fst. }
      destruct (placed h other h1 m nodes roots W0 W L Dn K Ln Dr Ri Rt Cl) as (h' & P & G & Wf).
      exists h', m. unfold insert_forest_internal. rewrite E.
      destruct (place_roots m h1 roots) as [h2|] eqn:P1; [|discriminate]. rewrite P.
      split; [reflexivity|]. split; [reflexivity|]. split; [apply (ld_keys _ _ _ _ L)|]. split; [apply (ld_vals _ _ _ _ L)|].
      split; [exact K|]. split; [exact G|]. split; [exact Wf|].
      rewrite (place_rest_meta _ _ _ _ _ P), (place_roots_meta _ _ _ _ P1). apply (ld_meta _ _ _ _ L).
  Qed.

  (** ** Operations and metadata *)
  Record same_shape (h h' : hugr) : Prop := {
    ss_nodes : h_nodes h' = h_nodes h; ss_in : h_in h' = h_in h; ss_out : h_out h' = h_out h; ss_links : h_links h' = h_links h;
    ss_parent : h_parent h' = h_parent h; ss_kids : h_kids h' = h_kids h; ss_root : h_root h' = h_root h; ss_entry : h_entry h' = h_entry h }.

  Lemma shape_wf : forall h h' : hugr, same_shape h h' -> wf h -> wf h'.
  Proof.
    intros h h' [A B C D E F G H] W.
    constructor; unfold out_port, in_port; rewrite ?A, ?B, ?C, ?D, ?E, ?F, ?G, ?H; apply W.
  Qed.

  Lemma shape_grafted : forall (h0 other h h' : hugr) nodes roots f, same_shape h h' ->
    (forall y, In y (h_nodes h0) -> h_ops h' y = h_ops h y /\ h_meta h' y = h_meta h y) ->
    grafted h0 other nodes roots f h -> grafted h0 other nodes roots f h'.
  Proof.
    intros h0 other h h' nodes roots f [A B C D E F G H] K Gr.
    constructor; rewrite ?A, ?B, ?C, ?D, ?E, ?F, ?G, ?H; try exact (gr_root _ _ _ _ _ _ Gr); try exact (gr_entry _ _ _ _ _ _ Gr); try apply Gr.
    intros y I. destruct (K y I) as [K1 K2]. rewrite K1, K2. now apply (gr_host _ _ _ _ _ _ Gr).
  Qed.

  Lemma move_spec : forall (other : hugr) m (h : hugr), NoDup (map snd m) ->
    same_shape h (move_contents other h m) /\
    (forall x y, In (x, y) m -> h_ops (move_contents other h m) y = h_ops other x /\ h_meta (move_contents other h m) y = h_meta other x) /\
    (forall y, ~ In y (map snd m) -> h_ops (move_contents other h m) y = h_ops h y /\ h_meta (move_contents other h m) y = h_meta h y).
  Proof.
    intros other m. induction m as [|[a b] m IH]; intros h D; cbn [move_contents map snd].
    - split; [split; reflexivity|]. split; [intros x y []|]. auto.
    - inversion D as [|? ? Nb D']; subst.
      match goal with |- same_shape _ (move_contents _ ?g _) /\ _ => set (h2 := g); destruct (IH h2 D') as (S & I & Nn) end.
      split; [destruct S; split; assumption|]. split.
      + intros x y [E|J]; [|auto]. injection E as <- <-. destruct (Nn b Nb) as [A B]. rewrite A, B. subst h2. cbn. now rewrite !upd_same.
      + intros y Ny. cbn in Ny. destruct (Nn y ltac:(tauto)) as [A B]. rewrite A, B. subst h2. cbn. rewrite !upd_other by (intros ->; apply Ny; now left). auto.
  Qed.

  (** The metadata of a copy: the original's if there is some, else what the index held before. *)
  Definition copied_meta (x old : option M) : option M :=
    match x with Some v => if m_empty v then old else Some v | None => old end.

  Lemma copy_spec : forall (other : hugr) m (h : hugr), NoDup (map snd m) ->
    same_shape h (copy_contents m_empty other h m) /\
    (forall x y, In (x, y) m -> h_ops (copy_contents m_empty other h m) y = h_ops other x /\
       h_meta (copy_contents m_empty other h m) y = copied_meta (h_meta other x) (h_meta h y)) /\
    (forall y, ~ In y (map snd m) -> h_ops (copy_contents m_empty other h m) y = h_ops h y /\
       h_meta (copy_contents m_empty other h m) y = h_meta h y).
  Proof.
    intros other m. induction m as [|[a b] m IH]; intros h D; cbn [copy_contents map snd].
    - split; [split; reflexivity|]. split; [intros x y []|]. auto.
    - inversion D as [|? ? Nb D']; subst.
      match goal with |- same_shape _ (copy_contents _ _ ?g _) /\ _ => set (h2 := g); destruct (IH h2 D') as (S & I & Nn) end.
      assert (S2 : same_shape h h2 /\ h_ops h2 = upd (h_ops h) b (h_ops other a) /\
        h_meta h2 b = copied_meta (h_meta other a) (h_meta h b) /\ forall y, y <> b -> h_meta h2 y = h_meta h y).
      { subst h2. unfold copied_meta. destruct (h_meta other a) as [v|]; [destruct (m_empty v)|]; cbn;
          (split; [split; reflexivity|]); (split; [reflexivity|]); try (split; [reflexivity|auto]; fail).
        split; [apply upd_same|]. intros y Ny. now rewrite upd_other. }
      destruct S2 as (S2 & Q1 & Q2 & Q3). clearbody h2.
      split; [destruct S, S2; split; congruence|]. split.
      + intros x y [E|J].
        * injection E as <- <-. destruct (Nn b Nb) as [A B]. rewrite A, B, Q1, upd_same. auto.
        * destruct (I x y J) as [A B]. rewrite A, B. split; [reflexivity|]. f_equal. apply Q3. intros ->. apply Nb. apply in_map_iff. exists (x, b). auto.
      + intros y Ny. cbn in Ny. destruct (Nn y ltac:(tauto)) as [A B]. assert (Nb' : y <> b) by (intros ->; apply Ny; now left). rewrite A, B, Q1, upd_other by exact Nb'. auto.
  Qed.

  Lemma image_nodup : forall m x y, NoDup (map fst m) -> In (x, y) m -> image_of m x = y.
  Proof. intros m x y D I. unfold image_of. now rewrite (lookup_nodup _ m x y D I). Qed.
  Lemma image_in : forall m x, In x (map fst m) -> In (x, image_of m x) m.
  Proof. intros m x I. destruct (lookup_ex _ m x I) as (v & E). unfold image_of. rewrite E. now apply lookup_In. Qed.

  Lemma view_forest_spec : forall (h other : hugr) nodes fresh roots, wf h -> wf other ->
    NoDup nodes -> incl nodes (h_nodes other) -> NoDup fresh -> (forall y, In y fresh -> ~ In y (h_nodes h)) ->
    length nodes <= length fresh -> NoDup (map fst roots) -> incl (map fst roots) nodes ->
    (forall r p, In (r, p) roots -> In p (h_nodes h)) ->
    (forall x, In x nodes -> is_root roots x = false -> exists p, h_parent other x = Some p /\ In p nodes) ->
    exists h' m f, insert_view_forest o_default o_in o_out m_empty h other nodes fresh roots = Done (h', m) /\
      (forall x y, lookup m x = Some y <-> In x nodes /\ y = f x) /\
      grafted h other nodes roots f h' /\ wf h' /\
      forall x, In x nodes -> h_ops h' (f x) = h_ops other x /\ h_meta h' (f x) = copied_meta (h_meta other x) (h_meta h (f x)).
  Proof.
    intros h other nodes fresh roots W0 W Dn Ln Df Fr Len Dr Ri Rt Cl.
    destruct (internal_spec h other nodes fresh roots W0 W Dn Ln Df Fr Len Dr Ri Rt Cl) as (h1 & m & E & Em & Dk & Dv & K & G & Wf & Mt).
    destruct (copy_spec other m h1 Dv) as (S & I & Nn).
    exists (copy_contents m_empty other h1 m), m, (image_of m). unfold insert_view_forest. rewrite E. split; [reflexivity|]. split; [|split; [|split]].
    - intros x y. rewrite K. split.
      + intros L. split; [|symmetry; now apply image_nodup, lookup_In]. apply lookup_In in L. apply in_map_iff. exists (x, y). auto.
      + intros [L ->]. apply lookup_nodup; [exact Dk|]. now apply image_in.
    - apply (shape_grafted h other h1); auto. intros y Iy. apply Nn. intros J. apply in_map_iff in J. destruct J as ([x v] & Ev & J).
      cbn [snd] in Ev. subst v. apply (gr_fresh _ _ _ _ _ _ G x); [apply K; apply in_map_iff; exists (x, y); auto|].
      now rewrite (image_nodup m x y Dk J).
    - now apply (shape_wf h1).
    - intros x Ix. apply K in Ix. apply image_in in Ix. destruct (I _ _ Ix) as [A B]. rewrite A, B, Mt. auto.
  Qed.

  (** ** Regions *)
  Lemma root_above_sound : forall (other : hugr) roots fuel n p, root_above other roots fuel n = Some p -> wf other ->
    In p (map fst roots) /\ exists q, h_parent other n = Some q /\ up (h_parent other) q p.
  Proof.
    intros other roots fuel. induction fuel as [|fuel IH]; intros n p E W; [discriminate|]. cbn [root_above] in E.
    rewrite (get_parent_wf other n W) in E. destruct (h_parent other n) as [q|] eqn:Q; [|discriminate].
    destruct (lookup roots q) as [v|] eqn:L.
    - injection E as <-. split; [|exists q; split; [auto|constructor]]. apply lookup_In in L. apply in_map_iff. exists (q, v). auto.
    - destruct (IH q p E W) as (A & q' & B & C). split; [exact A|]. exists q. split; [auto|]. now apply up_next with q'.
  Qed.
  Lemma root_above_complete : forall (other : hugr) roots, wf other -> forall fuel n k p, 0 < k -> k <= fuel ->
    hops (h_parent other) k n = Some p -> In p (map fst roots) -> root_above other roots fuel n <> None.
  Proof.
    intros other roots W. induction fuel as [|fuel IH]; intros n k p K L E I; [lia|]. cbn [root_above].
    rewrite (get_parent_wf other n W). destruct k as [|k]; [lia|]. cbn [hops] in E.
    destruct (h_parent other n) as [q|] eqn:Q; [|discriminate]. destruct (lookup roots q) as [v|] eqn:Lk; [discriminate|].
    destruct k as [|k].
    - cbn in E. injection E as ->. apply lookup_None in Lk. contradiction.
    - apply (IH q (S k) p); auto; lia.
  Qed.

  Lemma overlap_none : forall other : hugr, wf other -> forall roots, incl (map fst roots) (h_nodes other) ->
    overlap other roots roots = None <-> disjoint_regions other roots.
  Proof.
    intros other W roots L.
    assert (G : forall l, overlap other l roots = None <-> forall r, In r (map fst l) -> root_above other roots (length (h_nodes other)) r = None).
    { induction l as [|[r p] l IH]; cbn [overlap map fst]; [split; [intros _ r []|auto]|].
      destruct (root_above other roots (length (h_nodes other)) r) eqn:E.
      - split; [discriminate|]. intros X. rewrite (X r (or_introl eq_refl)) in E. discriminate.
      - rewrite IH. split; [intros X s [<-|I]; auto|]. intros X s I. apply X. now right. }
    rewrite G. split.
    - intros X r s Ir Is U. apply up_hops in U. destruct U as (k & U). destruct k as [|k]; [now injection U|].
      exfalso. apply (root_above_complete other roots W (length (h_nodes other)) r (S k) s); auto; [lia|].
      apply Nat.lt_le_incl. apply (hops_bound (h_parent other) (h_root other) (h_nodes other) (wf_top other W) (wf_parent other W)) with (n := r) (a := s); auto.
      apply (wf_reach other W). auto.
    - intros D r Ir. destruct (root_above other roots (length (h_nodes other)) r) as [p|] eqn:E; [|reflexivity]. exfalso.
      apply root_above_sound in E; [|exact W]. destruct E as (Ip & q & Q & U).
      assert (r = p) by (apply D; auto; now apply up_next with q). subst p. exact (no_cycle other W r q Q U).
  Qed.
  Lemma overlap_some : forall other : hugr, wf other -> forall l roots r p, overlap other l roots = Some (r, p) ->
    In r (map fst l) /\ In p (map fst roots) /\ r <> p /\ up (h_parent other) r p.
  Proof.
    intros other W l roots r p. induction l as [|[a b] l IH]; cbn [overlap map fst]; [discriminate|].
    destruct (root_above other roots (length (h_nodes other)) a) as [q|] eqn:E.
    - intros X. injection X as <- <-. apply root_above_sound in E; [|exact W]. destruct E as (Ip & q' & Q & U).
      split; [now left|]. split; [exact Ip|]. split; [intros ->; exact (no_cycle other W q q' Q U)|now apply up_next with q'].
    - intros X. destruct (IH X) as (A & B). split; [now right|exact B].
  Qed.

  Section Regions.
    Variable other : hugr.
    Variable roots : list (N * N).
    Hypothesis W : wf other.
    Hypothesis Dr : NoDup (map fst roots).
    Hypothesis Lr : incl (map fst roots) (h_nodes other).
    Hypothesis Dj : disjoint_regions other roots.
    Let nodes := flat_map (fun r => descendants other (fst r)) roots.

    Lemma forest_in : forall x, In x nodes <-> in_forest other roots x.
    Proof.
      intros x. unfold nodes, in_forest. rewrite in_flat_map. split.
      - intros ([r p] & I & X). cbn [fst] in X. assert (Ir : In r (map fst roots)) by (apply in_map_iff; exists (r, p); auto).
        exists r. split; [exact Ir|]. now apply (descendants_spec other W r (Lr r Ir)).
      - intros (r & Ir & U). pose proof Ir as Ir'. apply in_map_iff in Ir'. destruct Ir' as ([a p] & <- & I). exists (a, p). split; [exact I|].
        now apply (descendants_spec other W a (Lr a Ir)).
    Qed.

    Lemma forest_nodup : NoDup nodes.
    Proof.
      assert (G : forall l, incl l roots -> NoDup (map fst l) -> NoDup (flat_map (fun r => descendants other (fst r)) l)); [|apply G; [apply incl_refl|exact Dr]].
      induction l as [|[r p] l IH]; intros I D; [constructor|]. cbn [map fst flat_map] in *. inversion D as [|? ? Nr D']; subst.
      assert (Ir : In r (map fst roots)) by (apply in_map_iff; exists (r, p); split; [reflexivity|apply I; now left]).
      destruct (descendants_spec other W r (Lr r Ir)) as (_ & Dd & Id).
      assert (I' : incl l roots) by (intros z Z; apply I; now right). specialize (IH I' D').
      assert (App : forall a b : list N, NoDup a -> NoDup b -> (forall x, In x a -> ~ In x b) -> NoDup (a ++ b)).
      { induction a as [|x a IHa]; intros b Da Db X; [exact Db|]. inversion Da; subst. cbn [app]. constructor.
        - rewrite in_app_iff. intros [J|J]; [contradiction|]. apply (X x (or_introl eq_refl) J).
        - apply IHa; auto. intros y Y. apply X. now right. }
      apply App; auto. intros x X Y. apply Id in X. apply in_flat_map in Y. destruct Y as ([s q] & Is & Y). cbn [fst] in Y.
      assert (Is' : In s (map fst l)) by (apply in_map_iff; exists (s, q); auto).
      assert (Isr : In s (map fst roots)) by (apply in_map_iff; exists (s, q); auto).
      apply (descendants_spec other W s (Lr s Isr)) in Y. destruct (up_linear _ _ _ _ X Y) as [U|U].
      - rewrite (Dj r s Ir Isr U) in Nr. contradiction.
      - rewrite <- (Dj s r Isr Ir U) in Nr. contradiction.
    Qed.

    Lemma forest_live : incl nodes (h_nodes other).
    Proof.
      intros x I. apply forest_in in I. destruct I as (r & Ir & U). inversion U as [|? p ? E U']; subst; [now apply Lr|].
      destruct (in_dec N.eq_dec x (h_nodes other)) as [J|J]; [exact J|]. apply (wf_unused other W) in J. destruct J. congruence.
    Qed.

    Lemma forest_closed : forall x, In x nodes -> is_root roots x = false -> exists p, h_parent other x = Some p /\ In p nodes.
    Proof.
      intros x I R. apply forest_in in I. destruct I as (r & Ir & U). inversion U as [|? p ? E U']; subst.
      - apply memN_false in R. contradiction.
      - exists p. split; [exact E|]. apply forest_in. exists r. auto.
    Qed.

    Lemma forest_roots : incl (map fst roots) nodes.
    Proof. intros r I. apply forest_in. exists r. split; [exact I|constructor]. Qed.

    Lemma forest_kids : forall x, In x nodes ->
      filter (fun c => negb (is_root roots c) && has_parent other x c) nodes = h_kids other x.
    Proof.
      intros x Ix. apply forest_in in Ix. destruct Ix as (s & Is & Us).
      assert (E : filter (fun c => negb (is_root roots c) && has_parent other x c) nodes = filter (fun c => opt_is (h_parent other c) x) nodes).
      { apply filter_ext. intros c. unfold has_parent, opt_is. destruct (h_parent other c) as [q|] eqn:Q; [|now rewrite andb_false_r].
        destruct (N.eqb_spec q x) as [->|]; [|now rewrite andb_false_r]. rewrite andb_true_r. destruct (is_root roots c) eqn:R; [|reflexivity].
        exfalso. apply memN_iff in R. assert (c = s) by (apply Dj; auto; now apply up_next with x). subst c. exact (no_cycle other W s x Q Us). }
      rewrite E. unfold nodes.
      assert (G : forall l, incl l roots -> NoDup (map fst l) -> filter (fun c => opt_is (h_parent other c) x) (flat_map (fun r => descendants other (fst r)) l) =
                  if memN s (map fst l) then h_kids other x else []).
      { induction l as [|[r p] l IH]; intros I D; [reflexivity|]. cbn [map fst flat_map] in *. inversion D as [|? ? Nr D']; subst.
        assert (Ir : In r (map fst roots)) by (apply in_map_iff; exists (r, p); split; [reflexivity|apply I; now left]).
        assert (I' : incl l roots) by (intros z Z; apply I; now right).
        rewrite filter_app, (IH I' D'), memN_cons. destruct (N.eqb_spec s r) as [->|Ne]; cbn [orb].
        - rewrite (proj2 (memN_false r (map fst l)) Nr), app_nil_r. apply (descendants_kids other W); auto.
        - assert (Z : filter (fun c => opt_is (h_parent other c) x) (descendants other r) = []); [|now rewrite Z].
          destruct (filter (fun c => opt_is (h_parent other c) x) (descendants other r)) as [|c cs] eqn:F; [reflexivity|]. exfalso.
          assert (Ic : In c (filter (fun c => opt_is (h_parent other c) x) (descendants other r))) by (rewrite F; now left).
          apply filter_In in Ic. destruct Ic as [Ic Q]. apply opt_is_iff in Q.
          apply (descendants_spec other W r (Lr r Ir)) in Ic. inversion Ic as [|? q ? Q' U]; subst.
          + apply Ne. symmetry. apply Dj; auto. now apply up_next with x.
          + rewrite Q in Q'. injection Q' as <-. destruct (up_linear _ _ _ _ Us U) as [V|V]; apply Ne; [|symmetry]; auto. }
      rewrite (G roots (incl_refl _) Dr). now rewrite (proj2 (memN_iff s (map fst roots)) Is).
    Qed.
  End Regions.

  Lemma forest_spec : forall (h other : hugr) fresh roots, wf h -> wf other ->
    NoDup (map fst roots) -> incl (map fst roots) (h_nodes other) -> (forall r p, In (r, p) roots -> In p (h_nodes h)) ->
    disjoint_regions other roots ->
    NoDup fresh -> (forall y, In y fresh -> ~ In y (h_nodes h)) -> length (h_nodes other) <= length fresh ->
    exists h' m f nodes, insert_forest o_default o_in o_out h other fresh roots = Done (h', m) /\
      NoDup nodes /\ (forall x, In x nodes <-> in_forest other roots x) /\
      (forall x y, lookup m x = Some y <-> In x nodes /\ y = f x) /\
      grafted h other nodes roots f h' /\ wf h' /\
      forall x, In x nodes -> h_ops h' (f x) = h_ops other x /\ h_meta h' (f x) = h_meta other x /\ h_kids h' (f x) = map f (h_kids other x).
  Proof.
    intros h other fresh roots W0 W Dr Lr Rt Dj Df Fr Len.
    set (nodes := flat_map (fun r => descendants other (fst r)) roots).
    pose proof (forest_nodup other roots W Dr Lr Dj) as Dn. pose proof (forest_live other roots W Lr) as Ln.
    destruct (internal_spec h other nodes fresh roots W0 W Dn Ln Df Fr) as (h1 & m & E & Em & Dk & Dv & K & G & Wf & Mt).
    { pose proof (NoDup_incl_length Dn Ln). unfold nodes. lia. }
    { exact Dr. }
    { apply (forest_roots other roots W Lr). }
    { exact Rt. }
    { apply (forest_closed other roots W Lr). }
    destruct (move_spec other m h1 Dv) as (S & I & Nn).
    exists (move_contents other h1 m), m, (image_of m), nodes.
    unfold insert_forest. rewrite (proj2 (overlap_none other W roots Lr) Dj). fold nodes. rewrite E. split; [reflexivity|].
    split; [exact Dn|]. split; [apply (forest_in other roots W Lr)|]. split; [|split; [|split]].
    - intros x y. rewrite K. split.
      + intros L. split; [|symmetry; now apply image_nodup, lookup_In]. apply lookup_In in L. apply in_map_iff. exists (x, y). auto.
      + intros [L ->]. apply lookup_nodup; [exact Dk|]. now apply image_in.
    - apply (shape_grafted h other h1); auto. intros y Iy. apply Nn. intros J. apply in_map_iff in J. destruct J as ([x v] & Ev & J).
      cbn [snd] in Ev. subst v. apply (gr_fresh _ _ _ _ _ _ G x); [apply K; apply in_map_iff; exists (x, y); auto|].
      now rewrite (image_nodup m x y Dk J).
    - now apply (shape_wf h1).
    - intros x Ix. pose proof Ix as Ix'. apply K in Ix. apply image_in in Ix. destruct (I _ _ Ix) as [A B]. rewrite A, B. split; [reflexivity|]. split; [reflexivity|].
      rewrite (ss_kids _ _ S), (gr_kids _ _ _ _ _ _ G x Ix'). f_equal. now apply forest_kids.
  Qed.

  (** ** Repeated nodes *)
  Lemma insert_nodes_app : forall (other : hugr) a h m b, insert_nodes o_default o_in o_out other h m (a ++ b) =
    match insert_nodes o_default o_in o_out other h m a with
    | Done (h, m) => insert_nodes o_default o_in o_out other h m b
    | Duplicate n => Duplicate n | Overlap x y => Overlap x y | Panic => Panic end.
  Proof.
    intros other a. induction a as [|[x y] a IH]; intros h m b; [reflexivity|]. cbn [app insert_nodes].
    destruct (add_node o_in o_out h y o_default) as [h1|]; [|reflexivity]. destruct (lookup m x); [reflexivity|].
    destruct (set_num_ports h1 y (h_in other x) (h_out other x)) as [h2|]; [|reflexivity].
    destruct (connect_all _ h2 _) as [h3|]; [|reflexivity]. destruct (connect_all _ h3 _) as [h4|]; [|reflexivity]. apply IH.
  Qed.

  Lemma first_repeat : forall l : list N, ~ NoDup l -> exists a x b, l = a ++ x :: b /\ NoDup a /\ In x a.
  Proof.
    intros l H. assert (G : forall b a : list N, NoDup a -> ~ NoDup (a ++ b) -> exists c x d, a ++ b = c ++ x :: d /\ NoDup c /\ In x c).
    { induction b as [|x b IH]; intros a Da Nd; [rewrite app_nil_r in Nd; contradiction|].
      destruct (in_dec N.eq_dec x a) as [I|I]; [exists a, x, b; auto|].
      destruct (IH (a ++ [x])) as (c & y & d & E & Dc & Ic).
      - now apply nodup_snoc.
      - now rewrite <- app_assoc.
      - exists c, y, d. rewrite <- app_assoc in E. auto. }
    exact (G l [] (NoDup_nil _) H).
  Qed.

  Lemma view_forest_duplicate : forall (h other : hugr) nodes fresh roots, wf h -> wf other ->
    incl nodes (h_nodes other) -> NoDup fresh -> (forall y, In y fresh -> ~ In y (h_nodes h)) -> length nodes <= length fresh ->
    ~ NoDup nodes ->
    exists a x b, nodes = a ++ x :: b /\ In x a /\
      insert_view_forest o_default o_in o_out m_empty h other nodes fresh roots = Duplicate x.
  Proof.
    intros h other nodes fresh roots W0 W Ln Df Fr Len Nd. destruct (first_repeat nodes Nd) as (a & x & b & -> & Da & Ia).
    exists a, x, b. split; [reflexivity|]. split; [exact Ia|].
    rewrite app_length in Len. cbn [length] in Len.
    assert (Sp : exists f1 y f2, fresh = f1 ++ y :: f2 /\ length f1 = length a).
    { exists (firstn (length a) fresh). destruct (skipn (length a) fresh) as [|y f2] eqn:E.
      - pose proof (skipn_length (length a) fresh) as S. rewrite E in S. cbn in S. lia.
      - exists y, f2. rewrite <- E, firstn_skipn. split; [reflexivity|]. apply firstn_length_le. lia. }
    destruct Sp as (f1 & y & f2 & -> & Lf).
    assert (Dy : NoDup f1 /\ ~ In y f1).
    { split.
      - clear - Df. induction f1 as [|z f1 IH]; [constructor|]. cbn in Df. inversion Df as [|? ? Nz Df']; subst. constructor; auto. intros I. apply Nz. apply in_app_iff. now left.
      - apply NoDup_remove_2 in Df. intros I. apply Df. apply in_app_iff. now left. }
    unfold insert_view_forest, insert_forest_internal.
    assert (Cb : combine (a ++ x :: b) (f1 ++ y :: f2) = combine a f1 ++ (x, y) :: combine b f2).
    { clear - Lf. revert f1 Lf. induction a as [|z a IH]; intros f1 Lf; destruct f1; cbn in *; try discriminate; [reflexivity|]. f_equal. apply IH. lia. }
    rewrite Cb, insert_nodes_app.
    destruct (insert_nodes_spec o_default o_in o_out h other W0 W (combine a f1) [] h (loaded_start h other)) as (h1 & E & L).
    - cbn. now rewrite combine_fst by lia.
    - apply combine_snd_nodup. tauto.
    - intros z I. apply Fr. apply combine_snd in I. apply in_app_iff. now left.
    - intros z I. rewrite combine_fst in I by lia. apply Ln. apply in_app_iff. now left.
    - rewrite app_nil_r in E, L. rewrite E. cbn [insert_nodes]. unfold add_node.
      assert (Ny : ~ In y (h_nodes h1)).
      { rewrite (ld_nodes _ _ _ _ L), in_app_iff. intros [I|I].
        - rewrite map_rev, <- in_rev in I. apply combine_snd in I. tauto.
        - apply (Fr y); [|exact I]. apply in_app_iff. right. now left. }
      rewrite (proj2 (memN_false y (h_nodes h1)) Ny : contains h1 y = false).
      destruct (lookup_ex _ (rev (combine a f1)) x) as (v & Ev).
      { rewrite map_rev, <- in_rev, combine_fst by lia. exact Ia. }
      rewrite Ev. reflexivity.
  Qed.
End Forest.
