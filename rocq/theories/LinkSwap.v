(** Proofs about linking: replacing the source of links and removing the old source. *)
From Coq Require Import List Bool NArith Arith Lia Permutation.
From Verif Require Import GraphModel GraphSpec GraphProofs GraphRemove InsertModel InsertProofs LinkModel.
Import ListNotations.

Definition same_target (l l' : link) : bool := ep_eqb (snd l') (snd l).
(** No other link ends at the input port of [l]. *)
Definition sole (ls : list link) (l : link) : Prop := length (filter (same_target l) ls) <= 1.
(** The source node renamed. *)
Definition resrc (f : N -> N) (l : link) : link := ((f (fst (fst l)), snd (fst l)), snd l).
Definition subst1 (old new x : N) : N := if N.eqb x old then new else x.
Definition clear_of (R : list N) (l : link) : bool := negb (memN (fst (fst l)) R || memN (fst (snd l)) R).

Lemma filter_perm : forall A (f : A -> bool) l l', Permutation l l' -> Permutation (filter f l) (filter f l').
Proof. intros. now apply GraphRemove.filter_perm. Qed.
Lemma filter_map : forall A B (f : B -> bool) (g : A -> B) l, filter f (map g l) = map g (filter (fun x => f (g x)) l).
Proof. intros A B f g l. induction l as [|x l IH]; [reflexivity|]. cbn [map filter]. destruct (f (g x)); cbn [map]; now rewrite IH. Qed.
Lemma filter_in_ext : forall A (f g : A -> bool) l, (forall x, In x l -> f x = g x) -> filter f l = filter g l.
Proof. intros A f g l E. induction l as [|x l IH]; [reflexivity|]. cbn [filter]. rewrite (E x (or_introl eq_refl)), IH by (intros y I; apply E; now right). reflexivity. Qed.

Lemma filter_len_le : forall A (f : A -> bool) l, length (filter f l) <= length l.
Proof. intros A f l. induction l as [|x l IH]; [constructor|]. cbn [filter]. destruct (f x); cbn [length]; lia. Qed.
Lemma filter_filter_le : forall A (f g : A -> bool) l, length (filter f (filter g l)) <= length (filter f l).
Proof. intros A f g l. induction l as [|x l IH]; [constructor|]. cbn [filter]. destruct (g x); cbn [filter]; destruct (f x); cbn [length]; lia. Qed.

Lemma sole_perm : forall ls ls' l, Permutation ls ls' -> sole ls l -> sole ls' l.
Proof. intros ls ls' l P S. unfold sole in *. now rewrite <- (Permutation_length (filter_perm _ (same_target l) _ _ P)). Qed.

Lemma sole_filter : forall p ls l, sole ls l -> sole (filter p ls) l.
Proof. intros p ls l S. unfold sole in *. pose proof (filter_filter_le _ (same_target l) p ls). lia. Qed.

Lemma sole_resrc : forall f ls l, sole ls l -> sole (map (resrc f) ls) (resrc f l).
Proof. intros f ls l S. unfold sole in *. rewrite filter_map, map_length. exact S. Qed.
Lemma sole_target : forall ls l l', snd l = snd l' -> sole ls l -> sole ls l'.
Proof. intros ls l l' E. unfold sole, same_target. now rewrite E. Qed.

Lemma sole_only : forall ls l, sole ls l -> In l ls -> filter (same_target l) ls = [l].
Proof.
  intros ls l S I. assert (J : In l (filter (same_target l) ls)) by (apply filter_In; split; [exact I|apply ep_eqb_iff; reflexivity]).
  unfold sole in S. destruct (filter (same_target l) ls) as [|x [|y r]]; [destruct J| |cbn in S; lia]. destruct J as [->|[]]. reflexivity.
Qed.

Lemma sole_nodup : forall (p : link -> bool) ls, (forall l, In l ls -> p l = true -> sole ls l) -> NoDup (map snd (filter p ls)).
Proof.
  intros p ls. induction ls as [|x ls IH]; intros S; [constructor|].
  assert (T : NoDup (map snd (filter p ls))).
  { apply IH. intros l I P. specialize (S l (or_intror I) P). unfold sole in *. cbn [filter] in S. destruct (same_target l x); cbn [length] in S; lia. }
  cbn [filter]. destruct (p x) eqn:Px; [|exact T]. cbn [map]. constructor; [|exact T].
  intros I. apply in_map_iff in I. destruct I as (l & E & I). apply filter_In in I. destruct I as [I Pl].
  specialize (S x (or_introl eq_refl) Px). unfold sole in S. cbn [filter] in S. unfold same_target in S at 1. rewrite (proj2 (ep_eqb_iff _ _) eq_refl) in S. cbn [length] in S.
  assert (J : In l (filter (same_target x) ls)) by (apply filter_In; split; [exact I|apply ep_eqb_iff; exact E]).
  destruct (filter (same_target x) ls); [destruct J|cbn in S; lia].
Qed.

Section Swap.
  Context {O M : Type}.
  Variable o_default : O.
  Notation hugr := (hugr O M).

  Lemma links_wf : forall (h1 : hugr) L, wf h1 -> (forall l, In l L -> out_port h1 (fst l) /\ in_port h1 (snd l)) -> wf (set_links h1 L).
  Proof. intros h1 L W1 P. destruct W1. constructor; cbn [set_links h_nodes h_root h_entry h_parent h_kids h_links]; assumption. Qed.

  (** ** The loop *)
  Definition retarget (new : N) (ts : list endpoint) (l : link) : link :=
    if existsb (ep_eqb (snd l)) ts then resrc (fun _ => new) l else l.

  Lemma set_links_twice : forall (h : hugr) a b, set_links (set_links h a) b = set_links h b.
  Proof. reflexivity. Qed.
  Lemma retarget_snd : forall new ts l, snd (retarget new ts l) = snd l.
  Proof. intros. unfold retarget. now destruct (existsb _ ts). Qed.

  Lemma redirect_spec : forall new ts (h : hugr) L, In new (h_nodes h) -> h_links h = L -> NoDup ts ->
    (forall t, In t ts -> exists i, In ((i, t) : link) L /\ sole L (i, t) /\ snd i < h_out h new /\ in_port h t) ->
    exists L', redirect h new ts = Some (set_links h L') /\ Permutation L' (map (retarget new ts) L).
  Proof.
    intros new. induction ts as [|[t j] ts IH]; intros h L In_ EL ND T.
    { exists L. split; [cbn [redirect]; f_equal; destruct h; cbn in *; now subst|]. apply Permutation_refl'.
      symmetry. rewrite <- (map_id L) at 2. apply map_ext. reflexivity. }
    inversion ND as [|? ? Nt ND']; subst.
    destruct (T (t, j) (or_introl eq_refl)) as ([s i] & Il & Sl & Li & Pt). cbn [snd] in Li.
    pose proof (sole_only _ _ Sl Il) as F.
    assert (FE : filter (fun l : link => ep_eqb (snd l) (t, j)) (h_links h) = [((s, i), (t, j))]) by exact F.
    assert (LO : linked_outputs h t j = [(s, i)]) by (unfold linked_outputs; transitivity (map fst [((s, i), (t, j)) : link]); [f_equal; exact F|reflexivity]).
    cbn [redirect]. rewrite LO.
    unfold disconnect, valid_port. destruct Pt as [Pt1 Pt2]. cbn [fst snd] in Pt1, Pt2.
    rewrite (proj2 (contains_iff h t) Pt1). cbn [num_ports andb]. apply Nat.ltb_lt in Pt2. rewrite Pt2.
    unfold connect, valid_port, contains. cbn [set_links h_nodes num_ports h_in h_out]. rewrite (proj2 (memN_iff _ _) In_), (proj2 (memN_iff _ _) Pt1), Pt2. apply Nat.ltb_lt in Li. rewrite Li. cbn [andb]. apply Nat.ltb_lt in Pt2, Li.
    cbn [set_links h_links]. unfold at_port. rewrite set_links_twice.
    set (L1 := filter (fun l => negb (ep_eqb (snd l) (t, j))) (h_links h) ++ [(new, i, (t, j))]).
    set (one := fun l : link => if ep_eqb (snd l) (t, j) then resrc (fun _ => new) l else l).
    assert (P1 : Permutation L1 (map one (h_links h))).
    { unfold L1, one. transitivity (filter (fun l => negb (ep_eqb (snd l) (t, j))) (h_links h) ++ map (resrc (fun _ => new)) (filter (fun l => ep_eqb (snd l) (t, j)) (h_links h))).
      - apply Permutation_app_head. apply Permutation_refl'. transitivity (map (resrc (fun _ => new)) [((s, i), (t, j)) : link]); [reflexivity|]. apply (f_equal (map (resrc (fun _ => new)))). symmetry. exact F.
      - clear. induction (h_links h) as [|x l IH]; [constructor|]. cbn [filter map]. destruct (ep_eqb (snd x) (t, j)); cbn [negb map app].
        + symmetry. apply Permutation_cons_app. now symmetry.
        + now constructor. }
    destruct (IH (set_links h L1) L1) as (L' & E' & P').
    - exact In_.
    - reflexivity.
    - exact ND'.
    - intros u Iu. destruct (T u (or_intror Iu)) as (iu & Il' & Sl' & Li' & Pu). exists iu.
      assert (Nu : u <> (t, j)) by (intros ->; contradiction).
      assert (Eo : one (iu, u) = (iu, u)).
      { unfold one. cbn [snd]. destruct (ep_eqb u (t, j)) eqn:X; [apply ep_eqb_iff in X; contradiction|reflexivity]. }
      split; [apply (Permutation_in _ (Permutation_sym P1)); rewrite <- Eo; now apply in_map|]. split; [|split; [exact Li'|exact Pu]].
      apply (sole_perm _ _ _ (Permutation_sym P1)). unfold sole. rewrite filter_map, map_length.
      rewrite (filter_in_ext _ _ (same_target (iu, u))); [exact Sl'|]. intros x _. unfold same_target, one. destruct (ep_eqb (snd x) (t, j)); reflexivity.
    - exists L'. split; [exact E'|]. transitivity (map (retarget new ts) L1); [exact P'|].
      transitivity (map (retarget new ts) (map one (h_links h))); [now apply Permutation_map|]. rewrite map_map. apply Permutation_refl'.
      apply map_ext. intros [[a b] u]. unfold retarget, one. cbn [snd existsb]. destruct (ep_eqb u (t, j)); cbn [orb]; [|reflexivity]. cbn [resrc snd fst]. now destruct (existsb _ ts).
  Qed.

  Lemma all_linked_perm : forall h : hugr, wf h -> forall n,
    Permutation (all_linked_inputs h n) (map snd (filter (fun l => N.eqb (fst (fst l)) n) (h_links h))).
  Proof.
    intros h W n. rewrite <- (links_out_perm h W n). apply Permutation_refl'. unfold all_linked_inputs, links_out, linked_inputs, at_port.
    induction (seq 0 (h_out h n)) as [|x s IH]; [reflexivity|]. cbn [flat_map]. rewrite IH. symmetry. apply map_app.
  Qed.

  (** Only the links of the old source change. *)
  Lemma redirect_old : forall (h : hugr) old new, wf h -> In new (h_nodes h) -> h_out h old <= h_out h new ->
    (forall l, In l (h_links h) -> fst (fst l) = old -> sole (h_links h) l) ->
    exists L', redirect h new (all_linked_inputs h old) = Some (set_links h L') /\
      Permutation L' (map (resrc (subst1 old new)) (h_links h)).
  Proof.
    intros h old new W In_ Le S. set (p := fun l : link => N.eqb (fst (fst l)) old).
    assert (Pm := all_linked_perm h W old). fold p in Pm.
    destruct (redirect_spec new (all_linked_inputs h old) h (h_links h)) as (L' & E & P).
    - exact In_.
    - reflexivity.
    - apply (Permutation_NoDup (Permutation_sym Pm)). apply sole_nodup. intros l I X. apply S; [exact I|]. now apply N.eqb_eq.
    - intros t It. apply (Permutation_in t Pm) in It. apply in_map_iff in It. destruct It as (l & <- & I). apply filter_In in I. destruct I as [I X].
      apply N.eqb_eq in X. destruct l as [s t]. exists s. cbn [fst snd] in *. destruct (wf_links h W _ I) as [Po Pi].
      split; [exact I|]. split; [now apply S|]. split; [|exact Pi]. destruct Po as [_ Po]. cbn [fst snd] in Po. rewrite X in Po. lia.
    - exists L'. split; [exact E|]. rewrite P. apply Permutation_refl'. apply map_ext_in. intros l I. unfold retarget, resrc, subst1.
      destruct (N.eqb_spec (fst (fst l)) old) as [X|X].
      + replace (existsb (ep_eqb (snd l)) (all_linked_inputs h old)) with true; [reflexivity|]. symmetry. apply existsb_exists.
        exists (snd l). split; [|now apply ep_eqb_iff]. apply (Permutation_in _ (Permutation_sym Pm)). apply in_map, filter_In. split; [exact I|now apply N.eqb_eq].
      + destruct (existsb (ep_eqb (snd l)) (all_linked_inputs h old)) eqn:Y; [|now destruct l as [[? ?] ?]]. exfalso. apply existsb_exists in Y. destruct Y as (t & It & Et).
        apply ep_eqb_iff in Et. subst t. apply (Permutation_in _ Pm) in It. apply in_map_iff in It. destruct It as (l' & Es & Il'). apply filter_In in Il'. destruct Il' as [Il' Xl].
        apply N.eqb_eq in Xl. pose proof (sole_only _ _ (S l' Il' Xl) Il') as F.
        assert (J : In l (filter (same_target l') (h_links h))) by (apply filter_In; split; [exact I|apply ep_eqb_iff; symmetry; exact Es]).
        rewrite F in J. destruct J as [<-|[]]. contradiction.
  Qed.

  (** ** Several replacements *)
  Record swapped (h0 : hugr) (R : list N) (rho : N -> N) (h : hugr) : Prop := {
    sp_wf : wf h;
    sp_nodes : h_nodes h = filter (fun m => negb (memN m R)) (h_nodes h0);
    sp_ops : forall m, ~ In m R -> h_ops h m = h_ops h0 m;
    sp_meta : h_meta h = h_meta h0;
    sp_in : h_in h = h_in h0;
    sp_out : h_out h = h_out h0;
    sp_parent : forall m, h_parent h m = if memN m R then None else h_parent h0 m;
    sp_kids : forall m, h_kids h m = if memN m R then [] else filter (fun c => negb (memN c R)) (h_kids h0 m);
    sp_links : Permutation (h_links h) (filter (clear_of R) (map (resrc rho) (h_links h0)));
    sp_root : h_root h = h_root h0;
    sp_entry : h_entry h = h_entry h0;
    sp_down : forall m p, h_parent h0 m = Some p -> In p R -> In m R }.

  Lemma two_steps : forall (p q : link -> bool) (g r : link -> link) ls,
    filter q (map g (filter p (map r ls))) = map (fun l => g (r l)) (filter (fun l => p (r l) && q (g (r l))) ls).
  Proof.
    intros p q g r. induction ls as [|x ls IH]; [reflexivity|]. cbn [map filter]. destruct (p (r x)); cbn [map filter andb]; [|exact IH].
    destruct (q (g (r x))); cbn [map]; now rewrite IH.
  Qed.
  Lemma one_step : forall (q : link -> bool) (g : link -> link) ls, filter q (map g ls) = map g (filter (fun l => q (g l)) ls).
  Proof. intros. apply filter_map. Qed.

  Lemma clear_nil : forall ls, filter (clear_of []) (map (resrc (fun x => x)) ls) = ls.
  Proof.
    induction ls as [|[[a i] t] ls IH]; [reflexivity|]. cbn [map filter]. unfold clear_of at 1. cbn [memN existsb orb negb]. now rewrite IH.
  Qed.

  Lemma swapped_start : forall h : hugr, wf h -> swapped h [] (fun x => x) h.
  Proof.
    intros h W. constructor; auto; cbn [memN existsb orb negb].
    - symmetry. induction (h_nodes h) as [|x l IH]; [reflexivity|]. cbn [filter]. now rewrite IH.
    - intros m. symmetry. induction (h_kids h m) as [|x l IH]; [reflexivity|]. cbn [filter]. now rewrite IH.
    - now rewrite clear_nil.
  Qed.

  Lemma swap_step : forall (h0 h : hugr) R rho old new, wf h0 -> swapped h0 R rho h ->
    In old (h_nodes h0) -> ~ In old R -> In new (h_nodes h0) -> ~ In new R -> ~ up (h_parent h0) new old ->
    ~ up (h_parent h0) (h_entry h0) old -> h_out h0 old <= h_out h0 new ->
    (forall l, In l (h_links h0) -> rho (fst (fst l)) = old -> sole (h_links h0) l) ->
    exists h' R', replace_static_src o_default h old new = Some h' /\
      swapped h0 R' (fun x => subst1 old new (rho x)) h' /\ forall m, In m R' <-> In m R \/ up (h_parent h0) m old.
  Proof.
    intros h0 h R rho old new W0 Sw Io No Iw Nw Nu Ne Le So.
    pose proof (sp_wf _ _ _ _ Sw) as W.
    assert (Live : forall m, In m (h_nodes h) <-> In m (h_nodes h0) /\ ~ In m R).
    { intros m. rewrite (sp_nodes _ _ _ _ Sw), filter_In, negb_true_iff, memN_false. reflexivity. }
    assert (Up : forall m, up (h_parent h) m old <-> up (h_parent h0) m old /\ ~ In m R).
    { intros m. split.
      - intros U. split.
        + apply (up_mono (h_parent h) (h_parent h0)); [|exact U]. intros x y. rewrite (sp_parent _ _ _ _ Sw). destruct (memN x R); [discriminate|auto].
        + inversion U as [|? p ? E U']; subst; [exact No|]. rewrite (sp_parent _ _ _ _ Sw) in E. destruct (memN m R) eqn:X; [discriminate|now apply memN_false].
      - intros [U Nm]. clear So Nu Ne Le. induction U as [x|x p a E U IH]; [constructor|].
        apply up_next with p; [rewrite (sp_parent _ _ _ _ Sw); apply memN_false in Nm; now rewrite Nm|].
        apply IH; auto. intros Ip. apply Nm. exact (sp_down _ _ _ _ Sw x p E Ip). }
    destruct (redirect_old h old new W) as (L' & E1 & P1).
    { apply Live; auto. }
    { rewrite (sp_out _ _ _ _ Sw). exact Le. }
    { intros l I X. apply (sole_perm _ _ _ (Permutation_sym (sp_links _ _ _ _ Sw))). apply sole_filter.
      apply (Permutation_in _ (sp_links _ _ _ _ Sw)), filter_In in I. destruct I as [I _]. apply in_map_iff in I. destruct I as (l0 & <- & I0).
      apply sole_resrc. apply So; [exact I0|exact X]. }
    set (h1 := set_links h L').
    assert (W1 : wf h1).
    { apply links_wf; [exact W|]. intros l Il. apply (Permutation_in l P1) in Il. apply in_map_iff in Il. destruct Il as (l0 & <- & I0).
      destruct (wf_links h W l0 I0) as [[Po1 Po2] Pi]. unfold resrc, subst1. cbn [fst snd]. split; [|exact Pi].
      destruct (N.eqb_spec (fst (fst l0)) old) as [X|X]; [|now split]. split; cbn [fst snd]; [apply Live; auto|]. rewrite (sp_out _ _ _ _ Sw) in *. rewrite X in Po2. lia. }
    destruct (remove_subtree_spec o_default h1 W1 old) as [A B].
    assert (Ie : ~ up (h_parent h1) (h_entry h1) old).
    { change (~ up (h_parent h) (h_entry h) old). rewrite (sp_entry _ _ _ _ Sw), Up. tauto. }
    destruct B as (h' & E2); [apply Live; auto|exact Ie|].
    destruct (A h' E2) as (_ & R1 & Rm & HR1). change (h_parent h1) with (h_parent h) in HR1. clear A.
    exists h', (R ++ R1). unfold replace_static_src. rewrite E1. split; [exact E2|].
    assert (HR : forall m, In m (R ++ R1) <-> In m R \/ up (h_parent h0) m old).
    { intros m. rewrite in_app_iff, HR1, Up. split; [tauto|]. intros [X|X]; [now left|]. destruct (in_dec N.eq_dec m R); tauto. }
    split; [|exact HR]. constructor.
    - eapply (remove_subtree_wf o_default); eassumption.
    - rewrite (rm_nodes _ _ _ _ _ _ Rm). change (h_nodes h1) with (h_nodes h). rewrite (sp_nodes _ _ _ _ Sw), filter_filter. apply filter_ext.
      intros x. rewrite memN_app, negb_orb. reflexivity.
    - intros m Nm. rewrite (rm_ops _ _ _ _ _ _ Rm). rewrite in_app_iff in Nm. destruct (memN m R1) eqn:X; [apply memN_iff in X; tauto|]. apply (sp_ops _ _ _ _ Sw). tauto.
    - rewrite (rm_meta _ _ _ _ _ _ Rm). apply (sp_meta _ _ _ _ Sw).
    - rewrite (rm_in _ _ _ _ _ _ Rm). apply (sp_in _ _ _ _ Sw).
    - rewrite (rm_out _ _ _ _ _ _ Rm). apply (sp_out _ _ _ _ Sw).
    - intros m. rewrite (rm_parent _ _ _ _ _ _ Rm), app_nil_r, memN_app. change (h_parent h1) with (h_parent h). rewrite (sp_parent _ _ _ _ Sw).
      destruct (memN m R), (memN m R1); reflexivity.
    - intros m. rewrite (rm_kids _ _ _ _ _ _ Rm), memN_app. change (h_kids h1) with (h_kids h). rewrite (sp_kids _ _ _ _ Sw).
      destruct (memN m R1) eqn:X1; [now rewrite orb_true_r|]. rewrite orb_false_r. destruct (memN m R) eqn:X; [reflexivity|].
      unfold delN. rewrite filter_filter. apply filter_in_ext. intros c Ic. rewrite memN_app, negb_orb. f_equal.
      apply (wf_kids h0 W0) in Ic. destruct (N.eqb_spec c old) as [->|Nc].
      + replace (memN old R1) with true; [reflexivity|]. symmetry. apply memN_iff. apply HR1. constructor.
      + cbn [negb]. symmetry. apply negb_true_iff, memN_false. rewrite HR1, Up. intros [U Nc']. inversion U as [|? p ? Ep U']; subst; [contradiction|].
        rewrite Ic in Ep. injection Ep as <-. apply memN_false in X, X1. apply X1. apply HR1, Up. auto.
    - rewrite (rm_links _ _ _ _ _ _ Rm). cbn [h1 set_links h_links]. change (fun l : link => negb (memN (fst (fst l)) R1 || memN (fst (snd l)) R1)) with (clear_of R1).
      transitivity (filter (clear_of R1) (map (resrc (subst1 old new)) (filter (clear_of R) (map (resrc rho) (h_links h0))))).
      { apply filter_perm. etransitivity; [exact P1|]. apply Permutation_map. exact (sp_links _ _ _ _ Sw). }
      apply Permutation_refl'. etransitivity; [apply two_steps|]. symmetry. etransitivity; [apply one_step|]. symmetry.
      apply (f_equal (map (resrc (fun x => subst1 old new (rho x))))). apply filter_in_ext. intros [[a i] [t j]] I. unfold clear_of, resrc, subst1. cbn [fst snd]. rewrite !memN_app.
      destruct (N.eqb_spec (rho a) old) as [->|Na].
      + apply memN_false in No, Nw. rewrite No, Nw. cbn [orb].
        replace (memN new R1) with false by (symmetry; apply memN_false; rewrite HR1, Up; tauto). cbn [orb]. now destruct (memN t R), (memN t R1).
      + destruct (memN (rho a) R), (memN (rho a) R1), (memN t R), (memN t R1); reflexivity.
    - rewrite (rm_root _ _ _ _ _ _ Rm). apply (sp_root _ _ _ _ Sw).
    - rewrite (rm_entry _ _ _ _ _ _ Rm). apply (sp_entry _ _ _ _ Sw).
    - intros m p E. rewrite !HR. intros [X|X]; [left; exact (sp_down _ _ _ _ Sw m p E X)|]. right. now apply up_next with p.
  Qed.
End Swap.
