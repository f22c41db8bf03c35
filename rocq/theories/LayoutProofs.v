(** Proofs about the representation of sums. *)
From Coq Require Import List Bool Arith NArith Lia Sorted.
From Verif Require Import BMap LayoutModel LayoutSpec.
Import ListNotations.

Section Proofs.
Context {T : Type} (cmp : T -> T -> comparison) (TC : total_cmp cmp) (elide : T -> bool).
Context (teq : T -> T -> bool) (teq_eq : forall a b, teq a b = true <-> a = b).

Notation get := (bm_get cmp).
Notation occurs := (occurs teq).
Notation need := (need teq).

Lemma teq_refl t : teq t t = true.
Proof. now apply teq_eq. Qed.
Lemma teq_neq a b : a <> b -> teq a b = false.
Proof. intros N. destruct (teq a b) eqn:E; [|reflexivity]. now apply teq_eq in E. Qed.
Lemma cmp_neq a b : a <> b -> cmp a b <> Eq.
Proof. intros N E. apply (cmp_eq _ TC) in E. contradiction. Qed.

Definition cnt (m : list (T * nat)) (t : T) : nat := match get t m with Some c => c | None => 0 end.
Definition pos (m : list (T * nat)) : Prop := forall t, get t m <> Some 0.

Lemma cnt_insert m t c t' : bm_sorted cmp m ->
  cnt (bm_insert cmp t c m) t' = if teq t' t then c else cnt m t'.
Proof.
  intros S. unfold cnt. rewrite (bm_get_insert cmp TC) by exact S.
  destruct (teq t' t) eqn:E.
  - apply teq_eq in E as ->. now rewrite (cmp_refl cmp TC).
  - destruct (cmp t' t) eqn:C; [|reflexivity|reflexivity].
    apply (cmp_eq _ TC) in C as ->. now rewrite teq_refl in E.
Qed.
Lemma pos_insert m t c : bm_sorted cmp m -> pos m -> c <> 0 -> pos (bm_insert cmp t c m).
Proof.
  intros S P C t'. rewrite (bm_get_insert cmp TC) by exact S.
  destruct (cmp t' t); [congruence|apply P|apply P].
Qed.

(** * Counting *)
Lemma count_step_spec m t : bm_sorted cmp m -> pos m ->
  bm_sorted cmp (count_step cmp elide m t) /\ pos (count_step cmp elide m t) /\
  forall t', cnt (count_step cmp elide m t) t' = cnt m t' + (if elide t then 0 else if teq t' t then 1 else 0).
Proof.
  intros S P. unfold count_step. destruct (elide t); [split; [assumption|split; [assumption|intros; lia]]|].
  destruct (get t m) as [c|] eqn:G.
  - split; [now apply bm_insert_sorted|]. split; [apply pos_insert; [assumption|assumption|lia]|].
    intros t'. rewrite cnt_insert by assumption. destruct (teq t' t) eqn:E; [|lia].
    apply teq_eq in E as ->. unfold cnt. rewrite G. lia.
  - split; [now apply bm_insert_sorted|]. split; [apply pos_insert; [assumption|assumption|lia]|].
    intros t'. rewrite cnt_insert by assumption. destruct (teq t' t) eqn:E; [|lia].
    apply teq_eq in E as ->. unfold cnt. rewrite G. lia.
Qed.

Lemma count_fold variant : forall m, bm_sorted cmp m -> pos m ->
  bm_sorted cmp (fold_left (count_step cmp elide) variant m) /\ pos (fold_left (count_step cmp elide) variant m) /\
  forall t, cnt (fold_left (count_step cmp elide) variant m) t = cnt m t + (if elide t then 0 else occurs t variant).
Proof.
  induction variant as [|x l IH]; intros m S P; cbn [fold_left].
  - split; [assumption|split; [assumption|]]. intros t. cbn. destruct (elide t); lia.
  - destruct (count_step_spec m x S P) as (S1 & P1 & C1). destruct (IH _ S1 P1) as (S2 & P2 & C2).
    split; [assumption|split; [assumption|]]. intros t. rewrite C2, C1. unfold LayoutSpec.occurs. cbn [filter].
    destruct (teq t x) eqn:E.
    + apply teq_eq in E as ->. destruct (elide x); cbn [length]; lia.
    + destruct (elide x), (elide t); lia.
Qed.

Lemma pos_nil : pos [].
Proof. intros t. discriminate. Qed.
Lemma sorted_nil {V} : bm_sorted (V := V) cmp [].
Proof. constructor. Qed.

Lemma variant_counts_spec v :
  bm_sorted cmp (variant_counts cmp elide v) /\ pos (variant_counts cmp elide v) /\
  forall t, cnt (variant_counts cmp elide v) t = if elide t then 0 else occurs t v.
Proof. exact (count_fold v [] sorted_nil pos_nil). Qed.

Lemma merge_step_spec m t c : bm_sorted cmp m -> pos m -> c <> 0 ->
  bm_sorted cmp (merge_step cmp m (t, c)) /\ pos (merge_step cmp m (t, c)) /\
  forall t', cnt (merge_step cmp m (t, c)) t' = if teq t' t then Nat.max c (cnt m t') else cnt m t'.
Proof.
  intros S P C. unfold merge_step. cbn [fst snd]. destruct (get t m) as [x|] eqn:G.
  - split; [now apply bm_insert_sorted|]. split; [apply pos_insert; [assumption|assumption|lia]|].
    intros t'. rewrite cnt_insert by assumption. destruct (teq t' t) eqn:E; [|reflexivity].
    apply teq_eq in E as ->. unfold cnt. now rewrite G.
  - split; [now apply bm_insert_sorted|]. split; [apply pos_insert; [assumption|assumption|lia]|].
    intros t'. rewrite cnt_insert by assumption. destruct (teq t' t) eqn:E; [|reflexivity].
    apply teq_eq in E as ->. unfold cnt. rewrite G. lia.
Qed.

Lemma cnt_cons t c m t' : bm_sorted cmp ((t, c) :: m) ->
  cnt ((t, c) :: m) t' = if teq t' t then c else cnt m t'.
Proof.
  intros S. inversion S as [|? ? S' F]; subst. unfold cnt. cbn [bm_get]. destruct (teq t' t) eqn:E.
  - apply teq_eq in E as ->. now rewrite (cmp_refl cmp TC).
  - assert (N : t' <> t) by (intros ->; rewrite teq_refl in E; discriminate).
    destruct (cmp t' t) eqn:C; [exfalso; exact (cmp_neq _ _ N C)| |reflexivity].
    rewrite (bm_get_lt cmp t' m S'); [reflexivity|]. rewrite Forall_forall in *. intros x Hx.
    exact (cmp_trans _ TC _ _ _ C (F _ Hx)).
Qed.
Lemma cnt_head t c m : bm_sorted cmp ((t, c) :: m) -> cnt m t = 0.
Proof. intros S. inversion S as [|? ? S' F]; subst. unfold cnt. now rewrite (bm_get_lt cmp t m S' F). Qed.

(** Merging the counts of one variant. *)
Lemma merge_fold l : bm_sorted cmp l -> (forall t c, In (t, c) l -> c <> 0) -> forall m, bm_sorted cmp m -> pos m ->
  bm_sorted cmp (fold_left (merge_step cmp) l m) /\ pos (fold_left (merge_step cmp) l m) /\
  forall t, cnt (fold_left (merge_step cmp) l m) t = Nat.max (cnt l t) (cnt m t).
Proof.
  intros SL. induction SL as [|[t c] l SL IH F]; intros Pl m S P; cbn [fold_left].
  - split; [assumption|split; [assumption|]]. intros t. reflexivity.
  - destruct (merge_step_spec m t c S P (Pl t c (or_introl eq_refl))) as (S1 & P1 & C1).
    destruct (IH (fun t' c' H => Pl t' c' (or_intror H)) _ S1 P1) as (S2 & P2 & C2).
    split; [assumption|split; [assumption|]]. intros t'. rewrite C2, C1.
    assert (SC : bm_sorted cmp ((t, c) :: l)) by (constructor; assumption).
    rewrite (cnt_cons _ _ _ _ SC). destruct (teq t' t) eqn:E; [|reflexivity].
    apply teq_eq in E as ->. rewrite (cnt_head _ _ _ SC). lia.
Qed.

Lemma type_counts_fold variants : forall m, bm_sorted cmp m -> pos m ->
  let r := fold_left (merge_step cmp) (flat_map (variant_counts cmp elide) variants) m in
  bm_sorted cmp r /\ pos r /\
  forall t, cnt r t = Nat.max (if elide t then 0 else need t variants) (cnt m t).
Proof.
  induction variants as [|v vs IH]; intros m S P; cbn [flat_map].
  - cbn. split; [assumption|split; [assumption|]]. intros t. destruct (elide t); reflexivity.
  - rewrite fold_left_app. destruct (variant_counts_spec v) as (Sv & Pv & Cv).
    destruct (merge_fold _ Sv) with (m := m) as (S1 & P1 & C1); [|assumption|assumption|].
    { intros t c H ->. apply (Pv t). now apply (bm_get_In cmp TC). }
    destruct (IH _ S1 P1) as (S2 & P2 & C2). split; [assumption|split; [assumption|]].
    intros t. rewrite C2, C1, Cv. unfold LayoutSpec.need. cbn [map fold_right]. destruct (elide t); lia.
Qed.

Lemma type_counts_spec variants :
  bm_sorted cmp (type_counts cmp elide variants) /\ pos (type_counts cmp elide variants) /\
  forall t, cnt (type_counts cmp elide variants) t = if elide t then 0 else need t variants.
Proof.
  destruct (type_counts_fold variants [] sorted_nil pos_nil) as (S & P & C).
  split; [exact S|split; [exact P|]]. intros t. unfold type_counts. rewrite C. cbn. destruct (elide t); lia.
Qed.

(** * The fields *)
Lemma repeat_occurs t t' c : occurs t (repeat t' c) = if teq t t' then c else 0.
Proof. unfold LayoutSpec.occurs. induction c; cbn; [now destruct (teq t t')|]. destruct (teq t t'); cbn; lia. Qed.
Lemma occurs_app t l l' : occurs t (l ++ l') = occurs t l + occurs t l'.
Proof. unfold LayoutSpec.occurs. now rewrite filter_app, app_length. Qed.

Lemma sorted_fields_occurs m : bm_sorted cmp m -> forall t, occurs t (sorted_fields m) = cnt m t.
Proof.
  induction m as [|[t' c] m IH]; intros S t; [reflexivity|].
  inversion S as [|? ? S' F]; subst. unfold sorted_fields. cbn [flat_map fst snd].
  rewrite occurs_app, repeat_occurs. fold (sorted_fields m). rewrite (IH S'), (cnt_cons _ _ _ _ S).
  destruct (teq t t') eqn:E; [|reflexivity]. apply teq_eq in E as ->. rewrite (cnt_head _ _ _ S). lia.
Qed.

Lemma sorted_fields_in (m : list (T * nat)) t : In t (sorted_fields m) -> exists c, In (t, c) m.
Proof.
  unfold sorted_fields. rewrite in_flat_map. intros ([t' c] & H & R). cbn in R. apply repeat_spec in R as ->. eauto.
Qed.

Lemma sorted_fields_sorted m : bm_sorted cmp m -> StronglySorted (fun a b => cmp a b <> Gt) (sorted_fields m).
Proof.
  induction m as [|[t c] m IH]; intros S; [constructor|].
  inversion S as [|? ? S' F]; subst. specialize (IH S'). unfold sorted_fields. cbn [flat_map fst snd]. fold (sorted_fields m).
  assert (FA : Forall (fun b => cmp t b <> Gt) (sorted_fields m)).
  { rewrite Forall_forall in *. intros x Hx. destruct (sorted_fields_in _ _ Hx) as [c' H']. specialize (F _ H'). cbn in F. congruence. }
  induction c as [|c IHc]; [exact IH|]. cbn [repeat app].
  assert (S2 : bm_sorted cmp ((t, c) :: m)) by (constructor; assumption).
  constructor; [apply IHc; assumption|].
  apply Forall_app. split; [|exact FA]. rewrite Forall_forall. intros x Hx. apply repeat_spec in Hx as ->.
  rewrite (cmp_refl cmp TC). discriminate.
Qed.

(** * The ranges *)
Definition in_range (m : list (T * (nat * nat))) (t : T) (j : nat) : Prop :=
  exists i e, get t m = Some (i, e) /\ i <= j < e.
Definition disjoint (m : list (T * (nat * nat))) : Prop :=
  forall t t' j, in_range m t j -> in_range m t' j -> t = t'.

Lemma ranges_keys (m : list (T * nat)) : forall off t r, In (t, r) (ranges off m) -> exists c, In (t, c) m.
Proof.
  induction m as [|[t' c] m IH]; intros off t r H; [contradiction H|]. cbn in H.
  destruct H as [H|H]; [injection H as <- _; exists c; now left|].
  destruct (IH _ _ _ H) as [c' H']. exists c'. now right.
Qed.

Lemma ranges_sorted m : bm_sorted cmp m -> forall off, bm_sorted cmp (ranges off m).
Proof.
  induction m as [|[t c] m IH]; intros S off; [constructor|].
  inversion S as [|? ? S' F]; subst. cbn. constructor; [now apply IH|].
  rewrite Forall_forall in *. intros [t' r] H. destruct (ranges_keys _ _ _ _ H) as [c' H']. exact (F _ H').
Qed.

Lemma ranges_in (m : list (T * nat)) : forall off t i e, In (t, (i, e)) (ranges off m) ->
  off <= i /\ (exists c, In (t, c) m /\ e = i + c) /\
  forall j, i <= j < e -> nth_error (sorted_fields m) (j - off) = Some t.
Proof.
  induction m as [|[t' c] m IH]; intros off t i e H; [contradiction H|]. cbn in H.
  unfold sorted_fields. cbn [flat_map fst snd]. fold (sorted_fields m). destruct H as [H|H].
  - injection H as <- <- <-. split; [lia|]. split; [exists c; split; [now left|reflexivity]|].
    intros j Hj. rewrite nth_error_app1 by (rewrite repeat_length; lia).
    rewrite (nth_error_nth' _ t') by (rewrite repeat_length; lia). f_equal. 
    apply (repeat_spec c). apply nth_In. rewrite repeat_length. lia.
  - destruct (IH _ _ _ _ H) as (O & (c' & H' & E) & N). split; [lia|].
    split; [exists c'; split; [now right|exact E]|]. intros j Hj.
    rewrite nth_error_app2 by (rewrite repeat_length; lia). rewrite repeat_length.
    replace (j - off - c) with (j - (off + c)) by lia. apply N. exact Hj.
Qed.

Lemma ranges_complete (m : list (T * nat)) : forall off t c, In (t, c) m -> exists i, In (t, (i, i + c)) (ranges off m).
Proof.
  induction m as [|[t' c'] m IH]; intros off t c H; [contradiction H|]. cbn.
  destruct H as [H|H]; [injection H as -> ->; eauto|]. destruct (IH (off + c') _ _ H) as [i Hi]. eauto.
Qed.

Lemma ranges_get m : bm_sorted cmp m -> forall t,
  match get t m with
  | Some c => exists i, get t (ranges 0 m) = Some (i, i + c) /\
                        forall j, i <= j < i + c -> nth_error (sorted_fields m) j = Some t
  | None => True
  end.
Proof.
  intros S t. destruct (get t m) as [c|] eqn:G; [|exact Logic.I].
  apply (bm_get_In cmp TC) in G; [|exact S]. destruct (ranges_complete m 0 t c G) as [i Hi].
  exists i. split; [apply (bm_get_In cmp TC); [now apply ranges_sorted|exact Hi]|].
  destruct (ranges_in _ _ _ _ _ Hi) as (_ & _ & N). intros j Hj. specialize (N j Hj). now rewrite Nat.sub_0_r in N.
Qed.

Lemma ranges_disjoint m : bm_sorted cmp m -> disjoint (ranges 0 m).
Proof.
  intros S t t' j (i & e & G & J) (i' & e' & G' & J').
  apply (bm_get_In cmp TC) in G; [|now apply ranges_sorted]. apply (bm_get_In cmp TC) in G'; [|now apply ranges_sorted].
  destruct (ranges_in _ _ _ _ _ G) as (_ & _ & N). destruct (ranges_in _ _ _ _ _ G') as (_ & _ & N').
  specialize (N j J). specialize (N' j J'). congruence.
Qed.

(** * Indices *)
Lemma layout_variant_spec variant : forall m, bm_sorted cmp m -> disjoint m ->
  (forall t, elide t = false -> occurs t variant <> 0 ->
     exists i e, get t m = Some (i, e) /\ i + occurs t variant <= e) ->
  exists indices, layout_variant cmp elide m variant = Some indices /\
    length indices = length variant /\
    (forall k t o, nth_error variant k = Some t -> nth_error indices k = Some o ->
       if elide t then o = None else exists i, o = Some i /\ in_range m t i) /\
    (forall k k' i, nth_error indices k = Some (Some i) -> nth_error indices k' = Some (Some i) -> k = k').
Proof.
  induction variant as [|t l IH]; intros m S D A; cbn [layout_variant].
  { exists []. split; [reflexivity|split; [reflexivity|]]. split; [intros [|k]; discriminate|intros [|k]; discriminate]. }
  destruct (elide t) eqn:El.
  - destruct (IH m S D) as (ix & E & L & K & U).
    { intros t' El' O. destruct (A t' El') as (i & e & G & B).
      - unfold LayoutSpec.occurs in *. cbn [filter]. destruct (teq t' t); cbn [length]; lia.
      - exists i, e. split; [exact G|]. unfold LayoutSpec.occurs in *. cbn [filter] in B. destruct (teq t' t); cbn [length] in *; lia. }
    exists (None :: ix). rewrite E. split; [reflexivity|]. split; [cbn; lia|]. split.
    + intros [|k] t' o Ht Ho; cbn in Ht, Ho; [injection Ht as <-; injection Ho as <-; now rewrite El|eapply K; eassumption].
    + intros [|k] [|k'] i H H'; cbn in H, H'; try discriminate. f_equal; eapply U; eassumption.
  - destruct (A t El) as (i & e & G & B).
    { unfold LayoutSpec.occurs. cbn [filter]. rewrite teq_refl. discriminate. }
    rewrite G. assert (O : occurs t (t :: l) = Datatypes.S (occurs t l)) by (unfold LayoutSpec.occurs; cbn [filter]; now rewrite teq_refl).
    rewrite O in B. assert (i <? e = true) as -> by (apply Nat.ltb_lt; lia).
    set (m' := bm_insert cmp t (i + 1, e) m).
    assert (S' : bm_sorted cmp m') by now apply bm_insert_sorted.
    assert (G' : forall t', get t' m' = if teq t' t then Some (i + 1, e) else get t' m).
    { intros t'. unfold m'. rewrite (bm_get_insert cmp TC) by exact S. destruct (teq t' t) eqn:E.
      - apply teq_eq in E as ->. now rewrite (cmp_refl cmp TC).
      - destruct (cmp t' t) eqn:C; [|reflexivity|reflexivity]. apply (cmp_eq _ TC) in C as ->. now rewrite teq_refl in E. }
    assert (R : forall t' j, in_range m' t' j -> in_range m t' j).
    { intros t' j (i' & e' & Q & J). rewrite G' in Q. destruct (teq t' t) eqn:E; [|now exists i', e'].
      apply teq_eq in E as ->. injection Q as <- <-. exists i, e. split; [exact G|lia]. }
    destruct (IH m' S') as (ix & E & L & K & U).
    { intros t1 t2 j R1 R2. eapply D; apply R; eassumption. }
    { intros t' El' Oc. rewrite G'. destruct (teq t' t) eqn:E.
      - apply teq_eq in E as ->. exists (i + 1), e. split; [reflexivity|lia].
      - destruct (A t' El') as (i' & e' & Q & B').
        + unfold LayoutSpec.occurs in *. cbn [filter]. now rewrite E.
        + exists i', e'. split; [exact Q|]. unfold LayoutSpec.occurs in *. cbn [filter] in B'. now rewrite E in B'. }
    exists (Some i :: ix). rewrite E. split; [reflexivity|]. split; [cbn; lia|].
    assert (NI : forall k, nth_error ix k <> Some (Some i)).
    { intros k H. destruct (nth_error l k) as [t'|] eqn:Hl.
      2:{ apply nth_error_None in Hl. assert (nth_error ix k <> None) by congruence. apply nth_error_Some in H0. lia. }
      specialize (K k t' _ Hl H). destruct (elide t'); [discriminate K|]. destruct K as (j & Q & RJ). injection Q as <-.
      assert (t' = t) as ->.
      { eapply D; [apply R; exact RJ|]. exists i, e. split; [exact G|lia]. }
      destruct RJ as (i' & e' & Q & J). rewrite G', teq_refl in Q. injection Q as <- <-. lia. }
    split.
    + intros [|k] t' o Ht Ho; cbn in Ht, Ho.
      * injection Ht as <-. injection Ho as <-. rewrite El. exists i. split; [reflexivity|]. exists i, e. split; [exact G|lia].
      * specialize (K k t' o Ht Ho). destruct (elide t'); [exact K|]. destruct K as (j & Q & RJ). exists j. split; [exact Q|now apply R].
    + intros [|k] [|k'] j H H'; cbn in H, H'; [reflexivity| | |f_equal; eapply U; eassumption].
      * injection H as <-. exfalso. exact (NI _ H').
      * injection H' as <-. exfalso. exact (NI _ H).
Qed.

Lemma all_some_map {A B} (f : A -> option B) l : (forall a, In a l -> exists b, f a = Some b) ->
  exists r, all_some (map f l) = Some r /\ Forall2 (fun a b => f a = Some b) l r.
Proof.
  induction l as [|a l IH]; intros H; [exists []; split; [reflexivity|constructor]|].
  destruct (H a (or_introl eq_refl)) as [b E]. destruct (IH (fun x Hx => H x (or_intror Hx))) as (r & R & F).
  exists (b :: r). cbn. rewrite E, R. split; [reflexivity|]. now constructor.
Qed.

Lemma need_ge t v vs : In v vs -> occurs t v <= need t vs.
Proof.
  unfold LayoutSpec.need. induction vs as [|x vs IH]; intros H; [contradiction H|]. cbn.
  destruct H as [->|H]; [lia|]. specialize (IH H). lia.
Qed.

Theorem layout_spec variants : exists fields indices,
  layout_variants cmp elide variants = Some (fields, indices) /\
  (forall t, occurs t fields = if elide t then 0 else need t variants) /\
  StronglySorted (fun a b => cmp a b <> Gt) fields /\
  Forall2 (good_indices elide fields) variants indices.
Proof.
  destruct (type_counts_spec variants) as (S & P & C). set (m := type_counts cmp elide variants) in *.
  unfold layout_variants. fold m.
  assert (A : forall v, In v variants -> exists ix, layout_variant cmp elide (ranges 0 m) v = Some ix /\ good_indices elide (sorted_fields m) v ix).
  { intros v Hv. destruct (layout_variant_spec v (ranges 0 m) (ranges_sorted _ S 0) (ranges_disjoint _ S)) as (ix & E & L & K & U).
    - intros t El O. pose proof (need_ge t v variants Hv) as NG. specialize (C t). rewrite El in C.
      unfold cnt in C. pose proof (ranges_get m S t) as RG. destruct (get t m) as [c|]; [|lia].
      destruct RG as (i & G & _). exists i, (i + c). split; [exact G|]. lia.
    - exists ix. split; [exact E|]. split; [exact L|]. split; [|exact U].
      intros k t o Ht Ho. specialize (K k t o Ht Ho). destruct (elide t); [exact K|].
      destruct K as (j & Q & (i & e & G & J)). exists j. split; [exact Q|].
      pose proof (ranges_get m S t) as RG.
      assert (HG : In (t, (i, e)) (ranges 0 m)) by (apply (bm_get_In cmp TC); [now apply ranges_sorted|exact G]).
      destruct (ranges_in _ _ _ _ _ HG) as (_ & _ & N). specialize (N j J). now rewrite Nat.sub_0_r in N. }
  destruct (all_some_map (layout_variant cmp elide (ranges 0 m)) variants) as (r & R & F).
  { intros v Hv. destruct (A v Hv) as (ix & E & _). eauto. }
  exists (sorted_fields m), r. rewrite R. split; [reflexivity|]. split; [|split; [now apply sorted_fields_sorted|]].
  - intros t. rewrite sorted_fields_occurs by exact S. apply C.
  - clear R. clearbody m. clear S P C. revert A. induction F as [|v ix vs ixs E F IH]; intros A; constructor.
    + destruct (A v (or_introl eq_refl)) as (ix' & E' & Gd). rewrite E in E'. injection E' as <-. exact Gd.
    + apply IH. intros v' H'. apply A. now right.
Qed.

(** * Sum types *)
Lemma kept_in l : forall i k, In k (kept_positions i l) <-> exists j x, k = i + j /\ nth_error l j = Some (Some x).
Proof.
  induction l as [|[x|] l IH]; intros i k; cbn [kept_positions].
  - split; [contradiction|]. intros ([|j] & x & _ & H); discriminate H.
  - cbn [In]. rewrite IH. split.
    + intros [<-|(j & y & -> & H)]; [exists 0, x; split; [lia|reflexivity]|exists (S j), y; split; [lia|exact H]].
    + intros ([|j] & y & -> & H); [left; lia|right; exists j, y; split; [lia|exact H]].
  - rewrite IH. split.
    + intros (j & y & -> & H). exists (S j), y. split; [lia|exact H].
    + intros ([|j] & y & -> & H); [discriminate H|exists j, y; split; [lia|exact H]].
Qed.
Lemma kept_nodup l : forall i, NoDup (kept_positions i l).
Proof.
  induction l as [|[x|] l IH]; intros i; cbn [kept_positions]; [constructor| |apply IH].
  constructor; [|apply IH]. rewrite kept_in. intros (j & y & E & _). lia.
Qed.

Lemma occurs_pos t l : occurs t l <> 0 <-> In t l.
Proof.
  unfold LayoutSpec.occurs. split.
  - intros H. destruct (filter (teq t) l) as [|x r] eqn:E; [contradiction H; reflexivity|].
    assert (I : In x (filter (teq t) l)) by (rewrite E; now left). apply filter_In in I as [I Q]. apply teq_eq in Q as <-. exact I.
  - intros H E. assert (I : In t (filter (teq t) l)) by (apply filter_In; split; [exact H|apply teq_refl]).
    destruct (filter (teq t) l); [contradiction I|discriminate E].
Qed.

Lemma tag_fits n tag : 1 <= n -> tag < n -> tag_const (tag_width n) tag = N.of_nat tag.
Proof.
  intros N1 H. unfold tag_const, tag_width. apply N.mod_small. destruct (Nat.eqb_spec n 1) as [->|NE].
  - assert (tag = 0) as -> by lia. reflexivity.
  - rewrite N.add_1_r. eapply N.le_lt_trans; [|apply N.log2_spec; lia]. lia.
Qed.

(** What the constructed type keeps of its variants. *)
Definition describes (variants : list (list T)) (s : sum_type) : Prop :=
  match s with
  | Void => variants = []
  | Unit ts => variants = [ts] /\ Forall (fun t => elide t = true) ts
  | NoFields vs width => variants = vs /\ 2 <= length vs /\ width = tag_width (length vs) /\
                         Forall (Forall (fun t => elide t = true)) vs
  | SingleField ts i => variants = [ts] /\ exists t, nth_error ts i = Some t /\ elide t = false /\
                         forall k t', nth_error ts k = Some t' -> k <> i -> elide t' = true
  | MultiField ts ix fields => variants = [ts] /\ good_indices elide fields ts ix
  | MultiVariant vs ix width fields => variants = vs /\ 2 <= length vs /\ width = tag_width (length vs) /\
                                       Forall2 (good_indices elide fields) vs ix
  end.

Lemma no_fields_elided variants : (forall t, 0 = if elide t then 0 else need t variants) ->
  Forall (Forall (fun t => elide t = true)) variants.
Proof.
  intros O. apply Forall_forall. intros v Hv. apply Forall_forall. intros t Ht.
  specialize (O t). destruct (elide t); [reflexivity|]. pose proof (need_ge t v variants Hv).
  pose proof (proj2 (occurs_pos t v) Ht). lia.
Qed.

Theorem try_new_describes variants : exists s, try_new cmp elide variants = Some s /\ describes variants s.
Proof.
  destruct (layout_spec variants) as (fields & indices & E & O & _ & F).
  destruct variants as [|ts [|ts2 rest]]; [exists Void; split; reflexivity| |].
  - unfold try_new. rewrite E. inversion F as [|? ix ? r G F']; subst. inversion F'; subst.
    destruct fields as [|f [|f2 fields]].
    + exists (Unit ts). split; [reflexivity|]. split; [reflexivity|].
      pose proof (no_fields_elided [ts] O) as NF. now inversion NF.
    + destruct G as (L & K & U).
      assert (OF : occurs f [f] = 1) by (unfold LayoutSpec.occurs; cbn [filter]; now rewrite teq_refl).
      rewrite (O f) in OF. destruct (elide f) eqn:Ef; [discriminate OF|].
      assert (If : In f ts).
      { apply occurs_pos. unfold LayoutSpec.need in OF. cbn in OF. lia. }
      apply In_nth_error in If as [i Hi].
      assert (Hix : nth_error ix i = Some (Some 0)).
      { destruct (nth_error ix i) as [o|] eqn:Q.
        2:{ apply nth_error_None in Q. assert (nth_error ts i <> None) by congruence. apply nth_error_Some in H. lia. }
        specialize (K i f o Hi Q). rewrite Ef in K. destruct K as ([|j] & -> & H); [reflexivity|]. destruct j; discriminate H. }
      assert (UQ : forall j, In j (kept_positions 0 ix) -> j = i).
      { intros j H. apply kept_in in H as (j' & x & -> & H). cbn.
        destruct (nth_error ts j') as [t|] eqn:Q.
        2:{ apply nth_error_None in Q. assert (nth_error ix j' <> None) by congruence. apply nth_error_Some in H0. lia. }
        specialize (K j' t _ Q H). destruct (elide t); [discriminate K|]. destruct K as ([|y] & Y & H0); [|destruct y; discriminate H0].
        injection Y as ->. eapply U; eassumption. }
      assert (In_i : In i (kept_positions 0 ix)) by (apply kept_in; exists i, 0; split; [reflexivity|exact Hix]).
      pose proof (kept_nodup ix 0) as ND.
      destruct (kept_positions 0 ix) as [|a [|b r]] eqn:KP; [contradiction In_i| |].
      * assert (a = i) as -> by (apply UQ; now left). exists (SingleField ts i). split; [reflexivity|].
        split; [reflexivity|]. exists f. split; [exact Hi|]. split; [exact Ef|].
        intros k t' Ht N. destruct (elide t') eqn:Et; [reflexivity|exfalso].
        destruct (nth_error ix k) as [o|] eqn:Q.
        2:{ apply nth_error_None in Q. assert (nth_error ts k <> None) by congruence. apply nth_error_Some in H. lia. }
        specialize (K k t' o Ht Q). rewrite Et in K. destruct K as (j & -> & _). apply N.
        apply UQ. rewrite <- KP. apply kept_in. exists k, j. split; [reflexivity|exact Q].
      * exfalso. inversion ND as [|? ? NI _]; subst. apply NI. left.
        rewrite (UQ a), (UQ b); [reflexivity|right; now left|now left].
    + exists (MultiField ts ix (f :: f2 :: fields)). split; [reflexivity|]. split; [reflexivity|exact G].
  - unfold try_new. rewrite E. destruct fields as [|f fields].
    + eexists. split; [reflexivity|]. cbn [length Nat.eqb describes]. split; [reflexivity|].
      split; [lia|]. split; [reflexivity|]. exact (no_fields_elided _ O).
    + eexists. split; [reflexivity|]. cbn [length Nat.eqb describes]. split; [reflexivity|]. split; [lia|].
      split; [reflexivity|exact F].
Qed.

(** * Values *)
Context {V : Type} (typ : V -> T) (undef : T -> V).

Lemma types_match_iff vs ts : types_match typ teq vs ts = true <-> map typ vs = ts.
Proof.
  revert ts. induction vs as [|v vs IH]; intros [|t ts]; cbn; try (split; congruence).
  rewrite andb_true_iff, teq_eq, IH. split; [intros [-> ->]; reflexivity|intros H; injection H as -> ->; auto].
Qed.

Lemma set_slot_ok (l : list (slot (V := V))) : forall i x, i < length l ->
  exists l', set_slot l i x = Some l' /\ length l' = length l /\
    forall j, nth_error l' j = if j =? i then Some x else nth_error l j.
Proof.
  induction l as [|y l IH]; intros i x H; [cbn in H; lia|]. destruct i as [|i]; cbn [set_slot].
  - exists (x :: l). split; [reflexivity|split; [reflexivity|]]. intros [|j]; reflexivity.
  - destruct (IH i x) as (l' & E & L & N); [cbn in H; lia|]. exists (y :: l'). rewrite E.
    split; [reflexivity|split; [cbn; lia|]]. intros [|j]; [reflexivity|]. cbn. apply N.
Qed.

Lemma insert_all_ok off ix : forall (vs : list V) s, length ix = length vs ->
  (forall k i, nth_error ix k = Some (Some i) -> i + off < length s) ->
  (forall k k' i, nth_error ix k = Some (Some i) -> nth_error ix k' = Some (Some i) -> k = k') ->
  exists s', insert_all off ix vs s = Some s' /\
    (forall k i, nth_error ix k = Some (Some i) -> slot_val s' (i + off) = nth_error vs k) /\
    (forall j, (forall k i, nth_error ix k = Some (Some i) -> i + off <> j) -> nth_error s' j = nth_error s j).
Proof.
  induction ix as [|o ix IH]; intros [|v vs] s L B U; try discriminate L.
  - exists s. split; [reflexivity|]. split; [intros [|k]; discriminate|reflexivity].
  - assert (U' : forall k k' i, nth_error ix k = Some (Some i) -> nth_error ix k' = Some (Some i) -> k = k').
    { intros k k' i H H'. specialize (U (S k) (S k') i H H'). lia. }
    destruct o as [i|]; cbn [insert_all].
    + destruct (set_slot_ok s (i + off) (Val v)) as (s1 & E & L1 & N1); [exact (B 0 i eq_refl)|]. rewrite E.
      destruct (IH vs s1) as (s2 & E2 & R & K); [cbn in L; lia| |exact U'|].
      { intros k j H. rewrite L1. exact (B (S k) j H). }
      exists s2. split; [exact E2|]. split.
      * intros [|k] j H; cbn in H; [|exact (R k j H)]. injection H as <-. cbn [nth_error].
        unfold slot_val. rewrite K, N1, Nat.eqb_refl; [reflexivity|].
        intros k j H. intros Q. assert (j = i) by lia. subst j. specialize (U 0 (S k) i eq_refl H). discriminate U.
      * intros j NJ. rewrite K, N1.
        -- destruct (Nat.eqb_spec j (i + off)) as [->|]; [|reflexivity]. exfalso. exact (NJ 0 i eq_refl eq_refl).
        -- intros k i' H. exact (NJ (S k) i' H).
    + destruct (IH vs s) as (s2 & E2 & R & K); [cbn in L; lia| |exact U'|].
      { intros k j H. exact (B (S k) j H). }
      exists s2. split; [exact E2|]. split.
      * intros [|k] j H; cbn in H; [discriminate H|exact (R k j H)].
      * intros j NJ. apply K. intros k i' H. exact (NJ (S k) i' H).
Qed.

Lemma extract_all_ok off ix : forall (vs : list V) s,
  length ix = length vs ->
  (forall k t o, nth_error (map typ vs) k = Some t -> nth_error ix k = Some o ->
     if elide t then o = None else exists i, o = Some i) ->
  (forall k i, nth_error ix k = Some (Some i) -> slot_val s (i + off) = nth_error vs k) ->
  Forall2 (same_field elide typ undef) vs (extract_all undef off (map typ vs) ix s).
Proof.
  induction ix as [|o ix IH]; intros [|v vs] s L K R; try discriminate L; [constructor|].
  assert (F : Forall2 (same_field elide typ undef) vs (extract_all undef off (map typ vs) ix s)).
  { apply IH; [cbn in L; lia| |].
    - intros k t o' H H'. exact (K (S k) t o' H H').
    - intros k i H. exact (R (S k) i H). }
  specialize (K 0 (typ v) o eq_refl eq_refl). cbn [map extract_all].
  destruct o as [i|]; constructor; try exact F; unfold same_field; destruct (elide (typ v)).
  - discriminate K.
  - exact (R 0 i eq_refl).
  - reflexivity.
  - destruct K as [i K]. discriminate K.
Qed.

Lemma elided_fields (vs : list V) : Forall (fun t => elide t = true) (map typ vs) ->
  Forall2 (same_field elide typ undef) vs (map (fun t => Some (undef t)) (map typ vs)).
Proof.
  induction vs as [|v vs IH]; cbn; intros H; constructor; inversion H; subst; [|now apply IH].
  unfold same_field. now rewrite H2.
Qed.

Lemma single_fields_ok (v : V) : forall (vs : list V) i index,
  (forall k w, nth_error vs k = Some w -> if i + k =? index then w = v /\ elide (typ w) = false else elide (typ w) = true) ->
  Forall2 (same_field elide typ undef) vs (single_fields undef i index (map typ vs) v).
Proof.
  induction vs as [|w vs IH]; intros i index H; cbn; constructor.
  - specialize (H 0 w eq_refl). rewrite Nat.add_0_r in H. unfold same_field.
    destruct (i =? index); [destruct H as [-> ->]; reflexivity|now rewrite H].
  - apply IH. intros k w' Hk. specialize (H (S k) w' Hk). now rewrite Nat.add_succ_r in H.
Qed.

Lemma Forall2_nth {A B} (P : A -> B -> Prop) l l' : Forall2 P l l' -> forall i a b, i < length l ->
  P (nth i l a) (nth i l' b).
Proof. induction 1; intros [|i] c d Hi; cbn in *; try lia; [assumption|]. apply IHForall2. lia. Qed.

Theorem round_trip variants s : describes variants s -> forall tag vs,
  (build_tag typ teq s tag vs <> None <-> exists v, nth_error variants tag = Some v /\ map typ vs = v) /\
  forall r, build_tag typ teq s tag vs = Some r ->
    get_tag s r = Some (N.of_nat tag) /\
    exists reads, untag undef s tag r = Some reads /\ Forall2 (same_field elide typ undef) vs reads.
Proof.
  intros D tag vs. unfold build_tag.
  assert (NV : num_variants s = length variants).
  { destruct s; cbn in *; try (now rewrite D); destruct D as [-> _]; reflexivity. }
  assert (FV : tag < length variants -> nth_error variants tag = Some (fields_for_variant s tag)).
  { intros H. destruct s; cbn [describes fields_for_variant] in *.
    - subst variants. cbn in H. lia.
    - destruct D as [-> _]. cbn in H. assert (tag = 0) as -> by lia. reflexivity.
    - destruct D as [-> _]. now apply nth_error_nth'.
    - destruct D as [-> _]. cbn in H. assert (tag = 0) as -> by lia. reflexivity.
    - destruct D as [-> _]. cbn in H. assert (tag = 0) as -> by lia. reflexivity.
    - destruct D as [-> _]. now apply nth_error_nth'. }
  assert (GUARD : (tag <? num_variants s) && types_match typ teq vs (fields_for_variant s tag) = true <->
                  exists v, nth_error variants tag = Some v /\ map typ vs = v).
  { rewrite andb_true_iff, Nat.ltb_lt, types_match_iff, NV. split.
    - intros [H E]. exists (fields_for_variant s tag). auto.
    - intros (v & H & E). assert (L : tag < length variants) by (apply nth_error_Some; congruence).
      split; [exact L|]. specialize (FV L). congruence. }
  destruct ((tag <? num_variants s) && types_match typ teq vs (fields_for_variant s tag)) eqn:G.
  2:{ split; [rewrite <- GUARD; split; [congruence|discriminate]|discriminate]. }
  pose proof (proj1 GUARD eq_refl) as X. clear GUARD.
  assert (L : tag < num_variants s) by (apply andb_true_iff in G as [G _]; now apply Nat.ltb_lt in G).
  apply andb_true_iff in G as [_ G]. apply types_match_iff in G.
  assert (LB : tag <? num_variants s = true) by now apply Nat.ltb_lt.
  unfold untag. rewrite LB.
  enough (Y : exists r, match s with
    | Void => None
    | Unit _ => Some RUnit
    | NoFields _ width => Some (RInt (tag_const width tag))
    | SingleField _ i => option_map RField (nth_error vs i)
    | MultiField _ indices fields => option_map RStruct (insert_all 0 indices vs (repeat Poison (length fields)))
    | MultiVariant _ indices width fields =>
        match set_slot (repeat Poison (S (length fields))) 0 (Tag (tag_const width tag)) with
        | Some s0 => option_map RStruct (insert_all 1 (nth tag indices []) vs s0)
        | None => None
        end
    end = Some r /\ get_tag s r = Some (N.of_nat tag) /\
    exists reads, untag undef s tag r = Some reads /\ Forall2 (same_field elide typ undef) vs reads).
  { destruct Y as (r & E & Q). unfold untag in Q. rewrite LB in Q. split.
    - split; [intros _; exact X|]. rewrite E. discriminate.
    - intros r' E'. rewrite E in E'. injection E' as <-. exact Q. }
  unfold untag. rewrite LB. clear LB X FV.
  destruct s as [|ts|vt width|ts i|ts ix fields|vt ixs width fields]; cbn [num_variants fields_for_variant describes] in *.
  - lia.
  - exists RUnit. split; [reflexivity|]. assert (tag = 0) as -> by lia. split; [reflexivity|].
    eexists. split; [reflexivity|]. rewrite <- G. apply elided_fields. rewrite G. tauto.
  - destruct D as (-> & L2 & -> & El). rewrite tag_fits by lia. eexists. split; [reflexivity|]. split; [reflexivity|].
    eexists. split; [reflexivity|]. rewrite <- G. apply elided_fields. rewrite G.
    rewrite Forall_forall in El. apply El. now apply nth_In.
  - assert (tag = 0) as -> by lia. destruct D as (-> & t & Ht & El & Oth). rewrite <- G in *.
    rewrite nth_error_map in Ht. destruct (nth_error vs i) as [v|] eqn:Hv; [|discriminate Ht]. injection Ht as Ht.
    eexists. split; [reflexivity|]. split; [reflexivity|]. eexists. split; [reflexivity|].
    apply single_fields_ok. intros k w Hk. cbn. destruct (Nat.eqb_spec k i) as [->|N].
    + split; [congruence|]. rewrite Hk in Hv. injection Hv as ->. now rewrite Ht.
    + apply (Oth k (typ w)); [|exact N]. now rewrite nth_error_map, Hk.
  - assert (tag = 0) as -> by lia. destruct D as (-> & Li & K & U). rewrite <- G in *. rewrite map_length in Li.
    assert (RNG : forall k i, nth_error ix k = Some (Some i) -> i < length fields).
    { intros k i H. destruct (nth_error (map typ vs) k) as [t|] eqn:Q.
      2:{ apply nth_error_None in Q. rewrite map_length in Q. assert (nth_error ix k <> None) by congruence. apply nth_error_Some in H0. lia. }
      specialize (K k t _ Q H). destruct (elide t); [discriminate K|]. destruct K as (j & E & N). injection E as ->.
      apply nth_error_Some. congruence. }
    destruct (insert_all_ok 0 ix vs (repeat Poison (length fields))) as (s' & E & R & _); [exact Li| |exact U|].
    { intros k i H. rewrite repeat_length, Nat.add_0_r. eapply RNG; exact H. }
    rewrite E. eexists. split; [reflexivity|]. split; [reflexivity|]. eexists. split; [reflexivity|].
    apply extract_all_ok; [exact Li| |exact R].
    intros k t o H H'. specialize (K k t o H H'). destruct (elide t); [exact K|]. destruct K as (j & -> & _). eauto.
  - destruct D as (-> & L2 & -> & F). rewrite tag_fits by lia.
    pose proof (Forall2_nth _ _ _ F tag [] [] L) as (Li & K & U). rewrite <- G in *. rewrite map_length in Li.
    set (ix := nth tag ixs []) in *.
    assert (RNG : forall k i, nth_error ix k = Some (Some i) -> i < length fields).
    { intros k i H. destruct (nth_error (map typ vs) k) as [t|] eqn:Q.
      2:{ apply nth_error_None in Q. rewrite map_length in Q. assert (nth_error ix k <> None) by congruence. apply nth_error_Some in H0. lia. }
      specialize (K k t _ Q H). destruct (elide t); [discriminate K|]. destruct K as (j & E & N). injection E as ->.
      apply nth_error_Some. congruence. }
    destruct (set_slot_ok (repeat Poison (S (length fields))) 0 (Tag (N.of_nat tag))) as (s1 & E1 & L1 & N1);
      [rewrite repeat_length; lia|]. rewrite E1. rewrite repeat_length in L1.
    destruct (insert_all_ok 1 ix vs s1) as (s' & E & R & O); [exact Li| |exact U|].
    { intros k i H. rewrite L1. specialize (RNG k i H). lia. }
    rewrite E. eexists. split; [reflexivity|]. split.
    + assert (H0 : nth_error s' 0 = Some (Tag (N.of_nat tag))).
      { rewrite O, N1; [reflexivity|]. intros k i _. lia. }
      cbn. destruct s' as [|x s']; [discriminate H0|]. cbn in H0. injection H0 as ->. reflexivity.
    + eexists. split; [reflexivity|]. apply extract_all_ok; [exact Li| |exact R].
      intros k t o H H'. specialize (K k t o H H'). destruct (elide t); [exact K|]. destruct K as (j & -> & _). eauto.
Qed.
End Proofs.
