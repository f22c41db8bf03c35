(** Proofs about the sum layout. *)
From Coq Require Import List Bool Arith NArith Lia Sorted.
From Verif Require Import BMap SumModel SumSpec.
Import ListNotations.

Section Layout.
  Context {T : Type} (cmp : T -> T -> comparison) (TC : total_cmp cmp)
          (teq : forall a b : T, {a = b} + {a <> b}) (elide : T -> bool).
  Notation need := (need teq elide).
  Notation max_need := (max_need teq elide).
  Notation sorted := (bm_sorted cmp).

  Lemma cmp_if {X} (a b : T) (x y : X) : (match cmp a b with Eq => x | _ => y end) = if teq a b then x else y.
  Proof.
    destruct (teq a b) as [->|H]; [rewrite (cmp_refl cmp TC); reflexivity|].
    destruct (cmp a b) eqn:E; try reflexivity. apply (cmp_eq _ TC) in E. contradiction.
  Qed.

  Definition val (m : list (T * nat)) (t : T) : nat := match bm_get cmp t m with Some x => x | None => 0 end.
  Definition pos (m : list (T * nat)) : Prop := forall t c, In (t, c) m -> 0 < c.

  Lemma entry_sorted k f d m : sorted m -> sorted (entry cmp k f d m).
  Proof. apply bm_insert_sorted. assumption. Qed.
  Lemma entry_pos k f d m : sorted m -> pos m -> 0 < d -> (forall x, 0 < x -> 0 < f x) -> pos (entry cmp k f d m).
  Proof.
    intros S P Hd Hf t c Hin. apply (bm_get_In cmp TC) in Hin; [|apply entry_sorted; assumption].
    unfold entry in Hin. rewrite (bm_get_insert cmp TC) in Hin by assumption. rewrite cmp_if in Hin.
    destruct (teq t k) as [->|].
    - destruct (bm_get cmp k m) as [x|] eqn:G; injection Hin as <-; [|assumption]. apply Hf.
      apply (P k). apply (bm_get_In cmp TC); assumption.
    - apply (P t). apply (bm_get_In cmp TC); assumption.
  Qed.
  Lemma entry_get k f d m t : sorted m ->
    bm_get cmp t (entry cmp k f d m) = if teq t k then Some (match bm_get cmp k m with Some x => f x | None => d end) else bm_get cmp t m.
  Proof. intros S. unfold entry. rewrite (bm_get_insert cmp TC) by assumption. apply cmp_if. Qed.

  (** *** Counting one variant *)
  Definition cstep := fun (m : list (T * nat)) t => if elide t then m else entry cmp t S 1 m.
  Lemma counts_spec variant : forall m, sorted m -> pos m ->
    sorted (fold_left cstep variant m) /\ pos (fold_left cstep variant m) /\
    forall t, val (fold_left cstep variant m) t = need t variant + val m t.
  Proof.
    induction variant as [|u variant IH]; intros m S P; cbn [fold_left].
    - split; [assumption|]. split; [assumption|]. intros t. unfold SumSpec.need. destruct (elide t); reflexivity.
    - unfold cstep at 2 4 6. destruct (elide u) eqn:Eu.
      + destruct (IH m S P) as (S' & P' & H). split; [assumption|]. split; [assumption|]. intros t. rewrite H.
        unfold SumSpec.need. destruct (elide t) eqn:Et; [reflexivity|]. cbn. destruct (teq u t) as [->|]; [congruence|reflexivity].
      + destruct (IH (entry cmp u Datatypes.S 1 m)) as (S' & P' & H).
        * apply entry_sorted; assumption.
        * apply entry_pos; try assumption; lia.
        * split; [assumption|]. split; [assumption|]. intros t. rewrite H. unfold val, SumSpec.need.
          rewrite entry_get by assumption. cbn. destruct (teq t u) as [->|Hne].
          -- rewrite Eu. destruct (teq u u); [|congruence]. destruct (bm_get cmp u m); lia.
          -- destruct (teq u t); [congruence|reflexivity].
  Qed.

  Lemma counts_of_spec variant : sorted (counts_of cmp elide variant) /\ pos (counts_of cmp elide variant) /\
    forall t, val (counts_of cmp elide variant) t = need t variant.
  Proof.
    destruct (counts_spec variant []) as (S & P & H); [constructor|intros ? ? []|].
    split; [exact S|]. split; [exact P|]. intros t. unfold counts_of. change (fun m t0 => _) with cstep. rewrite H.
    unfold val. cbn. lia.
  Qed.

  (** *** Maximum over the variants *)
  Definition maxl (t : T) (l : list (T * nat)) : nat :=
    fold_right Nat.max 0 (map (fun tc => if teq t (fst tc) then snd tc else 0) l).
  Lemma maxl_app t a b : maxl t (a ++ b) = Nat.max (maxl t a) (maxl t b).
  Proof. unfold maxl. rewrite map_app, fold_right_app. induction (map _ a) as [|x l IH]; cbn; [reflexivity|]. rewrite IH. lia. Qed.
  Lemma maxl_sorted m t : sorted m -> maxl t m = val m t.
  Proof.
    unfold val, maxl. induction m as [|[k c] m IH]; intros S; [reflexivity|]. inversion S as [|? ? S' F]; subst. cbn.
    rewrite IH by assumption. destruct (teq t k) as [->|Hne].
    - rewrite (cmp_refl cmp TC). rewrite (bm_get_lt cmp) by assumption. lia.
    - destruct (cmp t k) eqn:E; [apply (cmp_eq _ TC) in E; contradiction| |reflexivity].
      rewrite (bm_get_lt cmp); [reflexivity|assumption|]. eapply Forall_impl; [|exact F]. intros [k' c']. cbn. intros L.
      eapply (cmp_trans _ TC); eassumption.
  Qed.

  Definition mstep := fun (m : list (T * nat)) tc => entry cmp (fst tc) (fun x => Nat.max (snd tc) x) (snd tc) m.
  Lemma mfold_spec l : forall m, sorted m -> pos m -> pos l ->
    sorted (fold_left mstep l m) /\ pos (fold_left mstep l m) /\
    forall t, val (fold_left mstep l m) t = Nat.max (maxl t l) (val m t).
  Proof.
    induction l as [|[u c] l IH]; intros m S P PL; cbn [fold_left].
    - split; [assumption|]. split; [assumption|]. reflexivity.
    - destruct (IH (mstep m (u, c))) as (S' & P' & H).
      + apply entry_sorted; assumption.
      + apply entry_pos; try assumption; cbn; [|lia]. apply (PL u). cbn. auto.
      + intros t c' Hin. apply (PL t). cbn. auto.
      + split; [assumption|]. split; [assumption|]. intros t. rewrite H. unfold val, mstep, maxl. cbn.
        rewrite entry_get by assumption. destruct (teq t u) as [->|]; [|lia]. destruct (bm_get cmp u m); lia.
  Qed.

  Lemma t_counts_spec variants : let m := t_counts cmp elide variants in
    sorted m /\ pos m /\ forall t, val m t = max_need t variants.
  Proof.
    unfold t_counts. change (fun m tc => _) with mstep.
    destruct (mfold_spec (flat_map (counts_of cmp elide) variants) []) as (S & P & H).
    - constructor.
    - intros ? ? [].
    - intros t c Hin. apply in_flat_map in Hin as (v & _ & Hin). apply (counts_of_spec v) in Hin. assumption.
    - split; [assumption|]. split; [assumption|]. intros t. rewrite H. clear - TC. unfold val at 1. cbn. rewrite Nat.max_0_r.
      induction variants as [|v variants IH]; [reflexivity|]. cbn [flat_map]. rewrite maxl_app, IH.
      destruct (counts_of_spec v) as (S & _ & Hv). rewrite maxl_sorted by assumption. rewrite Hv. reflexivity.
  Qed.

  (** *** Fields and ranges *)
  Lemma count_repeat (a t : T) n : count_occ teq (repeat a n) t = if teq a t then n else 0.
  Proof. induction n; cbn; [destruct (teq a t); reflexivity|]. rewrite IHn. destruct (teq a t); reflexivity. Qed.
  Lemma count_app l1 l2 (t : T) : count_occ teq (l1 ++ l2) t = count_occ teq l1 t + count_occ teq l2 t.
  Proof. induction l1; cbn; [reflexivity|]. rewrite IHl1. destruct (teq a t); reflexivity. Qed.

  Lemma fields_count m t : sorted m -> count_occ teq (fields_of m) t = val m t.
  Proof.
    unfold val. induction m as [|[k c] m IH]; intros S; [reflexivity|]. inversion S as [|? ? S' F]; subst.
    unfold fields_of. cbn [flat_map fst snd]. rewrite count_app, count_repeat. fold (fields_of m). rewrite IH by assumption.
    cbn. destruct (teq k t) as [->|Hne].
    - rewrite (cmp_refl cmp TC), (bm_get_lt cmp) by assumption. lia.
    - destruct (cmp t k) eqn:E; [apply (cmp_eq _ TC) in E; congruence| |reflexivity].
      rewrite (bm_get_lt cmp); [reflexivity|assumption|]. eapply Forall_impl; [|exact F]. intros [k' c']. cbn. intros L.
      eapply (cmp_trans _ TC); eassumption.
  Qed.

  Lemma ranges_get m : forall off t c, bm_get cmp t m = Some c ->
    exists s, bm_get cmp t (ranges m off) = Some (off + s, off + s + c) /\
              forall i, i < c -> nth_error (fields_of m) (s + i) = Some t.
  Proof.
    induction m as [|[k c0] m IH]; intros off t c; cbn; [discriminate|].
    destruct (cmp t k) eqn:E; [|discriminate|].
    - intros [= ->]. apply (cmp_eq _ TC) in E. subst. exists 0. rewrite !Nat.add_0_r. split; [reflexivity|].
      intros i Hi. cbn [plus]. unfold fields_of. cbn [flat_map fst snd].
      rewrite nth_error_app1 by (rewrite repeat_length; assumption). apply nth_error_repeat. assumption.
    - intros G. destruct (IH (off + c0) t c G) as (s & H1 & H2). exists (c0 + s).
      split; [rewrite H1; f_equal; f_equal; lia|]. intros i Hi. unfold fields_of. cbn [flat_map fst snd].
      rewrite nth_error_app2 by (rewrite repeat_length; lia). rewrite repeat_length.
      replace (c0 + s + i - c0) with (s + i) by lia. apply H2. assumption.
  Qed.

  Lemma ranges_sorted m : forall off, sorted m -> sorted (ranges m off).
  Proof.
    induction m as [|[k c0] m IH]; intros off S; cbn; [constructor|]. inversion S as [|? ? S' F]; subst. constructor; [apply IH; assumption|].
    apply Forall_forall. intros [k' r] Hin. cbn. assert (exists c, In (k', c) m) as [c Hc].
    { clear - Hin. revert Hin. generalize (off + c0). induction m as [|[k1 c1] m IH]; cbn; intros o; [intros []|].
      intros [[= <- _]|Hin]; [eauto|]. destruct (IH _ Hin). eauto. }
    rewrite Forall_forall in F. apply (F _ Hc).
  Qed.

  (** *** Assigning slots *)
  Lemma assign_spec variant : forall rs (base rest : T -> nat), sorted rs ->
    (forall t, elide t = false -> In t variant -> bm_get cmp t rs = Some (base t, base t + rest t)) ->
    (forall t, need t variant <= rest t) ->
    exists slots, assign cmp elide rs variant = Some slots /\ length slots = length variant /\
      forall j t, nth_error variant j = Some t ->
        nth_error slots j = Some (if elide t then None else Some (base t + count_occ teq (firstn j variant) t)).
  Proof.
    induction variant as [|u variant IH]; intros rs base rest S Hg Hn; cbn [assign].
    - exists []. split; [reflexivity|]. split; [reflexivity|]. intros [|j] t; discriminate.
    - destruct (elide u) eqn:Eu.
      + destruct (IH rs base rest S) as (slots & E & L & H).
        { intros t Et Hin. apply Hg; cbn; auto. }
        { intros t. specialize (Hn t). unfold SumSpec.need in *. destruct (elide t); [lia|]. cbn in Hn. destruct (teq u t); lia. }
        rewrite E. exists (None :: slots). split; [reflexivity|]. split; [cbn; congruence|].
        intros [|j] t; cbn; [intros [= <-]; rewrite Eu; reflexivity|]. intros Hj. rewrite (H j t Hj).
        destruct (elide t) eqn:Et; [reflexivity|]. destruct (teq u t) as [->|]; [congruence|reflexivity].
      + rewrite (Hg u Eu (or_introl eq_refl)).
        assert (Hu : 1 <= rest u).
        { specialize (Hn u). unfold SumSpec.need in Hn. rewrite Eu in Hn. cbn in Hn. destruct (teq u u); [lia|congruence]. }
        destruct (Nat.ltb_spec (base u) (base u + rest u)); [|lia].
        destruct (IH (bm_insert cmp u (Datatypes.S (base u), base u + rest u) rs)
                     (fun t => if teq t u then Datatypes.S (base u) else base t)
                     (fun t => if teq t u then rest u - 1 else rest t)) as (slots & E & L & H1).
        { apply (bm_insert_sorted cmp TC). assumption. }
        { intros t Et Hin. rewrite (bm_get_insert cmp TC) by assumption. rewrite cmp_if. destruct (teq t u) as [->|].
          - f_equal. f_equal. lia.
          - apply Hg; cbn; auto. }
        { intros t. specialize (Hn t). unfold SumSpec.need in *. destruct (elide t); [lia|]. cbn in Hn.
          destruct (teq u t), (teq t u); try congruence; subst; lia. }
        rewrite E. exists (Some (base u) :: slots). split; [reflexivity|]. split; [cbn; congruence|].
        intros [|j] t; cbn.
        * intros [= <-]. rewrite Eu, Nat.add_0_r. reflexivity.
        * intros Hj. rewrite (H1 j t Hj). destruct (elide t) eqn:Et; [reflexivity|]. f_equal. f_equal.
          destruct (teq t u), (teq u t); try congruence; subst; lia.
  Qed.

  Lemma count_firstn_lt l : forall i j (t : T), i < j -> nth_error l i = Some t ->
    count_occ teq (firstn i l) t < count_occ teq (firstn j l) t.
  Proof.
    induction l as [|a l IH]; intros [|i] [|j] t H; try lia; try discriminate; cbn.
    - intros [= ->]. destruct (teq t t); [lia|congruence].
    - intros Hn. assert (i < j) as Hij by lia. specialize (IH i j t Hij Hn). destruct (teq a t); lia.
  Qed.
  Lemma count_firstn_le l : forall j (t : T), count_occ teq (firstn j l) t <= count_occ teq l t.
  Proof. induction l as [|a l IH]; intros [|j] t; cbn; try lia. specialize (IH j t). destruct (teq a t); lia. Qed.

  Lemma max_need_ge t variants v : In v variants -> need t v <= max_need t variants.
  Proof. unfold SumSpec.max_need. induction variants as [|w variants IH]; [intros []|]. cbn. intros [->|Hin]; [lia|]. specialize (IH Hin). lia. Qed.

  Lemma assign_places variants v : In v variants ->
    exists slots, assign cmp elide (ranges (t_counts cmp elide variants) 0) v = Some slots /\
                  places elide (fields_of (t_counts cmp elide variants)) v slots.
  Proof.
    intros Hin. destruct (t_counts_spec variants) as (S & P & Hv). set (m := t_counts cmp elide variants) in *.
    set (base := fun t => match bm_get cmp t (ranges m 0) with Some (s, _) => s | None => 0 end).
    assert (Hb : forall t, elide t = false -> In t v ->
              bm_get cmp t (ranges m 0) = Some (base t, base t + max_need t variants) /\
              forall i, i < max_need t variants -> nth_error (fields_of m) (base t + i) = Some t).
    { intros t Et Ht. assert (Hpos : 0 < val m t).
      { rewrite Hv. apply Nat.lt_le_trans with (need t v); [|apply max_need_ge; assumption].
        unfold SumSpec.need. rewrite Et. apply count_occ_In. assumption. }
      rewrite <- (Hv t). unfold val in *. destruct (bm_get cmp t m) as [c|] eqn:G; [|lia].
      destruct (ranges_get m 0 t c G) as (s & H1 & H2). cbn [plus] in H1. unfold base. rewrite H1. split; [reflexivity|assumption]. }
    destruct (assign_spec v (ranges m 0) base (fun t => max_need t variants)) as (slots & E & L & H).
    - apply ranges_sorted. assumption.
    - intros t Et Ht. apply Hb; assumption.
    - intros t. apply max_need_ge. assumption.
    - exists slots. split; [assumption|]. split; [assumption|].
      assert (Hslot : forall j t, nth_error v j = Some t -> elide t = false ->
                nth_error (fields_of m) (base t + count_occ teq (firstn j v) t) = Some t).
      { intros j t Hj Et. apply Hb; [assumption|eapply nth_error_In; eassumption|].
        apply Nat.lt_le_trans with (need t v); [|apply max_need_ge; assumption]. unfold SumSpec.need. rewrite Et.
        assert (j < length v) by (apply nth_error_Some; congruence).
        rewrite <- (firstn_all v) at 2. apply count_firstn_lt; assumption. }
      split.
      + intros j t Hj. pose proof (H j t Hj) as Hs. destruct (elide t) eqn:Et; [assumption|]. eauto.
      + intros i j p Hi Hj.
        assert (Hx : forall k, nth_error slots k = Some (Some p) -> exists t, nth_error v k = Some t /\ elide t = false /\ p = base t + count_occ teq (firstn k v) t).
        { intros k Hk. assert (k < length v) as HL by (rewrite <- L; apply nth_error_Some; congruence).
          apply nth_error_Some in HL. destruct (nth_error v k) as [t|] eqn:G; [|congruence]. rewrite (H k t G) in Hk.
          exists t. destruct (elide t); [discriminate|]. injection Hk as <-. auto. }
        destruct (Hx i Hi) as (t & Ht & Et & Ep). destruct (Hx j Hj) as (t' & Ht' & Et' & Ep').
        pose proof (Hslot i t Ht Et) as F1. pose proof (Hslot j t' Ht' Et') as F2. rewrite <- Ep in F1. rewrite <- Ep' in F2.
        assert (t = t') by congruence. subst t'.
        destruct (Nat.lt_trichotomy i j) as [L1|[L1|L1]]; [|assumption|].
        * pose proof (count_firstn_lt v i j t L1 Ht). lia.
        * pose proof (count_firstn_lt v j i t L1 Ht'). lia.
  Qed.

  Lemma all_some_Forall2 {A B} (f : A -> option B) (R : A -> B -> Prop) l :
    (forall a, In a l -> exists b, f a = Some b /\ R a b) -> exists bs, all_some f l = Some bs /\ Forall2 R l bs.
  Proof.
    induction l as [|a l IH]; intros H; cbn; [exists []; auto|].
    destruct (H a (or_introl eq_refl)) as (b & -> & Hb). destruct IH as (bs & -> & Hbs); [intros; apply H; cbn; auto|].
    exists (b :: bs). auto.
  Qed.

  Lemma layout_good variants : exists fields layout,
    layout_variants cmp elide variants = Some (fields, layout) /\ good_layout teq elide variants fields layout.
  Proof.
    destruct (all_some_Forall2 (assign cmp elide (ranges (t_counts cmp elide variants) 0))
                (places elide (fields_of (t_counts cmp elide variants))) variants) as (l & E & F).
    { intros v Hin. apply assign_places. assumption. }
    exists (fields_of (t_counts cmp elide variants)), l. unfold layout_variants. rewrite E.
    split; [reflexivity|]. destruct (t_counts_spec variants) as (S & _ & Hv). split; [assumption|].
    intros t. rewrite fields_count by assumption. apply Hv.
  Qed.
End Layout.

(** ** Tags *)
Lemma tag_fits n k : (k < n)%N -> (k < 2 ^ tag_width n)%N.
Proof.
  intros H. unfold tag_width. destruct (N.eqb_spec n 1) as [->|Hn]; [assert (k = 0)%N by lia; subst; reflexivity|].
  destruct (N.eq_dec (n - 1) 0) as [E|E]; [lia|].
  destruct (N.log2_spec (n - 1)) as [_ L]; [lia|]. rewrite N.add_1_r. lia.
Qed.
Lemma const_int_tag n k : (k < n)%N -> const_int (tag_width n) k = k.
Proof. intros H. apply N.mod_small, tag_fits, H. Qed.

Lemma switch_spec w k : (forall i, (i <= k)%N -> const_int w i = i) -> forall n i,
  i <= N.to_nat k < i + n -> switch_from i w n k = N.to_nat k.
Proof.
  intros Hw. induction n as [|n IH]; intros i H; [lia|]. cbn.
  rewrite Hw by lia. destruct (N.eqb_spec (N.of_nat i) k) as [E|E]; [lia|]. apply IH. lia.
Qed.
Lemma switch_zero w : (2 <= 2 ^ w)%N -> forall n i, (forall j, j < i + n -> const_int w (N.of_nat j) = N.of_nat j) ->
  0 < i -> switch_from i w n 0 = 0.
Proof.
  intros Hw. induction n as [|n IH]; intros i H Hi; [reflexivity|]. cbn. rewrite H by lia.
  destruct (N.eqb_spec (N.of_nat i) 0) as [E|E]; [lia|]. apply IH; [|lia]. intros j Hj. apply H. lia.
Qed.

(** ** Storing and reading *)
Section Sum.
  Context {T V : Type} (cmp : T -> T -> comparison) (TC : total_cmp cmp)
          (teq : forall a b : T, {a = b} + {a <> b}) (elide : T -> bool) (ty : V -> T) (undef : T -> V).

  Lemma set_nth_spec {A} (a : A) : forall i l, i < length l -> exists l', set_nth i a l = Some l' /\ length l' = length l /\
    nth_error l' i = Some a /\ forall j, j <> i -> nth_error l' j = nth_error l j.
  Proof.
    induction i as [|i IH]; intros [|b l] H; cbn in *; try lia.
    - exists (a :: l). repeat split. intros [|j] Hj; [lia|reflexivity].
    - destruct (IH l) as (l' & -> & L & N1 & N2); [lia|]. exists (b :: l'). cbn. repeat split; [congruence|assumption|].
      intros [|j] Hj; cbn; [reflexivity|]. apply N2. lia.
  Qed.

  Lemma insert_all_spec idx : forall (vs : list V) (st : list (option V)), length vs = length idx ->
    (forall p, In (Some p) idx -> p < length st) ->
    (forall i j p, nth_error idx i = Some (Some p) -> nth_error idx j = Some (Some p) -> i = j) ->
    exists st', insert_all idx vs st = Some st' /\ length st' = length st /\
      (forall j p v, nth_error idx j = Some (Some p) -> nth_error vs j = Some v -> nth_error st' p = Some (Some v)) /\
      (forall p, ~ In (Some p) idx -> nth_error st' p = nth_error st p).
  Proof.
    induction idx as [|[p|] idx IH]; intros [|v vs] st HL Hp Hinj; try discriminate; cbn.
    - exists st. repeat split. intros [|j]; discriminate.
    - destruct (set_nth_spec (Some v) p st) as (st1 & -> & L1 & N1 & N2); [apply Hp; cbn; auto|].
      assert (Hnot : ~ In (Some p) idx).
      { intros Hin. apply In_nth_error in Hin as [j Hj]. specialize (Hinj 0 (S j) p eq_refl Hj). discriminate. }
      destruct (IH vs st1) as (st' & E & L & H1 & H2).
      + cbn in HL. lia.
      + intros q Hq. rewrite L1. apply Hp. cbn. auto.
      + intros i j q Hi Hj. specialize (Hinj (S i) (S j) q Hi Hj). lia.
      + exists st'. split; [assumption|]. split; [congruence|]. split.
        * intros [|j] q w; cbn; [intros [= <-] [= <-]; rewrite H2; assumption|apply H1].
        * intros q Hq. rewrite H2 by tauto. apply N2. intros ->. apply Hq. auto.
    - destruct (IH vs st) as (st' & E & L & H1 & H2).
      + cbn in HL. lia.
      + intros q Hq. apply Hp. cbn. auto.
      + intros i j q Hi Hj. specialize (Hinj (S i) (S j) q Hi Hj). lia.
      + exists st'. split; [assumption|]. split; [assumption|]. split.
        * intros [|j] q w; cbn; [discriminate|apply H1].
        * intros q Hq. apply H2. tauto.
  Qed.

  Notation readback := (readback elide undef).

  Lemma extract_all_spec : forall (idx : list (option nat)) (ts : list T) (vs : list V) st,
    length idx = length ts -> length vs = length ts ->
    (forall j t v, nth_error ts j = Some t -> nth_error vs j = Some v ->
       if elide t then nth_error idx j = Some None
       else exists p, nth_error idx j = Some (Some p) /\ nth_error st p = Some (Some v)) ->
    extract_all undef idx ts st = Some (readback ts vs).
  Proof.
    unfold SumSpec.readback. induction idx as [|mb idx IH]; intros [|t ts] [|v vs] st L1 L2 H; try discriminate; [reflexivity|].
    cbn. rewrite (IH ts vs) by (try (cbn in *; lia); intros j t' v'; apply (H (S j))).
    specialize (H 0 t v eq_refl eq_refl). destruct (elide t).
    - cbn in H. injection H as ->. reflexivity.
    - destruct H as (p & [= ->] & ->). reflexivity.
  Qed.

  Lemma types_match_len vs : forall ts, types_match teq ty vs ts = true -> length vs = length ts.
  Proof.
    induction vs as [|v vs IH]; intros [|t ts]; cbn; try discriminate; [reflexivity|].
    intros H. apply andb_true_iff in H as [_ H]. f_equal. auto.
  Qed.

  Lemma store_read fields ts vs idx : places elide fields ts idx -> length vs = length ts ->
    exists st, insert_all idx vs (repeat None (length fields)) = Some st /\ extract_all undef idx ts st = Some (readback ts vs).
  Proof.
    intros (HL & Hp & Hinj) HV.
    destruct (insert_all_spec idx vs (repeat None (length fields))) as (st & E & _ & H1 & _).
    - congruence.
    - intros p Hin. rewrite repeat_length. apply In_nth_error in Hin as [j Hj].
      assert (j < length ts) as Hlt by (rewrite <- HL; apply nth_error_Some; congruence).
      apply nth_error_Some in Hlt. destruct (nth_error ts j) as [t|] eqn:G; [|congruence]. specialize (Hp j t G).
      destruct (elide t); [congruence|]. destruct Hp as (q & Eq & Hq). assert (p = q) by congruence. subst.
      apply nth_error_Some. congruence.
    - assumption.
    - exists st. split; [assumption|]. apply extract_all_spec; [assumption|assumption|].
      intros j t v Ht Hv. specialize (Hp j t Ht). destruct (elide t); [assumption|]. destruct Hp as (p & Hj & _).
      exists p. split; [assumption|]. eapply H1; eassumption.
  Qed.

  Lemma all_elided ts idx : places elide [] ts idx -> forall vs, length vs = length ts -> readback ts vs = map undef ts.
  Proof.
    intros (HL & Hp & _). assert (H : forall t, In t ts -> elide t = true).
    { intros t Hin. apply In_nth_error in Hin as [j Hj]. specialize (Hp j t Hj). destruct (elide t); [reflexivity|].
      destruct Hp as (p & _ & Hp). destruct p; discriminate. }
    clear - H. unfold SumSpec.readback. induction ts as [|t ts IH]; intros [|v vs] L; try discriminate; [reflexivity|]. cbn.
    rewrite (H t (or_introl eq_refl)). f_equal. apply IH; [intros; apply H; cbn; auto|cbn in L; lia].
  Qed.

  Lemma some_positions_In idx : forall k i, In i (some_positions k idx) <-> exists j p, i = k + j /\ nth_error idx j = Some (Some p).
  Proof.
    induction idx as [|[p|] idx IH]; intros k i; cbn.
    - split; [intros []|intros (j & p & _ & H); destruct j; discriminate].
    - rewrite IH. split.
      + intros [<-|(j & q & -> & H)]; [exists 0, p; split; [lia|reflexivity]|exists (S j), q; split; [lia|assumption]].
      + intros ([|j] & q & -> & H); [left; lia|]. right. exists j, q. split; [lia|assumption].
    - rewrite IH. split.
      + intros (j & q & -> & H); exists (S j), q; split; [lia|assumption].
      + intros ([|j] & q & -> & H); [discriminate|]. exists j, q. split; [lia|assumption].
  Qed.
  Lemma some_positions_NoDup idx : forall k, NoDup (some_positions k idx).
  Proof.
    induction idx as [|[p|] idx IH]; intros k; cbn; [constructor| |auto]. constructor; [|auto].
    rewrite some_positions_In. intros (j & q & H & _). lia.
  Qed.

  Lemma single_readback fts i : forall k vs v, length vs = length fts ->
    (forall j t, nth_error fts j = Some t -> (elide t = false <-> i = k + j)) ->
    (forall j, i = k + j -> nth_error vs j = Some v) ->
    single_fields undef k i fts v = readback fts vs.
  Proof.
    unfold SumSpec.readback. induction fts as [|t fts IH]; intros k [|w vs] v HL Hi Hv; try discriminate; [reflexivity|]. cbn.
    rewrite (IH (S k) vs v).
    - f_equal. pose proof (Hi 0 t eq_refl) as H0. destruct (Nat.eqb_spec k i) as [->|Hne].
      + destruct (elide t) eqn:E; [exfalso; destruct H0 as [_ H0]; assert (true = false) by (apply H0; lia); discriminate|].
        specialize (Hv 0). rewrite Nat.add_0_r in Hv. injection (Hv eq_refl) as ->. reflexivity.
      + destruct (elide t) eqn:E; [reflexivity|]. destruct H0 as [H0 _]. specialize (H0 eq_refl). lia.
    - cbn in HL. lia.
    - intros j u Hu. rewrite (Hi (S j) u Hu). split; lia.
    - intros j Hj. apply (Hv (S j)). lia.
  Qed.

  Lemma types_match_nth vs : forall ts j t, types_match teq ty vs ts = true -> nth_error ts j = Some t ->
    exists v, nth_error vs j = Some v /\ ty v = t.
  Proof.
    induction vs as [|v vs IH]; intros [|t ts] j u; cbn; try discriminate.
    - destruct j; discriminate.
    - intros H. apply andb_true_iff in H as [E H]. destruct j as [|j]; cbn; [|apply IH; assumption].
      intros [= <-]. exists v. destruct (teq (ty v) t); [auto|discriminate].
  Qed.

  Definition usable (s : sumty T) (variants : list (list T)) : Prop :=
    num_variants s = length variants /\
    (forall k ts, nth_error variants k = Some ts -> fields_for_variant s k = Some ts) /\
    forall k ts vs, nth_error variants k = Some ts -> types_match teq ty vs ts = true ->
      exists r, build_tag teq ty s k vs = Some r /\ get_tag s r = Some (N.of_nat k) /\
        untag undef s r k = Some (readback ts vs) /\ destructure undef s r = Some (k, readback ts vs).

  Lemma F2_nth {A B} (R : A -> B -> Prop) la : forall lb k a, Forall2 R la lb -> nth_error la k = Some a ->
    exists b, nth_error lb k = Some b /\ R a b.
  Proof.
    induction la as [|x la IH]; intros lb k a H; inversion H; subst; [destruct k; discriminate|].
    destruct k as [|k]; cbn; [intros [= <-]; eauto|]. apply IH; assumption.
  Qed.

  Lemma sum_usable variants : exists s, try_new cmp elide variants = Some s /\ usable s variants.
  Proof.
    destruct variants as [|v0 [|v1 variants]].
    - exists Void. split; [reflexivity|]. split; [reflexivity|]. split; intros [|k]; discriminate.
    - unfold try_new. destruct (layout_good cmp TC teq elide [v0]) as (fields & layout & E & (F & HC)). rewrite E.
      inversion F as [|? idx ? ? HP HF]; subst. inversion HF; subst. clear F HF.
      destruct fields as [|f0 [|f1 fields]].
      + exists (Unit v0). split; [reflexivity|]. split; [reflexivity|].
        split; [intros [|[|k]] ts; try discriminate; intros H; exact H|].
        intros [|[|k]] ts vs; try discriminate. intros [= <-] HT. pose proof (types_match_len _ _ HT) as HL.
        unfold build_tag, destructure, untag. cbn. rewrite HT. exists REmpty. rewrite (all_elided _ _ HP vs HL). auto.
      + assert (HS : exists i, some_positions 0 idx = [i]).
        { pose proof (some_positions_NoDup idx 0) as HN. destruct HP as (HL & Hp & Hinj).
          assert (HI : forall i j, In i (some_positions 0 idx) -> In j (some_positions 0 idx) -> i = j).
          { intros i j Hi Hj. apply some_positions_In in Hi as (i' & p & -> & Hi), Hj as (j' & q & -> & Hj).
            assert (forall k r, nth_error idx k = Some (Some r) -> r = 0) as H0.
            { intros k r Hk. assert (k < length v0) as Hlt by (rewrite <- HL; apply nth_error_Some; congruence).
              apply nth_error_Some in Hlt. destruct (nth_error v0 k) as [t|] eqn:G; [|congruence]. specialize (Hp k t G).
              destruct (elide t); [congruence|]. destruct Hp as (r' & Hr & Hf). assert (r' = r) by congruence. subst.
              destruct r as [|[|r]]; [reflexivity|discriminate|discriminate]. }
            rewrite (H0 _ _ Hi) in Hi. rewrite (H0 _ _ Hj) in Hj. rewrite (Hinj _ _ _ Hi Hj). reflexivity. }
          assert (HE : exists i, In i (some_positions 0 idx)).
          { specialize (HC f0). cbn in HC. destruct (teq f0 f0); [|congruence]. unfold max_need, need in HC. cbn in HC.
            destruct (elide f0) eqn:Ef; [discriminate|]. assert (In f0 v0) as Hin by (apply (count_occ_In teq); lia).
            apply In_nth_error in Hin as [j Hj]. specialize (Hp j f0 Hj). rewrite Ef in Hp. destruct Hp as (p & Hpj & _).
            exists j. apply some_positions_In. exists j, p. auto. }
          destruct HE as [i Hi]. exists i. destruct (some_positions 0 idx) as [|a [|b l]]; [destruct Hi| |].
          - destruct Hi as [<-|[]]. reflexivity.
          - exfalso. inversion HN as [|? ? Hn _]; subst. apply Hn. left. apply HI; cbn; auto. }
        destruct HS as [i Hi]. rewrite Hi. exists (Single v0 i). split; [reflexivity|]. split; [reflexivity|].
        split; [intros [|[|k]] ts; try discriminate; intros H; exact H|].
        intros [|[|k]] ts vs; try discriminate. intros [= <-] HT. pose proof (types_match_len _ _ HT) as HL.
        destruct HP as (HLi & Hp & Hinj).
        assert (Hel : forall j t, nth_error v0 j = Some t -> (elide t = false <-> i = 0 + j)).
        { intros j t Hj. pose proof (Hp j t Hj) as Hpj. pose proof (some_positions_In idx 0 j) as HIn. rewrite Hi in HIn. cbn in HIn. cbn [plus].
          destruct (elide t).
          - split; [discriminate|]. intros ->. destruct HIn as [HIn _]. destruct HIn as (j' & p & <- & Hj'); [auto|]. congruence.
          - split; [|reflexivity]. intros _. destruct Hpj as (p & Hpj & _). destruct HIn as [_ HIn].
            destruct HIn as [HIn|[]]; [exists j, p; auto|exact HIn]. }
        assert (exists t, nth_error v0 i = Some t) as [ti Hti].
        { pose proof (some_positions_In idx 0 i) as HIn. rewrite Hi in HIn. destruct HIn as [HIn _].
          destruct HIn as (j & p & Ej & Hj); [cbn; auto|]. cbn in Ej. subst j.
          assert (i < length v0) as Hlt by (rewrite <- HLi; apply nth_error_Some; congruence).
          apply nth_error_Some in Hlt. destruct (nth_error v0 i) as [t|]; [eauto|congruence]. }
        destruct (types_match_nth vs v0 i ti HT Hti) as (v & Hv & _).
        unfold build_tag, destructure, untag. cbn. rewrite HT, Hv. exists (RVal v). cbn.
        rewrite (single_readback v0 i 0 vs v); auto. intros j Hj. cbn in Hj. subst. assumption.
      + exists (SingleMulti v0 idx (f0 :: f1 :: fields)). split; [reflexivity|]. split; [reflexivity|].
        split; [intros [|[|k]] ts; try discriminate; intros H; exact H|].
        intros [|[|k]] ts vs; try discriminate. intros [= <-] HT. pose proof (types_match_len _ _ HT) as HL.
        destruct (store_read _ _ _ _ HP HL) as (st & E1 & E2). unfold build_tag, destructure, untag.
        cbn [fields_for_variant num_variants get_tag tag_type]. rewrite HT, E1. exists (RStruct st). cbn -[extract_all]. rewrite E2. auto.
    - unfold try_new. set (vts := v0 :: v1 :: variants). assert (Hn : 2 <= length vts) by (cbn; lia).
      destruct (layout_good cmp TC teq elide vts) as (fields & layout & E & (F & HC)). rewrite E.
      assert (Hsw : forall k, k < length vts ->
                switch_from 1 (tag_width (N.of_nat (length vts))) (length vts - 1) (N.of_nat k) = k).
      { intros k Hk. destruct k as [|k].
        - apply switch_zero.
          + change 2%N with (2 ^ 1)%N. apply N.pow_le_mono_r; [lia|]. unfold tag_width.
            destruct (N.eqb_spec (N.of_nat (length vts)) 1); lia.
          + intros j Hj. apply const_int_tag. lia.
          + lia.
        - rewrite switch_spec; [lia| |lia]. intros i Hi. apply const_int_tag. lia. }
      destruct fields as [|f0 fields].
      + exists (NoFields vts (tag_width (N.of_nat (length vts)))). split; [reflexivity|]. split; [reflexivity|].
        split; [intros k ts H; exact H|]. intros k ts vs Hk HT. pose proof (types_match_len _ _ HT) as HL.
        assert (k < length vts) as Hlt by (apply nth_error_Some; congruence).
        destruct (F2_nth _ _ _ _ _ F Hk) as (idx & _ & HP).
        unfold build_tag, destructure, untag. cbn [fields_for_variant num_variants get_tag tag_type]. rewrite Hk, HT.
        destruct (Nat.ltb_spec k (length vts)); [|lia]. cbn [andb]. eexists. split; [reflexivity|].
        rewrite const_int_tag by lia. split; [reflexivity|]. rewrite (all_elided _ _ HP vs HL). split; [reflexivity|].
        replace (length vts) with (S (length vts - 1)) at 1 by lia. cbv zeta.
        rewrite Hsw by assumption. rewrite Hk. destruct (Nat.ltb_spec k (length vts)); [|lia]. reflexivity.
      + exists (Multi vts layout (tag_width (N.of_nat (length vts))) (f0 :: fields)). split; [reflexivity|]. split; [reflexivity|].
        split; [intros k ts H; exact H|]. intros k ts vs Hk HT. pose proof (types_match_len _ _ HT) as HL.
        assert (k < length vts) as Hlt by (apply nth_error_Some; congruence).
        destruct (F2_nth _ _ _ _ _ F Hk) as (idx & Hidx & HP). destruct (store_read _ _ _ _ HP HL) as (st & E1 & E2).
        unfold build_tag, destructure, untag. cbn [fields_for_variant num_variants get_tag tag_type]. rewrite Hk, HT, Hidx, E1.
        destruct (Nat.ltb_spec k (length vts)); [|lia]. cbn [andb option_map]. eexists. split; [reflexivity|].
        rewrite const_int_tag by lia. split; [reflexivity|]. split; [assumption|].
        replace (length vts) with (S (length vts - 1)) at 1 by lia. cbv zeta.
        rewrite Hsw by assumption. rewrite Hk, Hidx, E2. destruct (Nat.ltb_spec k (length vts)); [|lia]. reflexivity.
  Qed.

  Lemma build_tag_types s k vs r : build_tag teq ty s k vs = Some r ->
    k < num_variants s /\ exists ts, fields_for_variant s k = Some ts /\ types_match teq ty vs ts = true.
  Proof.
    unfold build_tag. destruct (fields_for_variant s k) as [ts|]; [|discriminate].
    destruct (Nat.ltb_spec k (num_variants s)); [|discriminate]. destruct (types_match teq ty vs ts) eqn:E; [|discriminate].
    intros _. split; [assumption|]. eauto.
  Qed.
End Sum.
