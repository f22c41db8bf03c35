From Coq Require Import List Bool NArith Arith Sorted Lia.
From Verif Require Import BMap PValModel PValSpec.
Import ListNotations.

Lemma TCN : total_cmp N.compare.
Proof.
  constructor; [apply N.compare_eq_iff|intros; apply N.compare_antisym|].
  intros a b c H1 H2. rewrite N.compare_lt_iff in *. eapply N.lt_trans; eassumption.
Qed.

Lemma Forall2_len {X Y} (R : X -> Y -> Prop) l1 l2 : Forall2 R l1 l2 -> length l1 = length l2.
Proof. induction 1; cbn; congruence. Qed.

Section Proofs.
  Context {V N A : Type}.
  Context (veq : forall a b : V, {a = b} + {a <> b}) (neq : forall a b : N, {a = b} + {a <> b})
          (aeq : forall a b : A, {a = b} + {a <> b}).
  Notation pv := (pv V N A).
  Notation psum := (psum V N A).
  Notation get := (bm_get N.compare).
  Notation insert := (bm_insert N.compare).
  Notation sorted := (bm_sorted N.compare).
  Notation join := (join veq neq).
  Notation meet := (meet veq neq).

  (** ** Induction *)
  Section Ind.
    Context (P : pv -> Prop) (HB : P Bottom) (HT : P Top) (HV : forall v, P (Val v)) (HF : forall n a, P (LF n a))
            (HS : forall m : psum, (forall k r v, In (k, r) m -> In v r -> P v) -> P (PSum m)).
    Fixpoint pv_ind' (x : pv) : P x.
    Proof.
      destruct x as [|n a|v|m|]; [exact HB|apply HF|apply HV| |exact HT].
      apply HS. induction m as [|[k0 r0] m IHm]; intros k r v Hin Hv; [destruct Hin|].
      destruct Hin as [Heq|Hin]; [|exact (IHm k r v Hin Hv)]. injection Heq as _ <-. clear IHm.
      induction r0 as [|w r0 IHr]; [destruct Hv|]. destruct Hv as [<-|Hv]; [apply pv_ind'|exact (IHr Hv)].
    Defined.
  End Ind.

  (** ** Maps *)
  Lemma sorted_ext (m1 m2 : psum) : sorted m1 -> sorted m2 -> (forall k, get k m1 = get k m2) -> m1 = m2.
  Proof.
    revert m2. induction m1 as [|[k1 r1] m1 IH]; intros m2 S1 S2 Hg.
    - destruct m2 as [|[k2 r2] m2]; [reflexivity|]. specialize (Hg k2). cbn in Hg.
      rewrite N.compare_refl in Hg. discriminate.
    - destruct m2 as [|[k2 r2] m2].
      + specialize (Hg k1). cbn in Hg. rewrite N.compare_refl in Hg. discriminate.
      + inversion S1 as [|? ? S1' F1]; inversion S2 as [|? ? S2' F2]; subst.
        assert (k1 = k2).
        { pose proof (Hg k1) as H1. pose proof (Hg k2) as H2. cbn in H1, H2.
          rewrite N.compare_refl in H1, H2.
          destruct (N.compare_spec k1 k2) as [E|L|G]; [assumption|discriminate|].
          rewrite (proj2 (N.compare_lt_iff k2 k1) G) in H2. discriminate. }
        subst k2. pose proof (Hg k1) as H1. cbn in H1. rewrite N.compare_refl in H1. injection H1 as ->.
        f_equal. apply IH; [assumption|assumption|]. intros k. specialize (Hg k). cbn in Hg.
        destruct (N.compare_spec k k1) as [E|L|G]; [subst k| |exact Hg].
        * rewrite !(bm_get_lt N.compare k1) by assumption. reflexivity.
        * assert (forall m : psum, Forall (fun x => N.compare k1 (fst x) = Lt) m -> sorted m -> get k m = None) as Hn.
          { intros m F S. apply bm_get_lt; [assumption|]. eapply Forall_impl; [|exact F]. cbn.
            intros a. rewrite !N.compare_lt_iff. lia. }
          rewrite !Hn; auto.
  Qed.

  Lemma get_In (m : psum) k r : sorted m -> (get k m = Some r <-> In (k, r) m).
  Proof. intros S. apply (bm_get_In N.compare TCN); assumption. Qed.
  Lemma get_insert (m : psum) k r k2 : sorted m ->
    get k2 (insert k r m) = if N.eq_dec k2 k then Some r else get k2 m.
  Proof.
    intros S. rewrite (bm_get_insert N.compare TCN) by assumption.
    destruct (N.compare_spec k2 k) as [->|?|?]; destruct (N.eq_dec _ _); try congruence; lia.
  Qed.
  Lemma get_remove (m : psum) k k2 : sorted m ->
    get k2 (bm_remove N.compare k m) = if N.eq_dec k2 k then None else get k2 m.
  Proof.
    intros S. rewrite (bm_get_remove N.compare TCN) by assumption.
    destruct (N.compare_spec k2 k) as [->|?|?]; destruct (N.eq_dec _ _); try congruence; lia.
  Qed.
  Lemma insert_sorted (m : psum) k r : sorted m -> sorted (insert k r m).
  Proof. apply (bm_insert_sorted N.compare TCN). Qed.

  (** ** The two loops, generically in the element operation *)
  Section Loop.
    Context (op : pv -> pv -> pv * bool).
    Definition op_rows := fix rows (v : list pv) (row : list pv) : list pv * bool :=
      match v, row with
      | rhs :: v', lhs :: row' =>
          let (e, c) := op rhs lhs in
          let (es, c') := rows v' row' in (e :: es, c || c')
      | _, _ => ([], false)
      end.
    Definition join_loop := fix loop (m2 : psum) (acc : psum) (ch : bool) : psum * bool :=
      match m2 with
      | [] => (acc, ch)
      | (k, v) :: m2' =>
          match get k acc with
          | Some row => let (row', c) := op_rows v row in loop m2' (insert k row' acc) (ch || c)
          | None => loop m2' (insert k v acc) true
          end
      end.
    Definition meet_loop := fix loop (m2 : psum) (acc : psum) (ch : bool) (rem : list BinNums.N) : psum * bool * list BinNums.N :=
      match m2 with
      | [] => (acc, ch, rem)
      | (k, v) :: m2' =>
          match get k acc with
          | Some row => let (row', c) := op_rows v row in loop m2' (insert k row' acc) (ch || c) rem
          | None => loop m2' acc ch (rem ++ [k])
          end
      end.

    Lemma op_rows_len v row : length v = length row -> length (fst (op_rows v row)) = length row.
    Proof.
      revert row; induction v as [|b v IH]; intros [|a row]; cbn; try discriminate; [reflexivity|].
      intros H. injection H as H. specialize (IH row H). destruct (op b a), (op_rows v row). cbn in *. congruence.
    Qed.

    Lemma op_rows_nth v row e : In e (fst (op_rows v row)) -> exists b a, In b v /\ In a row /\ e = fst (op b a).
    Proof.
      revert row; induction v as [|b v IH]; intros [|a row]; cbn; try tauto.
      destruct (op b a) as [e0 c0] eqn:E, (op_rows v row) as [es c'] eqn:E2. cbn. intros [<-|H].
      - exists b, a. rewrite E. auto.
      - specialize (IH row). rewrite E2 in IH. destruct (IH H) as (b1 & a1 & H1 & H2 & H3). exists b1, a1. auto.
    Qed.

    Lemma join_loop_sorted m2 : forall acc ch, sorted acc -> sorted (fst (join_loop m2 acc ch)).
    Proof.
      induction m2 as [|[k v] m2 IH]; intros acc ch S; cbn [join_loop fst]; [assumption|].
      destruct (get k acc) as [row|]; [destruct (op_rows v row)|]; apply IH, insert_sorted, S.
    Qed.

    Lemma join_loop_get m2 : forall acc ch, sorted m2 -> sorted acc -> forall k,
      get k (fst (join_loop m2 acc ch)) =
      match get k m2, get k acc with
      | Some v, Some row => Some (fst (op_rows v row))
      | Some v, None => Some v
      | None, o => o
      end.
    Proof.
      induction m2 as [|[k0 v0] m2 IH]; intros acc ch S2 S k; cbn [join_loop fst].
      - cbn. reflexivity.
      - inversion S2 as [|? ? S2' F2]; subst.
        assert (Hnone : get k0 m2 = None) by (apply bm_get_lt; assumption).
        cbn [bm_get].
        assert (Hgt : forall X : option (list pv), get k m2 = X -> N.compare k k0 = Lt -> get k m2 = None).
        { intros X _ L. change (k < k0)%N in L. apply bm_get_lt; [assumption|]. eapply Forall_impl; [|exact F2]. cbn.
          intros a. rewrite !N.compare_lt_iff. lia. }
        destruct (get k0 acc) as [row0|] eqn:G0; [destruct (op_rows v0 row0) as [row' c] eqn:ER|];
          (rewrite IH by (assumption || apply insert_sorted; assumption)); rewrite get_insert by assumption;
          destruct (N.compare_spec k k0) as [->|L|L]; destruct (N.eq_dec _ _); try congruence; try lia.
        + rewrite Hnone, G0, ER. reflexivity.
        + rewrite (Hgt _ eq_refl); [reflexivity|first [reflexivity|exact L]].
        + rewrite Hnone, G0. reflexivity.
        + rewrite (Hgt _ eq_refl); [reflexivity|first [reflexivity|exact L]].
    Qed.

    (** The flag: some common row reports a change, or some key is new. *)
    Lemma join_loop_flag m2 : forall acc ch, sorted m2 -> sorted acc ->
      (snd (join_loop m2 acc ch) = true <->
       ch = true \/ (exists k v row, In (k, v) m2 /\ get k acc = Some row /\ snd (op_rows v row) = true)
                 \/ (exists k v, In (k, v) m2 /\ get k acc = None)).
    Proof.
      induction m2 as [|[k0 v0] m2 IH]; intros acc ch S2 S; cbn [join_loop].
      - cbn. split; [auto|]. intros [H|[(? & ? & ? & [] & _)|(? & ? & [] & _)]]; assumption.
      - inversion S2 as [|? ? S2' F2]; subst.
        assert (Hother : forall k v (row' : list pv), In (k, v) m2 -> get k (insert k0 row' acc) = get k acc).
        { intros k v row' Hin. rewrite get_insert by assumption. destruct (N.eq_dec k k0) as [->|]; [|reflexivity].
          rewrite Forall_forall in F2. specialize (F2 _ Hin). cbn in F2. rewrite N.compare_refl in F2. discriminate. }
        destruct (get k0 acc) as [row0|] eqn:G0.
        + destruct (op_rows v0 row0) as [row' c] eqn:ER. rewrite IH by (assumption || apply insert_sorted; assumption).
          rewrite orb_true_iff. split.
          * intros [[H|H]|[(k & v & row & H1 & H2 & H3)|(k & v & H1 & H2)]].
            -- auto.
            -- right; left. exists k0, v0, row0. rewrite ER. cbn. auto.
            -- rewrite (Hother k v) in H2 by assumption. right; left. exists k, v, row. cbn. auto.
            -- rewrite (Hother k v) in H2 by assumption. right; right. exists k, v. cbn. auto.
          * intros [H|[(k & v & row & [H1|H1] & H2 & H3)|(k & v & [H1|H1] & H2)]].
            -- auto.
            -- injection H1 as <- <-. left. right. rewrite G0 in H2. injection H2 as <-. rewrite ER in H3. assumption.
            -- right; left. exists k, v, row. rewrite (Hother k v) by assumption. auto.
            -- injection H1 as <- <-. congruence.
            -- right; right. exists k, v. rewrite (Hother k v) by assumption. auto.
        + rewrite IH by (assumption || apply insert_sorted; assumption). split; [|auto].
          intros _. right; right. exists k0, v0. cbn. auto.
    Qed.

    Lemma meet_loop_spec m2 : forall acc ch rem, sorted m2 -> sorted acc ->
      exists m ch' rem', meet_loop m2 acc ch rem = (m, ch', rem') /\ sorted m /\
        (forall k, get k m = match get k m2, get k acc with
                             | Some v, Some row => Some (fst (op_rows v row))
                             | _, o => o
                             end) /\
        (forall k, In k rem' <-> In k rem \/ (get k acc = None /\ get k m2 <> None)) /\
        (ch' = true <-> ch = true \/ exists k v row, get k m2 = Some v /\ get k acc = Some row /\ snd (op_rows v row) = true).
    Proof.
      induction m2 as [|[k0 v0] m2 IH]; intros acc ch rem S2 S; cbn [meet_loop].
      - exists acc, ch, rem. split; [reflexivity|]. split; [assumption|]. cbn.
        split; [reflexivity|]. split; [intros k; tauto|].
        split; [auto|]. intros [H|(? & ? & ? & H & _)]; [assumption|discriminate].
      - inversion S2 as [|? ? S2' F2]; subst.
        assert (Hnone : get k0 m2 = None) by (apply bm_get_lt; assumption).
        assert (Hcons : forall k, get k ((k0, v0) :: m2) = if N.eq_dec k k0 then Some v0 else get k m2).
        { intros k. cbn [bm_get]. destruct (N.compare_spec k k0) as [->|L|L]; destruct (N.eq_dec _ _); try congruence; try lia.
          symmetry. apply bm_get_lt; [assumption|]. eapply Forall_impl; [|exact F2]. cbn.
          intros a. rewrite !N.compare_lt_iff. lia. }
        destruct (get k0 acc) as [row0|] eqn:G0.
        + destruct (op_rows v0 row0) as [row' c] eqn:ER.
          destruct (IH (insert k0 row' acc) (ch || c) rem S2' (insert_sorted _ _ _ S)) as (m & ch' & rem' & E & Sm & Hg & Hr & Hc).
          exists m, ch', rem'. split; [exact E|]. split; [assumption|]. split; [|split].
          * intros k. rewrite Hg, Hcons, get_insert by assumption.
            destruct (N.eq_dec k k0) as [->|]; [rewrite Hnone, G0, ER|]; reflexivity.
          * intros k. rewrite Hr, Hcons, get_insert by assumption.
            destruct (N.eq_dec k k0) as [->|]; [rewrite Hnone, G0|tauto].
            split; [intros [?|[? ?]]; auto; discriminate|intros [?|[? ?]]; auto; discriminate].
          * rewrite Hc, orb_true_iff. split.
            -- intros [[H|H]|(k & v & row & H1 & H2 & H3)]; [auto| |].
               ++ right. exists k0, v0, row0. rewrite Hcons. destruct (N.eq_dec k0 k0); [|congruence].
                  rewrite ER. auto.
               ++ rewrite get_insert in H2 by assumption. right. exists k, v, row. rewrite Hcons.
                  destruct (N.eq_dec k k0) as [->|]; [congruence|]. auto.
            -- intros [H|(k & v & row & H1 & H2 & H3)]; [auto|]. rewrite Hcons in H1.
               destruct (N.eq_dec k k0) as [->|Hne].
               ++ injection H1 as <-. rewrite G0 in H2. injection H2 as <-. rewrite ER in H3. cbn in H3. auto.
               ++ right. exists k, v, row. rewrite get_insert by assumption. destruct (N.eq_dec k k0); [congruence|]. auto.
        + destruct (IH acc ch (rem ++ [k0]) S2' S) as (m & ch' & rem' & E & Sm & Hg & Hr & Hc).
          exists m, ch', rem'. split; [exact E|]. split; [assumption|]. split; [|split].
          * intros k. rewrite Hg, Hcons. destruct (N.eq_dec k k0) as [->|]; [rewrite Hnone, G0|]; reflexivity.
          * intros k. rewrite Hr, Hcons, in_app_iff. cbn. destruct (N.eq_dec k k0) as [->|Hne].
            -- split; [intros _; right; split; [assumption|discriminate]|auto].
            -- split; [intros [[?|[?|[]]]|?]; auto; congruence|tauto].
          * rewrite Hc. split; (intros [H|(k & v & row & H1 & H2 & H3)]; [auto|]); right; exists k, v, row.
            -- rewrite Hcons. destruct (N.eq_dec k k0) as [->|]; [congruence|]. auto.
            -- rewrite Hcons in H1. destruct (N.eq_dec k k0) as [->|]; [congruence|]. auto.
    Qed.
  End Loop.

  Lemma join_PSum m1 m2 : join (PSum m2) (PSum m1) =
    if join_conflict m1 m2 then (Top, true)
    else let (m, ch) := join_loop join m2 m1 false in (PSum m, ch).
  Proof. reflexivity. Qed.

  Lemma meet_PSum m1 m2 : meet (PSum m2) (PSum m1) =
    if meet_conflict m1 m2 then (Bottom, true)
    else if length (only_left m1 m2) =? length m1 then (Bottom, true)
    else let '(m, ch, rem) := meet_loop meet m2 m1 false (only_left m1 m2) in
         (PSum (fold_left (fun m k => bm_remove N.compare k m) rem m), match rem with [] => ch | _ => true end).
  Proof. reflexivity. Qed.

  Lemma join_conflict_false (m1 m2 : psum) : join_conflict m1 m2 = false <->
    forall k v row, In (k, v) m2 -> get k m1 = Some row -> length row = length v.
  Proof.
    unfold join_conflict. split.
    - intros H k v row Hin Hg. apply not_true_iff_false in H; rename H into Hx.
      destruct (Nat.eq_dec (length row) (length v)) as [|Hne]; [assumption|]. exfalso. apply Hx.
      apply existsb_exists. exists (k, v). split; [assumption|]. cbn. rewrite Hg.
      apply negb_true_iff, Nat.eqb_neq, Hne.
    - intros H. apply not_true_iff_false. intros Hx. apply existsb_exists in Hx as ([k v] & Hin & Hx).
      cbn in Hx. destruct (get k m1) as [row|] eqn:G; [|discriminate].
      apply negb_true_iff, Nat.eqb_neq in Hx. apply Hx. eapply H; eassumption.
  Qed.

  Lemma join_conflict_true (m1 m2 : psum) : join_conflict m1 m2 = true ->
    exists k v row, In (k, v) m2 /\ get k m1 = Some row /\ length row <> length v.
  Proof.
    intros Hx. apply existsb_exists in Hx as ([k v] & Hin & Hx).
    cbn in Hx. destruct (get k m1) as [row|] eqn:G; [|discriminate].
    apply negb_true_iff, Nat.eqb_neq in Hx. exists k, v, row. auto.
  Qed.

  (** ** Order *)
  Lemma wf_inv m : wf (PSum m : pv) -> m <> [] /\ sorted m /\ forall k r v, In (k, r) m -> In v r -> wf v.
  Proof. inversion 1; subst. auto. Qed.

  Lemma le_sum_inv m1 m2 : le (PSum m1) (PSum m2 : pv) ->
    forall k r1, In (k, r1) m1 -> exists r2, In (k, r2) m2 /\ Forall2 le r1 r2.
  Proof. inversion 1; subst. assumption. Qed.

  Lemma Forall2_refl_in (R : pv -> pv -> Prop) r : (forall v, In v r -> R v v) -> Forall2 R r r.
  Proof. induction r; intros H; constructor; [apply H; left; reflexivity|]. apply IHr. intros; apply H; right; assumption. Qed.

  Lemma le_refl x : le x (x : pv).
  Proof.
    induction x as [| | | |m IH] using pv_ind'; try constructor.
    intros k r Hin. exists r. split; [assumption|]. apply Forall2_refl_in. intros v Hv. eapply IH; eassumption.
  Qed.

  Lemma Forall2_trans_in (r1 : list pv) : forall r2 r3,
    (forall v y z, In v r1 -> le v y -> le y z -> le v z) -> Forall2 le r1 r2 -> Forall2 le r2 r3 -> Forall2 le r1 r3.
  Proof.
    induction r1 as [|a r1 IH]; intros r2 r3 HT H1 H2; inversion H1; subst; inversion H2; subst; constructor.
    - eapply HT; [left; reflexivity|eassumption|assumption].
    - eapply IH; [|eassumption|assumption]. intros; eapply HT; [right|..]; eassumption.
  Qed.

  Lemma le_trans x : forall y z : pv, le x y -> le y z -> le x z.
  Proof.
    induction x as [| |v|n a|m IH] using pv_ind'; intros y z H1 H2.
    - constructor.
    - inversion H1; subst. assumption.
    - inversion H1; subst; [inversion H2; subst; constructor|assumption].
    - inversion H1; subst; [inversion H2; subst; constructor|assumption].
    - inversion H1 as [|x0|v0|n0 a0|m1 m2 Hm]; subst; [inversion H2; subst; constructor|].
      inversion H2 as [|x0|v0|n0 a0|m3 m4 Hm']; subst; [constructor|]. constructor.
      intros k r Hin. destruct (Hm k r Hin) as (r2 & Hin2 & F1). destruct (Hm' k r2 Hin2) as (r3 & Hin3 & F2).
      exists r3. split; [assumption|]. eapply Forall2_trans_in; [|exact F1|exact F2].
      intros v y z Hv. eapply IH; eassumption.
  Qed.

  Lemma Forall2_antisym (r1 : list pv) : forall r2,
    (forall v y, In v r1 -> In y r2 -> le v y -> le y v -> v = y) ->
    Forall2 le r1 r2 -> Forall2 le r2 r1 -> r1 = r2.
  Proof.
    induction r1 as [|a r1 IH]; intros r2 HA H1 H2; inversion H1; subst; [reflexivity|]. inversion H2; subst.
    f_equal; [apply HA; cbn; auto|]. apply IH; [|assumption|assumption]. intros; apply HA; cbn; auto.
  Qed.

  Lemma le_antisym x : forall y : pv, wf x -> wf y -> le x y -> le y x -> x = y.
  Proof.
    induction x as [| |v|n a|m IH] using pv_ind'; intros y W1 W2 H1 H2;
      try (inversion H1; subst; inversion H2; subst; reflexivity).
    inversion H1 as [|x0|v0|n0 a0|m1 m2 Hm]; subst; [inversion H2; reflexivity|].
    pose proof (le_sum_inv _ _ H2) as Hm'. apply wf_inv in W1 as (_ & S1 & Wi1). apply wf_inv in W2 as (_ & S2 & Wi2).
    assert (Heq : forall k r1 r2, In (k, r1) m -> In (k, r2) m2 -> r1 = r2).
    { intros k r1 r2 I1 I2. destruct (Hm k r1 I1) as (r2' & I2' & F1). destruct (Hm' k r2 I2) as (r1' & I1' & F2).
      apply (get_In _ _ _ S2) in I2, I2'. rewrite I2 in I2'. injection I2' as <-.
      apply (get_In _ _ _ S1) in I1', I1. rewrite I1 in I1'. injection I1' as <-.
      apply (get_In _ _ _ S1) in I1. apply (get_In _ _ _ S2) in I2.
      eapply Forall2_antisym; [|exact F1|exact F2]. intros v y Hv Hy L1 L2.
      eapply IH; try eassumption; eauto. }
    f_equal. apply sorted_ext; [assumption|assumption|]. intros k.
    destruct (get k m) as [r1|] eqn:G1.
    - apply (get_In _ _ _ S1) in G1. destruct (Hm k r1 G1) as (r2 & I2 & _).
      rewrite (Heq k r1 r2 G1 I2). symmetry. apply (get_In _ _ _ S2). assumption.
    - destruct (get k m2) as [r2|] eqn:G2; [|reflexivity]. apply (get_In _ _ _ S2) in G2.
      destruct (Hm' k r2 G2) as (r1 & I1 & _). apply (get_In _ _ _ S1) in I1. congruence.
  Qed.

  (** ** Join *)
  Definition jn (x y : pv) : pv := fst (join y x).

  Lemma rows_bounds op (P : pv -> pv -> pv -> Prop) v : forall row,
    length v = length row -> (forall b a, In b v -> In a row -> P b a (fst (op b a))) ->
    Forall2 (fun (ba : pv * pv) e => P (fst ba) (snd ba) e) (combine v row) (fst (op_rows op v row)).
  Proof.
    induction v as [|b v IH]; intros [|a row] HL HP; cbn in *; try discriminate; [constructor|].
    injection HL as HL. specialize (IH row HL). pose proof (HP b a (or_introl eq_refl) (or_introl eq_refl)) as H0.
    destruct (op b a) as [e c], (op_rows op v row) as [es c']. cbn in *. constructor; [exact H0|].
    apply IH. intros; apply HP; auto.
  Qed.

  Lemma F2_combine_l (R : pv -> pv -> Prop) (v : list pv) : forall (row es : list pv), length v = length row ->
    Forall2 (fun (ba : pv * pv) e => R (fst ba) e) (combine v row) es -> Forall2 R v es.
  Proof.
    induction v as [|b v IH]; intros [|a row] es HL H; cbn in *; try discriminate; inversion H; subst; constructor; cbn in *; eauto.
  Qed.
  Lemma F2_combine_r (R : pv -> pv -> Prop) (v : list pv) : forall (row es : list pv), length v = length row ->
    Forall2 (fun (ba : pv * pv) e => R (snd ba) e) (combine v row) es -> Forall2 R row es.
  Proof.
    induction v as [|b v IH]; intros [|a row] es HL H; cbn in *; try discriminate; inversion H; subst; constructor; cbn in *; eauto.
  Qed.

  Lemma F2_lub (v : list pv) : forall (row es z : list pv), length v = length row ->
    Forall2 (fun (ba : pv * pv) e => forall z, wf z -> le (snd ba) z -> le (fst ba) z -> le e z) (combine v row) es ->
    (forall x, In x z -> wf x) -> Forall2 le row z -> Forall2 le v z -> Forall2 le es z.
  Proof.
    induction v as [|b v IH]; intros [|a row] es z HL H W H1 H2; cbn in *; try discriminate; inversion H; subst;
      inversion H1; subst; inversion H2; subst; constructor; cbn in *; eauto.
  Qed.

  Ltac flagt := split; intros; try reflexivity; try discriminate; try congruence.
  Ltac lubt := split; [constructor|split; [constructor|
    let z := fresh in let H1 := fresh in let H2 := fresh in
    intros z _ H1 H2; inversion H1; subst; inversion H2; subst; first [constructor|congruence]]].

  (** Everything about [join] at once: result well-formed, flag exact, least upper bound. *)
  Lemma join_facts (f : N -> A) y : forall x, wf x -> wf y -> args_by_node f x -> args_by_node f y ->
    wf (jn x y) /\ args_by_node f (jn x y) /\ is_lub x y (jn x y) /\
    (snd (join y x) = false <-> jn x y = x).
  Proof.
    unfold jn. induction y as [| |v|n a|m2 IH] using pv_ind'; intros x Wx Wy Ax Ay.
    - (* Bottom *)
      assert (E : join Bottom x = (x, false)) by (destruct x; reflexivity). rewrite E. cbn.
      split; [assumption|]. split; [assumption|]. split; [|flagt].
      split; [apply le_refl|]. split; [constructor|]. auto.
    - (* Top *)
      destruct x; cbn; (split; [constructor|]; split; [constructor|]; split; [split; [constructor|split; [constructor|auto]]|flagt]).
    - (* Val *)
      destruct x as [|n' a'|v'|m'|]; cbn; try (destruct (veq v' v) as [->|Hne]; cbn);
        (split; [constructor|]; split; [constructor|]; split; [|flagt]); try lubt.
    - (* LF *)
      destruct x as [|n' a'|v'|m'|]; cbn; try (destruct (neq n' n) as [->|Hne]; cbn);
        (split; [constructor|]; split; [first [constructor|assumption]|]; split; [|flagt]); try lubt.
      inversion Ax; inversion Ay; subst. lubt.
    - (* PSum *)
      destruct x as [|n' a'|v'|m1|].
      + cbn. split; [assumption|]. split; [assumption|]. split; [|flagt].
        split; [constructor|]. split; [apply le_refl|]. auto.
      + cbn. split; [constructor|]. split; [constructor|]. split; [lubt|flagt].
      + cbn. split; [constructor|]. split; [constructor|]. split; [lubt|flagt].
      + pose proof (wf_inv _ Wx) as (N1 & S1 & Wi1). pose proof (wf_inv _ Wy) as (N2 & S2 & Wi2).
        rewrite join_PSum. destruct (join_conflict m1 m2) eqn:C.
        * cbn. split; [constructor|]. split; [constructor|]. split; [|flagt].
          split; [constructor|]. split; [constructor|]. intros z Wz H1 H2.
          apply join_conflict_true in C as (k & v & row & Hin & Hg & Hlen).
          inversion H1 as [|x0|v0|n0 a0|m3 m4 Hm]; subst; [constructor|].
          pose proof (le_sum_inv _ _ H2) as Hm2. apply (get_In _ _ _ S1) in Hg.
          destruct (Hm k row Hg) as (r & Hr & F). destruct (Hm2 k v Hin) as (r' & Hr' & F').
          apply wf_inv in Wz as (_ & S4 & _). apply (get_In _ _ _ S4) in Hr, Hr'. rewrite Hr in Hr'. injection Hr' as <-.
          apply Forall2_len in F, F'. congruence.
        * rewrite join_conflict_false in C.
          pose proof (join_loop_sorted join m2 m1 false S1) as Sm.
          pose proof (join_loop_get join m2 m1 false S2 S1) as Hget.
          pose proof (join_loop_flag join m2 m1 false S2 S1) as Hflag.
          destruct (join_loop join m2 m1 false) as [m ch]. cbn [fst snd] in *.
          assert (Aix : forall k r v, In (k, r) m1 -> In v r -> args_by_node f v) by (inversion Ax; assumption).
          assert (Aiy : forall k r v, In (k, r) m2 -> In v r -> args_by_node f v) by (inversion Ay; assumption).
          (* element facts for a common key *)
          assert (Hel : forall k v row, get k m2 = Some v -> get k m1 = Some row -> length v = length row /\
                    forall b a, In b v -> In a row ->
                      wf (fst (join b a)) /\ args_by_node f (fst (join b a)) /\ is_lub a b (fst (join b a)) /\
                      (snd (join b a) = false <-> fst (join b a) = a)).
          { intros k v row G2 G1. pose proof G2 as I2. pose proof G1 as I1.
            apply (get_In _ _ _ S2) in I2. apply (get_In _ _ _ S1) in I1.
            split; [symmetry; eapply C; eassumption|]. intros b a Hb Ha. eapply IH; eauto. }
          split; [|split; [|split]].
          -- constructor; [|assumption|].
             ++ intros ->. destruct m2 as [|[k v] m2]; [congruence|]. specialize (Hget k).
                cbn in Hget. rewrite N.compare_refl in Hget. destruct (get k m1); discriminate.
             ++ intros k r v Hin Hv. apply (get_In _ _ _ Sm) in Hin. rewrite Hget in Hin.
                destruct (get k m2) as [v2|] eqn:G2, (get k m1) as [row|] eqn:G1; try discriminate; injection Hin as <-.
                ** destruct (Hel k v2 row G2 G1) as [_ He]. apply op_rows_nth in Hv as (b & a & Hb & Ha & ->).
                   apply (He b a Hb Ha).
                ** apply (get_In _ _ _ S2) in G2. eauto.
                ** apply (get_In _ _ _ S1) in G1. eauto.
          -- constructor. intros k r v Hin Hv. apply (get_In _ _ _ Sm) in Hin. rewrite Hget in Hin.
             destruct (get k m2) as [v2|] eqn:G2, (get k m1) as [row|] eqn:G1; try discriminate; injection Hin as <-.
             ** destruct (Hel k v2 row G2 G1) as [_ He]. apply op_rows_nth in Hv as (b & a & Hb & Ha & ->).
                apply (He b a Hb Ha).
             ** apply (get_In _ _ _ S2) in G2. eauto.
             ** apply (get_In _ _ _ S1) in G1. eauto.
          -- split; [|split].
             ++ constructor. intros k r1 I1. apply (get_In _ _ _ S1) in I1. specialize (Hget k). rewrite I1 in Hget.
                destruct (get k m2) as [v2|] eqn:G2.
                ** exists (fst (op_rows join v2 r1)). split; [apply (get_In _ _ _ Sm); assumption|].
                   destruct (Hel k v2 r1 G2 I1) as [HL He].
                   eapply F2_combine_r; [exact HL|]. apply (rows_bounds join (fun b a e => le a e)); [exact HL|].
                   intros b a Hb Ha. apply (He b a Hb Ha).
                ** exists r1. split; [apply (get_In _ _ _ Sm); assumption|]. apply Forall2_refl_in. intros; apply le_refl.
             ++ constructor. intros k r2 I2. apply (get_In _ _ _ S2) in I2. specialize (Hget k). rewrite I2 in Hget.
                destruct (get k m1) as [row|] eqn:G1.
                ** exists (fst (op_rows join r2 row)). split; [apply (get_In _ _ _ Sm); assumption|].
                   destruct (Hel k r2 row I2 G1) as [HL He].
                   eapply F2_combine_l; [exact HL|]. apply (rows_bounds join (fun b a e => le b e)); [exact HL|].
                   intros b a Hb Ha. apply (He b a Hb Ha).
                ** exists r2. split; [apply (get_In _ _ _ Sm); assumption|]. apply Forall2_refl_in. intros; apply le_refl.
             ++ intros z Wz H1 H2. inversion H1 as [|x0|v0|n0 a0|m3 m4 Hm1]; subst; [constructor|].
                pose proof (le_sum_inv _ _ H2) as Hm2. apply wf_inv in Wz as (_ & S4 & Wi4). constructor.
                intros k r Hin. apply (get_In _ _ _ Sm) in Hin. rewrite Hget in Hin.
                destruct (get k m2) as [v2|] eqn:G2, (get k m1) as [row|] eqn:G1; try discriminate; injection Hin as <-.
                ** destruct (Hel k v2 row G2 G1) as [HL He].
                   apply (get_In _ _ _ S2) in G2. apply (get_In _ _ _ S1) in G1.
                   destruct (Hm1 k row G1) as (z1 & Hz1 & F1). destruct (Hm2 k v2 G2) as (z2 & Hz2 & F2).
                   apply (get_In _ _ _ S4) in Hz2. pose proof Hz1 as Hz1'. apply (get_In _ _ _ S4) in Hz1'.
                   rewrite Hz1' in Hz2. injection Hz2 as <-. exists z1. split; [assumption|].
                   eapply F2_lub; [exact HL| | |exact F1|exact F2].
                   --- apply (rows_bounds join (fun b a e => forall z, wf z -> le a z -> le b z -> le e z)); [exact HL|].
                       intros b a Hb Ha. apply (He b a Hb Ha).
                   --- intros x Hx. eauto.
                ** apply (get_In _ _ _ S2) in G2. exact (Hm2 k _ G2).
                ** apply (get_In _ _ _ S1) in G1. exact (Hm1 k _ G1).
          -- assert (Hrow : forall v row, length v = length row ->
                 (forall b a, In b v -> In a row -> (snd (join b a) = false <-> fst (join b a) = a)) ->
                 (snd (op_rows join v row) = false <-> fst (op_rows join v row) = row)).
             { induction v as [|b v IHv]; intros [|a row] HL He; cbn in *; try discriminate; [tauto|].
               injection HL as HL. specialize (IHv row HL).
               pose proof (He b a (or_introl eq_refl) (or_introl eq_refl)) as H0.
               destruct (join b a) as [e c], (op_rows join v row) as [es c']. cbn in *.
               rewrite orb_false_iff, H0, IHv; [|intros; apply He; auto].
               split; [intros [-> ->]; reflexivity|intros E; injection E; auto]. }
             split.
             ++ intros Hch. f_equal. apply sorted_ext; [assumption|assumption|]. intros k. rewrite Hget.
                destruct (get k m2) as [v2|] eqn:G2; [|reflexivity].
                destruct (get k m1) as [row|] eqn:G1.
                ** f_equal. destruct (Hel k v2 row G2 G1) as [HL He]. apply Hrow; [assumption| |].
                   { intros b a Hb Ha. apply (He b a Hb Ha). }
                   destruct (snd (op_rows join v2 row)) eqn:Ef; [|reflexivity]. exfalso.
                   assert (ch = true); [|congruence]. apply Hflag. right; left. exists k, v2, row.
                   split; [apply (get_In _ _ _ S2); assumption|auto].
                ** exfalso. assert (ch = true); [|congruence]. apply Hflag. right; right. exists k, v2.
                   split; [apply (get_In _ _ _ S2); assumption|auto].
             ++ intros E. injection E as ->. destruct ch; [|reflexivity]. exfalso.
                destruct (proj1 Hflag eq_refl) as [H|[(k & v & row & Hin & G1 & Hf)|(k & v & Hin & G1)]]; [discriminate| |];
                  apply (get_In _ _ _ S2) in Hin; specialize (Hget k); rewrite G1, Hin in Hget; [|discriminate].
                injection Hget as Hget. destruct (Hel k v row Hin G1) as [HL He].
                assert (snd (op_rows join v row) = false); [|congruence]. apply Hrow; auto.
                intros b a Hb Ha. apply (He b a Hb Ha).
      + cbn. split; [constructor|]. split; [constructor|]. split; [|flagt].
        split; [constructor|]. split; [constructor|]. auto.
  Qed.

  (** ** Meet *)
  Definition mt (x y : pv) : pv := fst (meet y x).

  Lemma fold_remove_get rem : forall (m : psum), sorted m ->
    sorted (fold_left (fun m k => bm_remove N.compare k m) rem m) /\
    forall k, get k (fold_left (fun m k => bm_remove N.compare k m) rem m) = if in_dec N.eq_dec k rem then None else get k m.
  Proof.
    induction rem as [|k0 rem IH]; intros m S; cbn [fold_left]; [auto|].
    destruct (IH _ (bm_remove_sorted N.compare k0 m S)) as [S' Hg]. split; [assumption|].
    intros k. rewrite Hg, get_remove by assumption.
    destruct (in_dec N.eq_dec k rem) as [J|J], (in_dec N.eq_dec k (k0 :: rem)) as [I|I], (N.eq_dec k k0) as [E|E]; try reflexivity;
      exfalso; cbn in I; firstorder congruence.
  Qed.

  Lemma only_left_In (m1 m2 : psum) k : sorted m1 ->
    (In k (only_left m1 m2) <-> get k m1 <> None /\ get k m2 = None).
  Proof.
    intros S. unfold only_left. rewrite filter_In, in_map_iff. split.
    - intros [([k' r] & <- & Hin) H]. apply (get_In _ _ _ S) in Hin. cbn in *.
      destruct (get k' m2); [discriminate|]. split; congruence.
    - intros [H1 H2]. rewrite H2. split; [|reflexivity]. destruct (get k m1) as [r|] eqn:G; [|congruence].
      apply (get_In _ _ _ S) in G. exists (k, r). auto.
  Qed.

  Lemma filter_full {X} (p : X -> bool) l : length (filter p l) = length l -> forall x, In x l -> p x = true.
  Proof.
    induction l as [|a l IH]; cbn; [intros _ x []|]. intros H x Hin.
    assert (HL : length (filter p l) <= length l).
    { clear. induction l as [|b l IH]; cbn; [lia|]. destruct (p b); cbn; lia. }
    destruct (p a) eqn:E; cbn in H; [|lia]. destruct Hin as [<-|Hin]; [assumption|]. apply IH; [lia|assumption].
  Qed.
  Lemma filter_all {X} (p : X -> bool) l : (forall x, In x l -> p x = true) -> length (filter p l) = length l.
  Proof.
    induction l as [|a l IH]; cbn; [reflexivity|]. intros H. rewrite (H a (or_introl eq_refl)). cbn.
    rewrite IH; [reflexivity|]. intros; apply H; auto.
  Qed.

  Lemma disjoint_spec (m1 m2 : psum) : sorted m1 ->
    (length (only_left m1 m2) =? length m1 = true <-> forall k, get k m1 <> None -> get k m2 = None).
  Proof.
    intros S. rewrite Nat.eqb_eq. unfold only_left. rewrite <- (map_length fst m1). split.
    - intros H k Hk. destruct (get k m1) as [r|] eqn:G; [|congruence]. apply (get_In _ _ _ S) in G.
      assert (Hin : In k (map fst m1)) by (apply in_map_iff; exists (k, r); auto).
      pose proof (filter_full _ _ H k Hin) as Hf. cbn in Hf. destruct (get k m2); [discriminate|reflexivity].
    - intros H. apply filter_all. intros k Hin. apply in_map_iff in Hin as ([k' r] & <- & Hin). cbn.
      rewrite H; [reflexivity|]. apply (get_In _ _ _ S) in Hin. congruence.
  Qed.

  Lemma meet_conflict_false (m1 m2 : psum) : sorted m1 ->
    (forall k v row, get k m2 = Some v -> get k m1 = Some row -> length row = length v) ->
    meet_conflict m1 m2 = false.
  Proof.
    intros S H. apply not_true_iff_false. intros Hx. apply existsb_exists in Hx as ([k r] & Hin & Hx). cbn in Hx.
    destruct (get k m2) as [v|] eqn:G; [|discriminate]. apply negb_true_iff, Nat.eqb_neq in Hx. apply Hx.
    eapply H; [eassumption|]. apply (get_In _ _ _ S). assumption.
  Qed.

  Lemma F2_glb (v : list pv) : forall (row es z : list pv), length v = length row ->
    Forall2 (fun (ba : pv * pv) e => forall z, wf z -> le z (snd ba) -> le z (fst ba) -> le z e) (combine v row) es ->
    (forall x, In x z -> wf x) -> Forall2 le z row -> Forall2 le z v -> Forall2 le z es.
  Proof.
    induction v as [|b v IH]; intros [|a row] es z HL H W H1 H2; cbn in *; try discriminate; inversion H; subst;
      inversion H1; subst; inversion H2; subst; constructor; cbn in *; eauto.
  Qed.

  Lemma F2_combine_l' (R : pv -> pv -> Prop) (v : list pv) : forall (row es : list pv), length v = length row ->
    Forall2 (fun (ba : pv * pv) e => R e (fst ba)) (combine v row) es -> Forall2 R es v.
  Proof.
    induction v as [|b v IH]; intros [|a row] es HL H; cbn in *; try discriminate; inversion H; subst; constructor; cbn in *; eauto.
  Qed.
  Lemma F2_combine_r' (R : pv -> pv -> Prop) (v : list pv) : forall (row es : list pv), length v = length row ->
    Forall2 (fun (ba : pv * pv) e => R e (snd ba)) (combine v row) es -> Forall2 R es row.
  Proof.
    induction v as [|b v IH]; intros [|a row] es HL H; cbn in *; try discriminate; inversion H; subst; constructor; cbn in *; eauto.
  Qed.

  Lemma rows_typed op ts : forall (v row : list pv), Forall2 typed ts v -> Forall2 typed ts row ->
    (forall t b a, In b v -> In a row -> typed t b -> typed t a -> typed t (fst (op b a))) ->
    Forall2 typed ts (fst (op_rows op v row)).
  Proof.
    induction ts as [|t ts IH]; intros v row H1 H2 HP; inversion H1; subst; inversion H2; subst; cbn; [constructor|].
    match goal with |- context [op ?b ?a] => pose proof (HP t b a (or_introl eq_refl) (or_introl eq_refl)) as H0 end.
    specialize (IH l' l'0). destruct (op y y0) as [e c], (op_rows op l' l'0) as [es c']. cbn in *.
    constructor; [auto|]. apply IH; auto.
  Qed.

  Ltac glbt := split; [constructor|split; [constructor|
    let z := fresh in let H1 := fresh in let H2 := fresh in
    intros z _ H1 H2; inversion H1; subst; inversion H2; subst; first [constructor|congruence]]].

  Definition typed_pair (x y : pv) : Prop := exists t, typed t x /\ typed t y.

  Lemma meet_facts (f : N -> A) y : forall x t, wf x -> wf y -> args_by_node f x -> args_by_node f y ->
    typed t x -> typed t y ->
    wf (mt x y) /\ args_by_node f (mt x y) /\ typed t (mt x y) /\ is_glb x y (mt x y) /\
    (snd (meet y x) = false -> mt x y = x).
  Proof.
    unfold mt. induction y as [| |v|n a|m2 IH] using pv_ind'; intros x t Wx Wy Ax Ay Tx Ty.
    - (* Bottom *)
      destruct x; cbn; (split; [constructor|]; split; [constructor|]; split; [constructor|]; split; [|intros; congruence]);
        (split; [constructor|split; [constructor|auto]]).
    - (* Top *)
      assert (E : meet Top x = (x, false)) by (destruct x; reflexivity). rewrite E. cbn.
      split; [assumption|]. split; [assumption|]. split; [assumption|]. split; [|auto].
      split; [apply le_refl|]. split; [constructor|]. auto.
    - (* Val *)
      destruct x as [|n' a'|v'|m'|]; cbn; try (destruct (veq v' v) as [->|Hne]; cbn);
        (split; [constructor|]; split; [constructor|]; split; [first [constructor|assumption]|]; split; [|intros; congruence]);
        glbt.
    - (* LF *)
      destruct x as [|n' a'|v'|m'|]; cbn; try (destruct (neq n' n) as [->|Hne]; cbn);
        (split; [constructor|]; split; [first [constructor|assumption]|]; split; [first [constructor|assumption]|]; split; [|intros; congruence]);
        try glbt.
      inversion Ax; inversion Ay; subst. glbt.
    - (* PSum *)
      destruct x as [|n' a'|v'|m1|].
      + cbn. split; [constructor|]. split; [constructor|]. split; [constructor|]. split; [|auto].
        split; [constructor|split; [constructor|auto]].
      + inversion Tx; subst; inversion Ty.
      + inversion Tx; subst; inversion Ty.
      + pose proof (wf_inv _ Wx) as (N1 & S1 & Wi1). pose proof (wf_inv _ Wy) as (N2 & S2 & Wi2).
        inversion Tx as [| | | |rows mx Htx]; subst. inversion Ty as [| | | |rows' my Hty]; subst.
        assert (Aix : forall k r v, In (k, r) m1 -> In v r -> args_by_node f v) by (inversion Ax; assumption).
        assert (Aiy : forall k r v, In (k, r) m2 -> In v r -> args_by_node f v) by (inversion Ay; assumption).
        assert (Hts : forall k v row, get k m2 = Some v -> get k m1 = Some row ->
                  exists ts, nth_error rows (N.to_nat k) = Some ts /\ Forall2 typed ts row /\ Forall2 typed ts v).
        { intros k v row G2 G1. apply (get_In _ _ _ S2) in G2. apply (get_In _ _ _ S1) in G1.
          destruct (Htx _ _ G1) as (ts & E1 & F1). destruct (Hty _ _ G2) as (ts' & E2 & F2).
          rewrite E1 in E2. injection E2 as <-. eauto. }
        assert (Hlen : forall k v row, get k m2 = Some v -> get k m1 = Some row -> length row = length v).
        { intros k v row G2 G1. destruct (Hts k v row G2 G1) as (ts & _ & F1 & F2).
          apply Forall2_len in F1, F2. congruence. }
        rewrite meet_PSum, (meet_conflict_false m1 m2 S1 Hlen).
        pose proof (disjoint_spec m1 m2 S1) as Hdis.
        destruct (length (only_left m1 m2) =? length m1).
        * cbn. split; [constructor|]. split; [constructor|]. split; [constructor|]. split; [|discriminate].
          split; [constructor|]. split; [constructor|]. intros z Wz H1 H2.
          inversion H1 as [|x0|v0|n0 a0|m3 m4 Hm]; subst; [constructor|]. exfalso.
          pose proof (le_sum_inv _ _ H2) as Hm2. apply wf_inv in Wz as (Nz & Sz & _).
          destruct m3 as [|[k r] m3]; [congruence|].
          destruct (Hm k r (or_introl eq_refl)) as (r1 & I1 & _). destruct (Hm2 k r (or_introl eq_refl)) as (r2 & I2 & _).
          apply (get_In _ _ _ S1) in I1. apply (get_In _ _ _ S2) in I2.
          rewrite (proj1 Hdis eq_refl k) in I2; congruence.
        * destruct (meet_loop_spec meet m2 m1 false (only_left m1 m2) S2 S1) as (m0 & ch & rem & E & S0 & Hg0 & Hr & Hc).
          rewrite E. cbn [fst snd].
          destruct (fold_remove_get rem m0 S0) as [Sm Hgm].
          set (m := fold_left (fun m k => bm_remove N.compare k m) rem m0) in *.
          assert (Hget : forall k, get k m = match get k m2, get k m1 with
                    | Some v, Some row => Some (fst (op_rows meet v row)) | _, _ => None end).
          { intros k. rewrite Hgm. destruct (in_dec N.eq_dec k rem) as [I|I].
            - apply Hr in I. rewrite only_left_In in I by assumption.
              destruct I as [[_ ->]|[-> _]]; [reflexivity|]. destruct (get k m2); reflexivity.
            - rewrite Hg0. destruct (get k m2) as [v|] eqn:G2.
              + destruct (get k m1) as [row|] eqn:G1; reflexivity.
              + destruct (get k m1) as [row|] eqn:G1; [|reflexivity]. exfalso. apply I, Hr. left.
                apply only_left_In; [assumption|]. split; congruence. }
          assert (Hel : forall k v row, get k m2 = Some v -> get k m1 = Some row ->
                    forall b a t, In b v -> In a row -> typed t a -> typed t b ->
                      wf (fst (meet b a)) /\ args_by_node f (fst (meet b a)) /\ typed t (fst (meet b a)) /\
                      is_glb a b (fst (meet b a)) /\ (snd (meet b a) = false -> fst (meet b a) = a)).
          { intros k v row G2 G1 b a t Hb Ha Ta Tb. apply (get_In _ _ _ S2) in G2. apply (get_In _ _ _ S1) in G1.
            eapply IH; eauto. }
          (* elementwise over a common row, types supplied by the row *)
          assert (Hrows : forall k v row (P : pv -> pv -> pv -> Prop), get k m2 = Some v -> get k m1 = Some row ->
                    (forall b a t, In b v -> In a row -> typed t a -> typed t b -> P b a (fst (meet b a))) ->
                    Forall2 (fun (ba : pv * pv) e => P (fst ba) (snd ba) e) (combine v row) (fst (op_rows meet v row))).
          { intros k v row P G2 G1 HP. destruct (Hts k v row G2 G1) as (ts & _ & F1 & F2). clear - F1 F2 HP.
            revert v row F1 F2 HP. induction ts as [|t ts IHts]; intros v row F1 F2 HP; inversion F1; subst; inversion F2; subst; [constructor|].
            cbn. match goal with |- context [meet ?b ?a] => pose proof (HP b a t (or_introl eq_refl) (or_introl eq_refl)) as H0 end.
            specialize (IHts l'0 l'). destruct (meet y0 y) as [e c], (op_rows meet l'0 l') as [es c']. cbn in *.
            constructor; [cbn; auto|]. apply IHts; try assumption. intros; eapply HP; eauto. }
          assert (Hne : exists k v row, get k m2 = Some v /\ get k m1 = Some row).
          { destruct (existsb (fun kr => match get (fst kr) m2 with Some _ => true | None => false end) m1) eqn:Ex.
            - apply existsb_exists in Ex as ([k r] & Hin & Hx). cbn in Hx. destruct (get k m2) as [v|] eqn:G2; [|discriminate].
              exists k, v, r. split; [assumption|]. apply (get_In _ _ _ S1); assumption.
            - exfalso. assert (false = true); [|discriminate]. apply Hdis. intros k Hk.
              destruct (get k m1) as [r|] eqn:G1; [|congruence]. apply (get_In _ _ _ S1) in G1.
              destruct (get k m2) as [v|] eqn:G2; [|reflexivity]. exfalso. apply not_true_iff_false in Ex. apply Ex.
              apply existsb_exists. exists (k, r). cbn. rewrite G2. auto. }
          assert (Helem : forall k r v, get k m = Some r -> In v r -> wf v /\ args_by_node f v).
          { intros k r e G He. rewrite Hget in G.
            destruct (get k m2) as [v|] eqn:G2, (get k m1) as [row|] eqn:G1; try discriminate. injection G as <-.
            assert (F := Hrows k v row (fun b a e => wf e /\ args_by_node f e) G2 G1).
            assert (F' : forall e, In e (fst (op_rows meet v row)) -> wf e /\ args_by_node f e).
            { apply Forall_forall. assert (F0 := F (fun b a t Hb Ha Ta Tb => let H := Hel k v row G2 G1 b a t Hb Ha Ta Tb in conj (proj1 H) (proj1 (proj2 H)))).
              clear - F0. induction F0; constructor; auto. }
            auto. }
          split; [|split; [|split; [|split]]].
          -- constructor; [|assumption|].
             ++ intros Em. destruct Hne as (k & v & row & G2 & G1). specialize (Hget k). rewrite Em, G2, G1 in Hget. discriminate.
             ++ intros k r v Hin Hv. apply (get_In _ _ _ Sm) in Hin. eapply Helem; eassumption.
          -- constructor. intros k r v Hin Hv. apply (get_In _ _ _ Sm) in Hin. eapply Helem; eassumption.
          -- constructor. intros k r Hin. apply (get_In _ _ _ Sm) in Hin. rewrite Hget in Hin.
             destruct (get k m2) as [v|] eqn:G2, (get k m1) as [row|] eqn:G1; try discriminate. injection Hin as <-.
             destruct (Hts k v row G2 G1) as (ts & E1 & F1 & F2). exists ts. split; [assumption|].
             apply rows_typed; [assumption|assumption|]. intros t b a Hb Ha Tb Ta. apply (Hel k v row G2 G1 b a t Hb Ha Ta Tb).
          -- split; [|split].
             ++ constructor. intros k r Hin. apply (get_In _ _ _ Sm) in Hin. rewrite Hget in Hin.
                destruct (get k m2) as [v|] eqn:G2, (get k m1) as [row|] eqn:G1; try discriminate. injection Hin as <-.
                exists row. split; [apply (get_In _ _ _ S1); assumption|].
                eapply F2_combine_r'; [symmetry; apply (Hlen k v row G2 G1)|].
                apply (Hrows k v row (fun b a e => le e a) G2 G1). intros b a t Hb Ha Ta Tb.
                apply (Hel k v row G2 G1 b a t Hb Ha Ta Tb).
             ++ constructor. intros k r Hin. apply (get_In _ _ _ Sm) in Hin. rewrite Hget in Hin.
                destruct (get k m2) as [v|] eqn:G2, (get k m1) as [row|] eqn:G1; try discriminate. injection Hin as <-.
                exists v. split; [apply (get_In _ _ _ S2); assumption|].
                eapply F2_combine_l'; [symmetry; apply (Hlen k v row G2 G1)|].
                apply (Hrows k v row (fun b a e => le e b) G2 G1). intros b a t Hb Ha Ta Tb.
                apply (Hel k v row G2 G1 b a t Hb Ha Ta Tb).
             ++ intros z Wz H1 H2. inversion H1 as [|x0|v0|n0 a0|m3 m4 Hm1]; subst; [constructor|].
                pose proof (le_sum_inv _ _ H2) as Hm2. apply wf_inv in Wz as (_ & S3 & Wi3). constructor.
                intros k r Hin. destruct (Hm1 k r Hin) as (row & I1 & F1). destruct (Hm2 k r Hin) as (v & I2 & F2).
                apply (get_In _ _ _ S1) in I1. apply (get_In _ _ _ S2) in I2.
                exists (fst (op_rows meet v row)). split.
                { apply (get_In _ _ _ Sm). rewrite Hget, I2, I1. reflexivity. }
                eapply F2_glb; [symmetry; apply (Hlen k v row I2 I1)| |intros x Hx; eapply Wi3; eassumption|exact F1|exact F2].
                apply (Hrows k v row (fun b a e => forall z, wf z -> le z a -> le z b -> le z e) I2 I1).
                intros b a t Hb Ha Ta Tb. apply (Hel k v row I2 I1 b a t Hb Ha Ta Tb).
          -- intros Hfl. destruct rem as [|k0 rem]; [|discriminate]. f_equal.
             apply sorted_ext; [assumption|assumption|]. intros k. rewrite Hget.
             destruct (get k m2) as [v|] eqn:G2.
             ++ destruct (get k m1) as [row|] eqn:G1; [|reflexivity]. f_equal.
                assert (Hsn : snd (op_rows meet v row) = false).
                { destruct (snd (op_rows meet v row)) eqn:Es; [|reflexivity]. exfalso.
                  assert (ch = true); [|congruence]. apply Hc. right. exists k, v, row. auto. }
                destruct (Hts k v row G2 G1) as (ts & _ & F1 & F2).
                pose proof (Hel k v row G2 G1) as Hel'. clear - F1 F2 Hel' Hsn.
                revert v row F1 F2 Hel' Hsn. induction ts as [|t ts IHts]; intros v row F1 F2 Hel' Hsn; inversion F1; subst; inversion F2; subst; [reflexivity|].
                cbn in *. pose proof (Hel' y0 y t (or_introl eq_refl) (or_introl eq_refl)) as H0.
                specialize (IHts l'0 l'). destruct (meet y0 y) as [e c], (op_rows meet l'0 l') as [es c']. cbn in *.
                apply orb_false_iff in Hsn as [-> ->]. destruct H0 as (_ & _ & _ & _ & H0); [assumption|assumption|].
                rewrite H0 by reflexivity. f_equal. apply IHts; auto.
             ++ destruct (get k m1) as [row|] eqn:G1; [|reflexivity]. exfalso.
                apply (proj2 (Hr k)). left. apply only_left_In; [assumption|]. split; congruence.
      + cbn. split; [assumption|]. split; [assumption|]. split; [assumption|]. split; [|discriminate].
        split; [constructor|]. split; [apply le_refl|]. auto.
  Qed.

  (** Joins of well-typed values are well-typed. *)
  Lemma join_typed y : forall x t, wf x -> wf y -> typed t x -> typed t y -> typed t (jn x y).
  Proof.
    unfold jn. induction y as [| |v|n a|m2 IH] using pv_ind'; intros x t Wx Wy Tx Ty.
    - assert (E : fst (join Bottom x) = x) by (destruct x; reflexivity). rewrite E. assumption.
    - assert (E : fst (join Top x) = Top) by (destruct x; reflexivity). rewrite E. constructor.
    - destruct x as [|n' a'|v'|m'|]; cbn; try (destruct (veq v' v); cbn); try assumption; constructor.
    - destruct x as [|n' a'|v'|m'|]; cbn; try (destruct (neq n' n); cbn); try assumption; constructor.
    - destruct x as [|n' a'|v'|m1|]; try (cbn; first [assumption|constructor]).
      pose proof (wf_inv _ Wx) as (N1 & S1 & Wi1). pose proof (wf_inv _ Wy) as (N2 & S2 & Wi2).
      inversion Tx as [| | | |rows mx Htx]; subst. inversion Ty as [| | | |rows' my Hty]; subst.
      rewrite join_PSum. destruct (join_conflict m1 m2); [constructor|].
      pose proof (join_loop_sorted join m2 m1 false S1) as Sm.
      pose proof (join_loop_get join m2 m1 false S2 S1) as Hget.
      destruct (join_loop join m2 m1 false) as [m ch]. cbn [fst] in *. constructor.
      intros k r Hin. apply (get_In _ _ _ Sm) in Hin. rewrite Hget in Hin.
      destruct (get k m2) as [v|] eqn:G2, (get k m1) as [row|] eqn:G1; try discriminate; injection Hin as <-.
      + apply (get_In _ _ _ S2) in G2. apply (get_In _ _ _ S1) in G1.
        destruct (Htx _ _ G1) as (ts & E1 & F1). destruct (Hty _ _ G2) as (ts' & E2 & F2).
        rewrite E1 in E2. injection E2 as <-. exists ts. split; [assumption|].
        apply rows_typed; [assumption|assumption|]. intros t b a Hb Ha Tb Ta. eapply IH; eauto.
      + apply (get_In _ _ _ S2) in G2. eauto.
      + apply (get_In _ _ _ S1) in G1. eauto.
  Qed.

  (** ** The comparison extends the information order. *)
  Definition lex_rows (cmp : pv -> pv -> option comparison) := fix lex (a b : list pv) {struct a} : option comparison :=
    match a, b with
    | [], [] => Some Eq
    | [], _ :: _ => Some Lt
    | _ :: _, [] => Some Gt
    | p :: a', q :: b' => match cmp p q with Some Eq => lex a' b' | r => r end
    end.
  Definition cmp_loop (cmp : pv -> pv -> option comparison) (m2 : psum) := fix loop (m1 : psum) : option comparison :=
    match m1 with
    | [] => Some Eq
    | (k, lhs) :: m1' =>
        match get k m2 with
        | None => None
        | Some rhs => match lex_rows cmp lhs rhs with Some Eq => loop m1' | r => r end
        end
    end.
  Notation pv_cmp := (pv_cmp veq neq aeq).
  Lemma pv_cmp_PSum (m1 m2 : psum) : pv_cmp (PSum m1) (PSum m2) =
    match keys_cmp m1 m2 with Gt => Some Gt | Lt => Some Lt | Eq => cmp_loop pv_cmp m2 m1 end.
  Proof. reflexivity. Qed.

  Lemma keys_subset (m1 : psum) : forall m2 : psum, sorted m1 -> sorted m2 ->
    (forall k, In k (map fst m1) -> In k (map fst m2)) ->
    keys_cmp m1 m2 = Lt \/ (keys_cmp m1 m2 = Eq /\ map fst m1 = map fst m2).
  Proof.
    induction m1 as [|[k1 r1] m1 IH]; intros [|[k2 r2] m2] S1 S2 H; cbn.
    - auto.
    - auto.
    - exfalso. apply (H k1). cbn. auto.
    - inversion S1 as [|? ? S1' F1]; subst. inversion S2 as [|? ? S2' F2]; subst. rewrite Forall_forall in F1, F2.
      destruct (N.compare_spec k1 k2) as [E|L|G].
      + subst. destruct (IH m2 S1' S2') as [E|[E E']]; [|left; assumption|right; split; [assumption|congruence]].
        intros k Hk. destruct (H k (or_intror Hk)) as [<-|Hin]; [|assumption]. exfalso. cbn in Hk.
        apply in_map_iff in Hk as ([k' r'] & <- & Hin). specialize (F1 _ Hin). cbn in F1.
        rewrite N.compare_refl in F1. discriminate.
      + exfalso. destruct (H k1 (or_introl eq_refl)) as [E|Hin]; [cbn in E; lia|].
        apply in_map_iff in Hin as ([k' r'] & E & Hin). specialize (F2 _ Hin). cbn in *. subst.
        change (k2 < k1)%N in F2. lia.
      + auto.
  Qed.

  Lemma le_cmp x : forall y : pv, wf x -> wf y -> le x y ->
    (pv_cmp x y = Some Eq /\ x = y) \/ pv_cmp x y = Some Lt.
  Proof.
    induction x as [| |v|n a|m1 IH] using pv_ind'; intros y Wx Wy H.
    - destruct y; cbn; auto.
    - inversion H; subst. cbn. auto.
    - inversion H; subst; cbn; auto. destruct (veq v v); [auto|congruence].
    - inversion H; subst; cbn; auto. destruct (neq n n); [|congruence]. destruct (aeq a a); [auto|congruence].
    - inversion H as [|x0|v0|n0 a0|m0 m2 Hm]; subst; [cbn; auto|].
      apply wf_inv in Wx as (_ & S1 & Wi1). apply wf_inv in Wy as (_ & S2 & Wi2).
      rewrite pv_cmp_PSum.
      destruct (keys_subset m1 m2 S1 S2) as [->|[-> EK]].
      { intros k Hk. apply in_map_iff in Hk as ([k' r] & <- & Hin). destruct (Hm _ _ Hin) as (r2 & I2 & _).
        apply in_map_iff. exists (k', r2). auto. }
      { auto. }
      assert (HL : (cmp_loop pv_cmp m2 m1 = Some Eq /\ (forall k r, In (k, r) m1 -> In (k, r) m2)) \/ cmp_loop pv_cmp m2 m1 = Some Lt).
      { clear EK H. assert (Hm' : forall k r1, In (k, r1) m1 -> exists r2, In (k, r2) m2 /\ Forall2 le r1 r2) by exact Hm. clear Hm.
        clear S1. revert IH Wi1 Hm'. induction m1 as [|[k r] m1' IHm]; intros IH Wi1 Hm'; cbn [cmp_loop]; [left; split; [reflexivity|intros ? ? []]|].
        destruct (Hm' k r (or_introl eq_refl)) as (r2 & I2 & F).
        pose proof (proj2 (get_In _ _ _ S2) I2) as G. rewrite G.
        assert (HR : (lex_rows pv_cmp r r2 = Some Eq /\ r = r2) \/ lex_rows pv_cmp r r2 = Some Lt).
        { assert (Hr : forall a b, In a r -> In b r2 -> le a b -> (pv_cmp a b = Some Eq /\ a = b) \/ pv_cmp a b = Some Lt).
          { intros a b Ha Hb L. eapply IH; [left; reflexivity|exact Ha| | |exact L].
            - eapply Wi1; [left; reflexivity|exact Ha].
            - eapply Wi2; eassumption. }
          clear - F Hr. induction F as [|a b r r2 L F IHF]; cbn; [auto|].
          destruct (Hr a b (or_introl eq_refl) (or_introl eq_refl) L) as [[-> ->]| ->]; [|auto].
          destruct IHF as [[-> ->]| ->]; auto. intros; apply Hr; cbn; auto. }
        destruct HR as [[-> ->]| ->]; [|auto].
        destruct IHm as [[-> H0]| ->]; [| | |left; split; [reflexivity|intros k0 r0 [[= <- <-]|Hin]; [assumption|auto]]|auto].
        - intros k0 r0 x0 Hin. eapply IH. right. exact Hin.
        - intros k0 r0 x0 Hin. eapply Wi1. right. exact Hin.
        - intros k0 r0 Hin. apply Hm'. right. exact Hin. }
      destruct HL as [[-> Hin]| ->]; [|auto]. left. split; [reflexivity|]. f_equal.
      clear - EK Hin S1 S2. apply sorted_ext; [assumption|assumption|]. intros k.
      destruct (get k m1) as [r|] eqn:G.
      + apply (get_In _ _ _ S1) in G. symmetry. apply (get_In _ _ _ S2). auto.
      + destruct (get k m2) as [r|] eqn:G2; [|reflexivity]. apply (get_In _ _ _ S2) in G2. exfalso.
        assert (I : In k (map fst m2)) by (apply in_map_iff; exists (k, r); auto). rewrite <- EK in I.
        apply in_map_iff in I as ([k' r'] & <- & I). apply (get_In _ _ _ S1) in I. cbn in G. congruence.
  Qed.

  (** ** Meaning *)
  Fixpoint conc_ind' (P : conc V N A -> Prop) (H1 : forall v, P (CVal v)) (H2 : forall n a, P (CFun n a))
    (H3 : forall k cs, (forall c, In c cs -> P c) -> P (CSum k cs)) (c : conc V N A) {struct c} : P c.
  Proof.
    destruct c as [v|n a|k cs]; [apply H1|apply H2|apply H3].
    induction cs as [|c cs IHcs]; [intros ? []|]. intros c' [<-|Hin]; [exact (conc_ind' P H1 H2 H3 c)|exact (IHcs c' Hin)].
  Defined.

  Lemma exactly_wf (c : conc V N A) : wf (exactly c : pv).
  Proof.
    induction c as [v|n a|k cs IH] using conc_ind'; cbn; constructor; [discriminate| |].
    - constructor; constructor.
    - intros k' r v [[= <- <-]|[]] Hin. apply in_map_iff in Hin as (c & <- & Hin). auto.
  Qed.

  Lemma describes_exactly c : forall x : pv, describes x c <-> le (exactly c) x.
  Proof.
    induction c as [v|n a|k cs IH] using conc_ind'; intros x; cbn.
    - split; intros H; inversion H; subst; constructor.
    - split; intros H; inversion H; subst; constructor.
    - split; intros H.
      + inversion H as [c|v|n a|m k' r cs' Hin HF]; subst; [constructor|]. constructor.
        intros k' r1 [[= <- <-]|[]]. exists r. split; [assumption|]. clear - HF IH.
        induction HF; cbn; constructor; [apply IH; cbn; auto|]. apply IHHF. intros; apply IH; cbn; auto.
      + inversion H as [|x0|v0|n0 a0|m1 m2 Hm]; subst; [constructor|].
        destruct (Hm _ _ (or_introl eq_refl)) as (r & Hin & HF). econstructor; [exact Hin|]. clear - HF IH.
        revert r HF. induction cs as [|c cs IHcs]; cbn; intros r HF; inversion HF; subst; constructor.
        * apply IH; cbn; auto.
        * apply IHcs; [intros; apply IH; cbn; auto|assumption].
  Qed.
End Proofs.
