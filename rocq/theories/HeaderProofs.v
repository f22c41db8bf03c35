From Coq Require Import NArith List Bool Lia Arith.
From Verif Require Import HeaderModel HeaderSpec.
Import ListNotations.
Open Scope N_scope.

Lemma read_write h payload : read_header (write_header h ++ payload) = inl (h, payload).
Proof. destruct h as [[] []]; reflexivity. Qed.

Lemma write_length h : length (write_header h) = 10%nat.
Proof. destruct h as [[] []]; reflexivity. Qed.

Lemma list_eqb_eq a b : list_eqb a b = true <-> a = b.
Proof.
  revert b; induction a as [|x a IH]; intros [|y b]; cbn; try (split; congruence).
  rewrite andb_true_iff, N.eqb_eq, IH. split; [intros [-> ->]; reflexivity|].
  intros E; injection E as -> ->; auto.
Qed.

Lemma from_repr_spec d f : from_repr d = Some f <-> known_format d f.
Proof.
  unfold known_format. split.
  - intros H. do 64 (destruct d as [|d]; [try discriminate H; injection H as <-; tauto|] || idtac).
    unfold from_repr in H.
    repeat match type of H with
           | match ?x with _ => _ end = _ => destruct x; try discriminate H
           end; injection H as <-; tauto.
  - intuition (subst; reflexivity).
Qed.

(** Sweep over all flag bytes, lifted. *)
Definition all_bytes : list N := map N.of_nat (seq 0 256).
Lemma in_all_bytes b : is_byte b -> In b all_bytes.
Proof.
  intros H. unfold all_bytes, is_byte in *. apply in_map_iff. exists (N.to_nat b).
  split; [apply N2Nat.id|]. apply in_seq. lia.
Qed.

Definition other (fl : N) : N := N.land (N.lxor fl DEFAULT_FLAGS) (255 - ZSTD_FLAG).

Lemma other_zero_sweep :
  forallb (fun fl => Bool.eqb (other fl =? 0) ((fl =? 64) || (fl =? 65))) all_bytes = true.
Proof. vm_compute. reflexivity. Qed.

Lemma other_zero fl : is_byte fl -> other fl = 0 <-> (fl = 64 \/ fl = 65).
Proof.
  intros H. pose proof (proj1 (forallb_forall _ _) other_zero_sweep _ (in_all_bytes _ H)) as E.
  cbn beta in E. apply eqb_prop in E.
  rewrite <- N.eqb_eq, E, orb_true_iff, !N.eqb_eq. tauto.
Qed.

Lemma flag_ids_sweep :
  forallb (fun fl => forallb (fun i =>
     Bool.eqb (negb (N.land (other fl) (N.shiftl 1 i) =? 0))
              (negb (i =? 0) && Bool.eqb (N.testbit fl i) (negb (i =? 6))))
     [0;1;2;3;4;5;6;7]) all_bytes = true.
Proof. vm_compute. reflexivity. Qed.

Lemma in_eight i : In i [0;1;2;3;4;5;6;7] <-> i < 8.
Proof. cbn. lia. Qed.

Lemma flag_ids_spec fl i : is_byte fl ->
  In i (filter (fun i => negb (N.land (other fl) (N.shiftl 1 i) =? 0)) [0;1;2;3;4;5;6;7])
  <-> unknown_flag fl i.
Proof.
  intros H. rewrite filter_In, in_eight. unfold unknown_flag.
  pose proof (proj1 (forallb_forall _ _) flag_ids_sweep _ (in_all_bytes _ H)) as E.
  cbn beta in E. rewrite forallb_forall in E.
  split.
  - intros [Hi Hb]. split; [assumption|].
    specialize (E i (proj2 (in_eight i) Hi)). apply eqb_prop in E. rewrite E in Hb.
    apply andb_true_iff in Hb as [H0 Hb]. apply negb_true_iff, N.eqb_neq in H0.
    split; [assumption|]. apply eqb_prop; assumption.
  - intros (Hi & H0 & Hb). split; [assumption|].
    specialize (E i (proj2 (in_eight i) Hi)). apply eqb_prop in E. rewrite E.
    apply andb_true_iff. split; [apply negb_true_iff, N.eqb_neq; assumption|].
    rewrite Hb. apply eqb_reflx.
Qed.

Lemma read_exact_split n r a b : read_exact n r = Some (a, b) <-> (r = a ++ b /\ length a = n).
Proof.
  unfold read_exact. destruct (Nat.ltb_spec (length r) n).
  - split; [discriminate|]. intros [-> <-]. rewrite app_length in H. lia.
  - split.
    + intros E; injection E as <- <-. split; [symmetry; apply firstn_skipn|].
      rewrite firstn_length. lia.
    + intros [-> <-]. f_equal. f_equal.
      * rewrite firstn_app, firstn_all, Nat.sub_diag, firstn_O, app_nil_r. reflexivity.
      * rewrite skipn_app, skipn_all, Nat.sub_diag. reflexivity.
Qed.

Lemma read_exact_none n r : read_exact n r = None <-> (length r < n)%nat.
Proof.
  unfold read_exact. destruct (Nat.ltb_spec (length r) n); split; try tauto; try discriminate; lia.
Qed.

(** Shape of every read. *)
Lemma read_cases r : Forall is_byte r ->
  match read_header r with
  | inl (h, rest) =>
      exists d fl, r = magic_ascii ++ d :: fl :: rest /\ from_repr d = Some (h_format h) /\
        (fl = 64 /\ h_zstd h = false \/ fl = 65 /\ h_zstd h = true)
  | inr UnexpectedEof =>
      (length r < 8)%nat \/ r = magic_ascii \/
      exists d, r = magic_ascii ++ [d] /\ from_repr d <> None
  | inr (MagicNumber m) => m <> magic_ascii /\ length m = 8%nat /\ exists rest, r = m ++ rest
  | inr (InvalidFormatDescriptor d) => from_repr d = None /\ exists rest, r = magic_ascii ++ d :: rest
  | inr (FlagUnsupported ids) =>
      exists d fl rest, r = magic_ascii ++ d :: fl :: rest /\ from_repr d <> None /\ is_byte fl /\
        (exists i, unknown_flag fl i) /\ forall i, In i ids <-> unknown_flag fl i
  end.
Proof.
  intros Hb. unfold read_header.
  destruct (read_exact 8 r) as [[m r1]|] eqn:E1.
  2:{ left. apply read_exact_none; assumption. }
  apply read_exact_split in E1 as [-> Hm].
  destruct (list_eqb m MAGIC_NUMBERS) eqn:Em; cbn [negb].
  2:{ split; [|eauto]. intros ->. vm_compute in Em. discriminate. }
  apply list_eqb_eq in Em; subst m. change MAGIC_NUMBERS with magic_ascii in *.
  destruct (read_exact 1 r1) as [[fb r2]|] eqn:E2.
  2:{ apply read_exact_none in E2. destruct r1; [|cbn in E2; lia]. right; left. apply app_nil_r. }
  apply read_exact_split in E2 as [-> Hf].
  destruct fb as [|d [|]]; try discriminate Hf. cbn [hd].
  destruct (from_repr d) as [f|] eqn:Ef.
  2:{ split; [assumption|]. eexists; reflexivity. }
  destruct (read_exact 1 r2) as [[gb r3]|] eqn:E3.
  2:{ apply read_exact_none in E3. destruct r2; [|cbn in E3; lia]. right; right.
      exists d. split; [reflexivity|congruence]. }
  apply read_exact_split in E3 as [-> Hg].
  destruct gb as [|fl [|]]; try discriminate Hg. cbn [hd].
  assert (Hfl : is_byte fl).
  { rewrite Forall_forall in Hb. apply Hb. rewrite !in_app_iff. cbn. tauto. }
  fold (other fl). destruct (N.eqb_spec (other fl) 0) as [E0|E0]; cbn [negb].
  - exists d, fl. split; [reflexivity|]. cbn [h_format h_zstd]. split; [assumption|].
    apply (other_zero _ Hfl) in E0 as [->| ->]; cbn; auto.
  - exists d, fl, r3. split; [reflexivity|]. split; [congruence|]. split; [assumption|].
    assert (G : forall i, In i (filter (fun i => negb (N.land (other fl) (N.shiftl 1 i) =? 0)) [0;1;2;3;4;5;6;7])
                          <-> unknown_flag fl i) by (intros i; apply flag_ids_spec; assumption).
    split; [|exact G].
    destruct (filter (fun i => negb (N.land (other fl) (N.shiftl 1 i) =? 0)) [0;1;2;3;4;5;6;7]) as [|i l] eqn:El.
    2:{ exists i. apply G. left; reflexivity. }
    exfalso. apply E0. apply other_zero; [assumption|].
    (* no bit differs: the byte is 64 or 65 *)
    assert (S : forallb (fun fl => (negb (forallb (fun i => (i =? 0) || negb (Bool.eqb (N.testbit fl i) (negb (i =? 6)))) [0;1;2;3;4;5;6;7]))
                                   || (fl =? 64) || (fl =? 65)) all_bytes = true) by (vm_compute; reflexivity).
    pose proof (proj1 (forallb_forall _ _) S _ (in_all_bytes _ Hfl)) as T. cbn beta in T.
    rewrite !orb_true_iff, !N.eqb_eq in T. destruct T as [[T|T]|T]; auto. exfalso.
    apply negb_true_iff in T. rewrite <- not_true_iff_false in T. apply T.
    apply forallb_forall. intros i Hi. apply orb_true_iff.
    destruct (N.eqb_spec i 0); [auto|right]. apply negb_true_iff, not_true_iff_false.
    intros Heq. apply eqb_prop in Heq. apply (proj2 (G i)).
    split; [apply in_eight; assumption|auto].
Qed.

Lemma flags_64_65 fl z : (fl = 64 /\ z = false \/ fl = 65 /\ z = true) <->
  (is_byte fl /\ N.testbit fl 6 = true /\ N.testbit fl 0 = z /\
   forall i, i <> 0 -> i <> 6 -> N.testbit fl i = false).
Proof.
  split.
  - assert (G : forall n i, n < 128 -> 7 <= i -> N.testbit n i = false).
    { intros n i Hn Hi. destruct (N.eq_dec n 0) as [->|]; [apply N.bits_0|].
      apply N.bits_above_log2. apply N.lt_le_trans with 7; [|assumption].
      apply N.log2_lt_pow2; [lia|]. exact Hn. }
    intros [[-> ->]|[-> ->]]; (split; [reflexivity|]; split; [reflexivity|]; split; [reflexivity|]);
      intros i H0 H6; (destruct (N.lt_ge_cases i 7) as [Hi|Hi]; [|apply G; [reflexivity|assumption]]);
      assert (In i [1;2;3;4;5]) as Hin by (cbn; lia);
      cbn in Hin; intuition (subst; reflexivity).
  - intros (Hb & H6 & H0 & Hi).
    assert (S : forallb (fun fl => negb (N.testbit fl 6) || existsb (fun i => N.testbit fl i) [1;2;3;4;5;7]
                   || (fl =? 64) && negb (N.testbit fl 0) || (fl =? 65) && N.testbit fl 0) all_bytes = true)
      by (vm_compute; reflexivity).
    pose proof (proj1 (forallb_forall _ _) S _ (in_all_bytes _ Hb)) as T. cbn beta in T.
    rewrite H6 in T. cbn [negb orb] in T.
    assert (existsb (fun i => N.testbit fl i) [1;2;3;4;5;7] = false) as E.
    { apply not_true_iff_false. rewrite existsb_exists. intros (i & Hin & Ht).
      rewrite Hi in Ht; [discriminate| |]; cbn in Hin; intuition (subst; discriminate). }
    rewrite E in T. cbn [orb] in T. rewrite orb_true_iff, !andb_true_iff, !N.eqb_eq, negb_true_iff in T.
    destruct T as [[-> T]|[-> T]]; [left|right]; split; congruence.
Qed.

Lemma read_iff_encodes r h rest : Forall is_byte r ->
  read_header r = inl (h, rest) <-> encodes r h rest.
Proof.
  intros Hb. split.
  - intros E. pose proof (read_cases r Hb) as H. rewrite E in H.
    destruct H as (d & fl & -> & Hd & Hfl). exists d, fl. split; [reflexivity|].
    split; [apply from_repr_spec; assumption|]. apply flags_64_65; assumption.
  - intros (d & fl & -> & Hd & Hfl). apply flags_64_65 in Hfl. apply from_repr_spec in Hd.
    destruct h as [f z]; cbn [h_format h_zstd] in *. unfold read_header.
    assert (read_exact 8 (magic_ascii ++ d :: fl :: rest) = Some (magic_ascii, d :: fl :: rest)) as ->
      by (apply read_exact_split; split; reflexivity).
    change (list_eqb magic_ascii MAGIC_NUMBERS) with true. cbn [negb].
    assert (read_exact 1 (d :: fl :: rest) = Some ([d], fl :: rest)) as ->
      by (apply read_exact_split; split; reflexivity).
    cbn [hd]. rewrite Hd.
    assert (read_exact 1 (fl :: rest) = Some ([fl], rest)) as ->
      by (apply read_exact_split; split; reflexivity).
    cbn [hd]. destruct Hfl as [[-> ->]|[-> ->]]; reflexivity.
Qed.

Lemma accepted_canonical r h rest : Forall is_byte r ->
  read_header r = inl (h, rest) -> r = write_header h ++ rest.
Proof.
  intros Hb E. pose proof (read_cases r Hb) as H. rewrite E in H.
  destruct H as (d & fl & -> & Hd & Hfl). apply from_repr_spec in Hd.
  destruct h as [f z]; cbn [h_format h_zstd] in *.
  unfold known_format in Hd. destruct Hfl as [[-> ->]|[-> ->]];
    destruct Hd as [[-> ->]|[[-> ->]|[[-> ->]|[[-> ->]|[-> ->]]]]]; reflexivity.
Qed.

Lemma truncated_rejected h n : (n < 10)%nat -> read_header (firstn n (write_header h)) = inr UnexpectedEof.
Proof.
  intros Hn. destruct h as [[] []]; do 10 (destruct n as [|n]; [reflexivity|]); lia.
Qed.

Lemma errors_precise r : Forall is_byte r ->
  match read_header r with
  | inl (h, rest) => encodes r h rest
  | inr UnexpectedEof =>
      (length r < 8)%nat \/ r = magic_ascii \/
      exists d, r = magic_ascii ++ [d] /\ from_repr d <> None
  | inr (MagicNumber m) => m <> magic_ascii /\ length m = 8%nat /\ exists rest, r = m ++ rest
  | inr (InvalidFormatDescriptor d) =>
      (forall f, ~ known_format d f) /\ exists rest, r = magic_ascii ++ d :: rest
  | inr (FlagUnsupported ids) =>
      exists d fl rest, r = magic_ascii ++ d :: fl :: rest /\
        (exists i, unknown_flag fl i) /\ forall i, In i ids <-> unknown_flag fl i
  end.
Proof.
  intros Hb. pose proof (read_cases r Hb) as H.
  destruct (read_header r) as [[h rest]|[m|d| |ids]] eqn:E.
  - apply read_iff_encodes; assumption.
  - exact H.
  - destruct H as [Hn Hr]. split; [|exact Hr]. intros f Hf. apply from_repr_spec in Hf. congruence.
  - exact H.
  - destruct H as (d & fl & rest & -> & _ & _ & Hi). exists d, fl, rest. split; [reflexivity|exact Hi].
Qed.
