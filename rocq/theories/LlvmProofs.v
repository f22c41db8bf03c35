(** Proofs about the lowering of integer operations. *)
From Coq Require Import ZArith List Bool Lia ZifyBool.
From Verif Require Import IntModel IntSpec IntProofs LlvmModel LlvmSpec.
Import ListNotations.
Open Scope Z_scope.

Lemma exact_valid lw : exact_lw lw -> valid_lw lw.
Proof. unfold exact_lw, valid_lw; lia. Qed.
Lemma exact_width lw : exact_lw lw -> llvm_width lw = bits lw.
Proof. intros H. assert (lw = 3 \/ lw = 4 \/ lw = 5 \/ lw = 6) as [-> | [-> | [-> | ->]]] by (unfold exact_lw in H; lia); reflexivity. Qed.

Lemma sgn_signed lw v : valid_lw lw -> in_u lw v -> sgn (bits lw) v = signed lw v.
Proof. intros Hl Hv. now rewrite (signed_eq _ _ Hl Hv). Qed.

Lemma obs_int lw v : exact_lw lw -> obs lw (VInt (bits lw) (Some v)) = Some (IntV lw v).
Proof. intros H. cbn. now rewrite exact_width, Z.eqb_refl. Qed.

Lemma computes_int lw v (spec : list cval -> Prop) : exact_lw lw ->
  spec [IntV lw v] -> computes lw spec (Ret [VInt (bits lw) (Some v)]).
Proof. intros H S. exists [VInt (bits lw) (Some v)], [IntV lw v]. cbn [obs_all]. now rewrite obs_int. Qed.

Lemma wrap_in lw v : valid_lw lw -> in_u lw (wrap (bits lw) v).
Proof. intros H. pose proof (pow_bits_pos _ H). unfold in_u, wrap. apply Z.mod_pos_bound. lia. Qed.

Lemma wrap_small lw v : in_u lw v -> wrap (bits lw) v = v.
Proof. unfold in_u, wrap. apply Z.mod_small. Qed.

Lemma cmp_computes lw c (spec : list cval -> Prop) :
  spec [BoolV c] -> computes lw spec (Ret [lselect (Some (b2z c)) (build_tag 1 []) (build_tag 0 [])]).
Proof. intros H. destruct c; [exists [VSum (Some 1) []], [BoolV true]|exists [VSum (Some 0) []], [BoolV false]]; auto. Qed.

Lemma pow_loop_eq (w a : Z) : 1 < 2 ^ w -> forall fuel acc k, 0 <= k < 2 ^ w -> Z.of_nat fuel = k ->
  pow_loop fuel w (Some a) (Some acc) (Some k) =
  Ret (Some (if k =? 0 then 1 else if k =? 1 then acc else wrap w (acc * a ^ (k - 1)))).
Proof.
  intros W. induction fuel as [|fuel IH]; intros acc k K F.
  - assert (k = 0) as -> by lia. cbn [pow_loop lswitch Z.eqb]. unfold lconst, wrap.
    rewrite Z.mod_small by lia. reflexivity.
  - cbn [pow_loop lswitch]. destruct (Z.eqb_spec k 1) as [->|N1].
    { replace (1 =? 0) with false by lia. reflexivity. }
    destruct (Z.eqb_spec k 0) as [->|N0]; [lia|].
    unfold lmul, lsub, lconst, lmap2. replace (wrap w 1) with 1 by (unfold wrap; rewrite Z.mod_small; lia).
    replace (wrap w (k - 1)) with (k - 1) by (unfold wrap; rewrite Z.mod_small; lia).
    rewrite IH; [|lia|lia]. f_equal. f_equal.
    destruct (Z.eqb_spec (k - 1) 0); [lia|].
    destruct (Z.eqb_spec (k - 1) 1).
    + assert (k = 2) as -> by lia. change (2 - 1) with 1. rewrite Z.pow_1_r. reflexivity.
    + unfold wrap. rewrite Z.mul_mod_idemp_l by lia. f_equal.
      replace (k - 1) with (1 + (k - 1 - 1)) at 2 by lia. rewrite Z.pow_add_r by lia. rewrite Z.pow_1_r. lia.
Qed.

(** * Division *)

(** The quotient and remainder of the specification. *)
Lemma udivmod (lw a b : Z) : in_u lw a -> in_u lw b -> b <> 0 ->
  in_u lw (a / b) /\ a / b * b + a mod b = a /\ 0 <= a mod b < b.
Proof.
  unfold in_u. intros [A0 A] [B0 B] Nb. pose proof (Z.mod_pos_bound a b ltac:(lia)).
  pose proof (Z_div_mod_eq_full a b). pose proof (Z.div_pos a b A0 ltac:(lia)).
  assert (a / b <= a) by (apply Z.div_le_upper_bound; nia). nia.
Qed.

Definition pairv (w q r : Z) : lv := build_tag 0 [VInt w (Some q); VInt w (Some r)].

Lemma build_divmod_u lw a b : in_u lw a -> in_u lw b -> b <> 0 ->
  exists q r, build_divmod false lw (Some a) (Some b) = Ret (pairv (llvm_width lw) q r) /\
    in_u lw q /\ q * b + r = a /\ 0 <= r < b.
Proof.
  intros A B Nb. exists (a / b), (a mod b). split; [|now apply udivmod].
  unfold build_divmod, ludiv, lurem. replace (b =? 0) with false by lia. reflexivity.
Qed.

Lemma pow_pred lw : valid_lw lw -> 2 ^ (2 ^ lw - 1) = 2 ^ (bits lw - 1).
Proof. reflexivity. Qed.

Lemma build_divmod_s lw a b : exact_lw lw -> in_u lw a -> in_u lw b -> b <> 0 ->
  ~ (a = 2 ^ (bits lw - 1) /\ b = 2 ^ bits lw - 1) ->
  exists qs q r, build_divmod true lw (Some a) (Some b) = Ret (pairv (llvm_width lw) q r) /\
    repr_s lw qs q /\ qs * b + r = signed lw a /\ 0 <= r < b.
Proof.
  intros El A B Nb NU. pose proof (exact_valid _ El) as Vl.
  unfold build_divmod. rewrite (exact_width _ El).
  pose proof (half_bits _ Vl) as HB. pose proof (half_pos _ Vl) as HP.
  pose proof (bits_pos _ Vl) as BP.
  assert (H8 : 128 <= 2 ^ (bits lw - 1)).
  { change 128 with (2 ^ 7). apply Z.pow_le_mono_r; [lia|]. 
    assert (8 <= bits lw); [|lia]. unfold bits. change 8 with (2 ^ 3). apply Z.pow_le_mono_r; unfold exact_lw in El; lia. }
  set (w := bits lw) in *. set (P := 2 ^ (w - 1)) in *.
  unfold in_u in A, B. fold w in A, B. rewrite HB in A, B.
  assert (C0 : lconst w 0 = Some 0) by reflexivity.
  assert (C1 : lconst w 1 = Some 1) by (unfold lconst, wrap; rewrite Z.mod_small; [reflexivity|lia]).
  assert (CM : lconst w (2 ^ (2 ^ lw - 1) - 1) = Some (P - 1)).
  { unfold lconst, wrap. change (2 ^ lw) with w. fold P. rewrite Z.mod_small; [reflexivity|lia]. }
  rewrite CM, C0, C1. unfold licmp at 1. cbn [lmap2 cmp].
  unfold licmp at 1. cbn [lmap2 cmp].
  assert (Sa : sgn w a = signed lw a) by (apply sgn_signed; [exact Vl|unfold in_u; fold w; lia]).
  assert (S0 : sgn w 0 = 0) by (unfold sgn; fold P; destruct (Z.ltb_spec 0 P); lia).
  assert (Sb : sgn w b = if b <? P then b else b - 2 * P) by (unfold sgn; fold P; rewrite HB; reflexivity).
  rewrite S0.
  assert (EA : sgn w a = if a <? P then a else a - 2 * P) by (unfold sgn; fold P; rewrite HB; reflexivity).
  rewrite <- Sa.
  unfold lsdiv, lsrem, lsdiv_by. replace (b =? 0) with false by lia.
  fold P. rewrite HB.
  replace ((a =? P) && (b =? 2 * P - 1)) with false by (rewrite HB in NU; lia). cbn [rbind].
  assert (REP : forall s, - P <= s < P -> repr_s lw s (wrap w s)).
  { intros s Hs. unfold wrap. apply (pattern_repr lw s Vl). unfold in_s. fold w P. lia. }
  assert (W : forall s, wrap w s = s mod (2 * P)) by (intros s; unfold wrap; now rewrite HB).
  destruct (Z.ltb_spec (P - 1) b) as [LB|LB]; destruct (Z.ltb_spec (sgn w a) 0) as [NA|NA];
    unfold b2z, lshl, lmap2;
    replace (1 <? w) with true by (assert (8 <= w); [unfold w, bits; change 8 with (2 ^ 3); apply Z.pow_le_mono_r; unfold exact_lw in El; lia|lia]);
    cbn [lor lmap2].
  - (* large divisor, negative dividend *)
    replace (wrap w (1 * 2 ^ 1)) with 2 by (rewrite W, Z.mod_small; [reflexivity|lia]).
    change (Z.lor 2 1) with 3. cbn [lswitch]. change (3 =? 1) with false. change (3 =? 2) with false.
    change (3 =? 3) with true. cbv iota.
    exists (-1), (wrap w (-1)), (a + b - 2 * P). split; [|split; [apply REP; lia|]].
    + unfold pairv, lconst, ladd, lmap2. f_equal. f_equal. f_equal; [|f_equal]; f_equal; f_equal; rewrite !W.
      * replace (2 * P - 1) with (-1 + 1 * (2 * P)) by lia. rewrite Z.mod_add by lia. reflexivity.
      * replace (a + b) with (a + b - 2 * P + 1 * (2 * P)) at 1 by lia. rewrite Z.mod_add by lia.
        apply Z.mod_small. destruct (Z.ltb_spec a P); lia.
    + destruct (Z.ltb_spec a P); lia.
  - replace (wrap w (1 * 2 ^ 1)) with 2 by (rewrite W, Z.mod_small; [reflexivity|lia]).
    change (Z.lor 2 0) with 2. cbn [lswitch]. change (2 =? 1) with false. change (2 =? 2) with true. cbv iota.
    exists 0, 0, a. split; [reflexivity|]. split; [change 0 with (wrap w 0) at 2; apply REP; lia|].
    destruct (Z.ltb_spec a P); lia.
  - replace (wrap w (0 * 2 ^ 1)) with 0 by reflexivity.
    change (Z.lor 0 1) with 1. cbn [lswitch]. change (1 =? 1) with true. cbv iota.
    set (s := sgn w a) in *. rewrite Sb. replace (b <? P) with true by lia.
    pose proof (Z.quot_rem s b Nb) as QR. pose proof (Z.rem_bound_pos_neg s b ltac:(lia) ltac:(lia)) as RB.
    assert (QB : s <= Z.quot s b <= 0).
    { split; [|nia]. destruct (Z.le_gt_cases s (Z.quot s b)); nia. }
    assert (SB : - P <= s < 0) by (destruct (Z.ltb_spec a P); lia).
    unfold licmp, lmap2. cbn [cmp]. rewrite !W.
    destruct (Z.eqb_spec (Z.rem s b) 0) as [R0|R0].
    + rewrite R0. rewrite Z.mod_0_l by lia. cbn [lselect b2z Z.eqb].
      exists (Z.quot s b), (wrap w (Z.quot s b)), 0. split; [rewrite W; reflexivity|]. split; [apply REP; lia|lia].
    + replace (Z.rem s b mod (2 * P) =? 0) with false.
      2:{ replace (Z.rem s b) with (Z.rem s b + 2 * P + (-1) * (2 * P)) by lia. rewrite Z.mod_add, Z.mod_small; lia. }
      cbn [lselect b2z Z.eqb].
      exists (Z.quot s b - 1), (wrap w (Z.quot s b - 1)), (b + Z.rem s b). split.
      * unfold pairv, lsub, ladd, lmap2. f_equal. f_equal. f_equal; [|f_equal]; f_equal; f_equal; rewrite !W.
        -- rewrite Zminus_mod_idemp_l. reflexivity.
        -- rewrite Zplus_mod_idemp_r. apply Z.mod_small. lia.
      * split; [apply REP; nia|nia].
  - replace (wrap w (0 * 2 ^ 1)) with 0 by reflexivity.
    change (Z.lor 0 0) with 0. cbn [lswitch]. change (0 =? 1) with false. change (0 =? 2) with false.
    change (0 =? 3) with false. cbv iota.
    set (s := sgn w a) in *. rewrite Sb. replace (b <? P) with true by lia.
    assert (SB : 0 <= s < P) by (destruct (Z.ltb_spec a P); lia).
    rewrite Z.quot_div_nonneg, Z.rem_mod_nonneg by lia.
    pose proof (Z.mod_pos_bound s b ltac:(lia)) as MB. pose proof (Z_div_mod_eq_full s b) as DM.
    assert (QB : 0 <= s / b <= s) by (split; [apply Z.div_pos; lia|apply Z.div_le_upper_bound; nia]).
    exists (s / b), (wrap w (s / b)), (s mod b). split; [|split; [apply REP; lia|nia]].
    unfold pairv. f_equal. f_equal. f_equal. f_equal. f_equal. f_equal. rewrite W. apply Z.mod_small. lia.
Qed.

Lemma valid_true lw b : exact_lw lw -> b <> 0 ->
  licmp NE (llvm_width lw) (Some b) (lconst (llvm_width lw) 0) = Some 1.
Proof.
  intros El Nb. unfold licmp, lconst, lmap2, wrap. cbn [cmp]. rewrite Z.mod_0_l.
  - replace (b =? 0) with false by lia. reflexivity.
  - rewrite exact_width by assumption. pose proof (pow_bits_pos lw (exact_valid _ El)). lia.
Qed.

(** The outputs of a division, given quotient and remainder. *)
Definition div_out (op : div_or_mod) (panic : bool) (w q r : Z) : list lv :=
  let v := match op with Mod => VInt w (Some r) | _ => VInt w (Some q) end in
  match op, panic with
  | DivMod, true => [VInt w (Some q); VInt w (Some r)]
  | DivMod, false => [build_tag 1 [pairv w q r]]
  | _, true => [v]
  | _, false => [build_tag 1 [v]]
  end.

Lemma emit_divmod_eq op sg panic lw a b q r : exact_lw lw -> b <> 0 ->
  build_divmod sg lw (Some a) (Some b) = Ret (pairv (llvm_width lw) q r) ->
  emit_divmod op sg panic lw (Some a) (Some b) = Ret (div_out op panic (llvm_width lw) q r).
Proof.
  intros El Nb E. unfold emit_divmod, make_divmod. rewrite (valid_true _ _ El Nb), E.
  unfold val_or_panic, val_or_error. cbn [lswitch Z.eqb].
  destruct panic; destruct op; reflexivity.
Qed.

Lemma obs_div_out op panic lw q r : exact_lw lw ->
  obs_all lw (div_out op panic (llvm_width lw) q r) =
  Some (let v := match op with Mod => IntV lw r | _ => IntV lw q end in
        match op, panic with
        | DivMod, true => [IntV lw q; IntV lw r]
        | DivMod, false => [OkV (PairV (IntV lw q) (IntV lw r))]
        | _, true => [v]
        | _, false => [OkV v]
        end).
Proof.
  intros El. unfold div_out, pairv, build_tag.
  destruct op, panic; cbn; rewrite ?Z.eqb_refl; reflexivity.
Qed.

Lemma computes_div op sg panic lw a b (P : Z -> Z -> Prop) (spec : list cval -> Prop) :
  exact_lw lw -> b <> 0 ->
  (exists q r, build_divmod sg lw (Some a) (Some b) = Ret (pairv (llvm_width lw) q r) /\ P q r) ->
  (forall q r, P q r -> spec (let v := match op with Mod => IntV lw r | _ => IntV lw q end in
        match op, panic with
        | DivMod, true => [IntV lw q; IntV lw r]
        | DivMod, false => [OkV (PairV (IntV lw q) (IntV lw r))]
        | _, true => [v]
        | _, false => [OkV v]
        end)) ->
  computes lw spec (emit_divmod op sg panic lw (Some a) (Some b)).
Proof.
  intros El Nb (q & r & E & HP) HS.
  eexists. eexists. split; [exact (emit_divmod_eq op sg panic lw a b q r El Nb E)|].
  split; [apply (obs_div_out _ _ _ _ _ El)|]. apply HS, HP.
Qed.

(** * Bit patterns *)
Lemma bitwise_in lw f a b : (forall x y i, 0 <= i -> Z.testbit (f x y) i = true -> Z.testbit x i = true \/ Z.testbit y i = true) ->
  (forall x y, 0 <= x -> 0 <= y -> 0 <= f x y) ->
  valid_lw lw -> in_u lw a -> in_u lw b -> in_u lw (f a b).
Proof.
  intros HF HN Vl [A0 A] [B0 B]. unfold in_u. pose proof (bits_pos _ Vl). pose proof (HN a b A0 B0).
  split; [assumption|].
  destruct (Z.eq_dec (f a b) 0) as [->|NZ]; [apply Z.pow_pos_nonneg; lia|].
  apply Z.log2_lt_pow2; [lia|]. 
  destruct (Z.lt_ge_cases (Z.log2 (f a b)) (bits lw)) as [L|L]; [exact L|exfalso].
  pose proof (Z.bit_log2 (f a b) ltac:(lia)) as T.
  destruct (HF a b _ (Z.log2_nonneg _) T) as [X|X].
  - rewrite Z.bits_above_log2 in X; [discriminate|lia|].
    destruct (Z.eq_dec a 0) as [->|]; [change (Z.log2 0) with 0; lia|]. apply (Z.lt_le_trans _ (bits lw)); [apply (proj1 (Z.log2_lt_pow2 a (bits lw) ltac:(lia))); exact A|exact L].
  - rewrite Z.bits_above_log2 in X; [discriminate|lia|].
    destruct (Z.eq_dec b 0) as [->|]; [change (Z.log2 0) with 0; lia|]. apply (Z.lt_le_trans _ (bits lw)); [apply (proj1 (Z.log2_lt_pow2 b (bits lw) ltac:(lia))); exact B|exact L].
Qed.

Lemma land_in lw a b : valid_lw lw -> in_u lw a -> in_u lw b -> in_u lw (Z.land a b).
Proof. apply bitwise_in; intros x y; [intros i Hi; rewrite Z.land_spec; destruct (Z.testbit x i), (Z.testbit y i); auto|]. intros; apply Z.land_nonneg; auto. Qed.
Lemma lor_in lw a b : valid_lw lw -> in_u lw a -> in_u lw b -> in_u lw (Z.lor a b).
Proof. apply bitwise_in; intros x y; [intros i Hi; rewrite Z.lor_spec; destruct (Z.testbit x i), (Z.testbit y i); auto|]. intros; apply Z.lor_nonneg; auto. Qed.
Lemma lxor_in lw a b : valid_lw lw -> in_u lw a -> in_u lw b -> in_u lw (Z.lxor a b).
Proof. apply bitwise_in; intros x y; [intros i Hi; rewrite Z.lxor_spec; destruct (Z.testbit x i), (Z.testbit y i); auto|]. intros; apply Z.lxor_nonneg; tauto. Qed.

(** * The operations *)
Theorem emit2_good op lw a b : exact_lw lw -> in_u lw a -> in_u lw b -> arity op = 2%nat ->
  good2 op lw a b -> computes lw (spec2 op lw a b) (emit2 op lw (Some a) (Some b)).
Proof.
  intros El A B Ar G. pose proof (exact_valid _ El) as Vl.
  pose proof (half_bits _ Vl) as HB. pose proof (half_pos _ Vl) as HP. pose proof (bits_pos _ Vl) as BP.
  assert (SA := sgn_signed _ _ Vl A). assert (SB := sgn_signed _ _ Vl B).
  assert (DU : forall o p (spec : list cval -> Prop), b <> 0 ->
    (forall q r, (in_u lw q /\ q * b + r = a /\ 0 <= r < b) -> spec (let v := match o with Mod => IntV lw r | _ => IntV lw q end in
        match o, p with
        | DivMod, true => [IntV lw q; IntV lw r]
        | DivMod, false => [OkV (PairV (IntV lw q) (IntV lw r))]
        | _, true => [v] | _, false => [OkV v] end)) ->
    computes lw spec (emit_divmod o false p lw (Some a) (Some b))).
  { intros o p spec Nb HS. eapply computes_div; [exact El|exact Nb| |exact HS]. now apply build_divmod_u. }
  assert (DS : forall o p (spec : list cval -> Prop), b <> 0 -> ~ (a = 2 ^ (bits lw - 1) /\ b = 2 ^ bits lw - 1) ->
    (forall qs q r, repr_s lw qs q -> qs * b + r = signed lw a -> 0 <= r < b -> spec (let v := match o with Mod => IntV lw r | _ => IntV lw q end in
        match o, p with
        | DivMod, true => [IntV lw q; IntV lw r]
        | DivMod, false => [OkV (PairV (IntV lw q) (IntV lw r))]
        | _, true => [v] | _, false => [OkV v] end)) ->
    computes lw spec (emit_divmod o true p lw (Some a) (Some b))).
  { intros o p spec Nb NU HS.
    eapply (computes_div o true p lw a b (fun q r => exists qs, repr_s lw qs q /\ qs * b + r = signed lw a /\ 0 <= r < b)); [exact El|exact Nb| |].
    - destruct (build_divmod_s lw a b El A B Nb NU) as (qs & q & r & E & R). exists q, r. split; [exact E|]. exists qs. exact R.
    - intros q r (qs & R1 & R2 & R3). eapply HS; eassumption. }
  destruct op; try discriminate Ar; try contradiction G; unfold emit2;
    cbn [good2 panicking checked signed_div] in G;
    try (assert (Nb : b <> 0) by tauto; apply DU; [exact Nb|]; intros q r R; cbn [spec2];
         try (replace (b =? 0) with false by lia); destruct R as (R1 & R2 & R3); eauto 8; fail);
    try (assert (Nb : b <> 0) by tauto; apply DS; [exact Nb|tauto|]; intros qs q r R1 R2 R3; cbn [spec2];
         try (replace (b =? 0) with false by lia); eauto 10; fail);
    rewrite (exact_width _ El);
    try (apply cmp_computes; cbn [spec2 cmp]; rewrite ?SA, ?SB; try reflexivity; eexists; split; [reflexivity|]; lia);
    try (apply computes_int; [exact El|reflexivity]);
    try (subst lw; change (bits 6) with 64 in *; unfold intrinsic64, lmap2; cbn [Z.eqb Pos.eqb];
         apply (computes_int 6); [exact El|]; cbn [spec2]; eexists; split; [reflexivity|];
         rewrite <- ?SA, <- ?SB; destruct (Z.ltb_spec (sgn 64 a) (sgn 64 b)); lia);
    try (apply computes_int; [exact El|]; cbn [spec2]; eexists; split; [reflexivity|];
         split; [now (apply land_in || apply lor_in || apply lxor_in)|];
         intros i Hi; now rewrite ?Z.land_spec, ?Z.lor_spec, ?Z.lxor_spec).
  - apply (cmp_computes lw (a =? b)). reflexivity.
  - apply (cmp_computes lw (negb (a =? b))). reflexivity.
  - unfold emit_ipow. rewrite pow_loop_eq; [|pose proof (Z.pow_lt_mono_r 2 0 (bits lw) ltac:(lia) ltac:(lia)); lia|exact B|unfold in_u in B; lia].
    cbn [rbind]. apply computes_int; [exact El|]. cbn [spec2]. f_equal. f_equal.
    pose proof (Z.pow_lt_mono_r 2 0 (bits lw) ltac:(lia) ltac:(lia)) as P1. rewrite Z.pow_0_r in P1.
    destruct B as [B0 B]. destruct (Z.eqb_spec b 0) as [->|N0]; [rewrite Z.pow_0_r, Z.mod_small by lia; reflexivity|].
    destruct (Z.eqb_spec b 1) as [->|N1]; [rewrite Z.pow_1_r, Z.mod_small by exact A; reflexivity|].
    unfold wrap. f_equal. replace b with (1 + (b - 1)) at 2 by lia. rewrite Z.pow_add_r, Z.pow_1_r by lia. reflexivity.
  - unfold lshl. replace (b <? bits lw) with true by lia. apply computes_int; [exact El|]. cbn [spec2].
    eexists. split; [reflexivity|]. split; [now apply wrap_in|]. intros i Hi. destruct B as [B0 _].
    unfold wrap. rewrite Z.mod_pow2_bits_low by lia. rewrite Z.mul_pow2_bits by lia.
    destruct (Z.leb_spec b i); [reflexivity|]. apply Z.testbit_neg_r. lia.
  - unfold llshr. replace (b <? bits lw) with true by lia. apply computes_int; [exact El|]. cbn [spec2].
    destruct A as [A0 A]. destruct B as [B0 B].
    assert (PB : 0 < 2 ^ b) by (apply Z.pow_pos_nonneg; lia).
    eexists. split; [reflexivity|]. split.
    + unfold in_u. split; [apply Z.div_pos; lia|]. apply Z.div_lt_upper_bound; nia.
    + intros i Hi. rewrite Z.div_pow2_bits by lia. destruct (Z.ltb_spec (i + b) (bits lw)); [reflexivity|].
      destruct (Z.eq_dec a 0) as [->|NZ]; [apply Z.bits_0|].
      apply Z.bits_above_log2; [lia|]. apply (Z.lt_le_trans _ (bits lw)); [|lia].
      apply (proj1 (Z.log2_lt_pow2 a (bits lw) ltac:(lia))). exact A.
Qed.

Theorem emit1_good op lw a : exact_lw lw -> in_u lw a -> In op [ineg; inot; iabs; iu_to_s; is_to_u] ->
  good1 op lw a -> computes lw (spec1 op lw a) (emit1 op lw (Some a)).
Proof.
  intros El A I G. pose proof (exact_valid _ El) as Vl.
  pose proof (half_bits _ Vl) as HB. pose proof (half_pos _ Vl) as HP. pose proof (bits_pos _ Vl) as BP.
  assert (SA := sgn_signed _ _ Vl A). unfold in_u in A.
  cbn [In] in I. repeat (destruct I as [<-|I]); try contradiction I; unfold emit1; rewrite (exact_width _ El); cbn [good1] in G.
  - apply computes_int; [exact El|]. cbn [spec1]. reflexivity.
  - apply computes_int; [exact El|]. cbn [spec1].
    assert (O : wrap (bits lw) (-1) = Z.ones (bits lw)).
    { unfold wrap. rewrite <- Z.land_ones by lia. apply Z.land_m1_l. }
    rewrite O. eexists. split; [reflexivity|]. split.
    + apply lxor_in; [exact Vl|exact A|]. rewrite Z.ones_equiv. unfold in_u. lia.
    + intros i Hi. rewrite Z.lxor_spec, Z.ones_spec_low by lia. apply xorb_true_r.
  - destruct G as [-> NM]. change (bits 6) with 64 in *. unfold intrinsic64. cbn [Z.eqb Pos.eqb].
    unfold labs64. replace (a =? 2 ^ 63) with false by lia.
    apply (computes_int 6); [exact El|]. cbn [spec1]. now rewrite SA.
  - unfold int_type_bounds. change (2 ^ lw) with (bits lw). unfold licmp, lconst, lmap2. cbn [cmp].
    replace (wrap (bits lw) (2 ^ (bits lw - 1) - 1)) with (2 ^ (bits lw - 1) - 1) by (unfold wrap; rewrite Z.mod_small; lia).
    replace (a <=? 2 ^ (bits lw - 1) - 1) with true by lia. cbn [b2z val_or_panic lswitch Z.eqb Pos.eqb].
    apply computes_int; [exact El|]. cbn [spec1]. reflexivity.
  - unfold licmp, lconst, lmap2. cbn [cmp]. replace (sgn (bits lw) (wrap (bits lw) 0) <=? sgn (bits lw) a) with true.
    + cbn [b2z val_or_panic lswitch Z.eqb Pos.eqb]. apply computes_int; [exact El|]. cbn [spec1]. reflexivity.
    + replace (wrap (bits lw) 0) with 0 by (unfold wrap; rewrite Z.mod_0_l; lia). unfold sgn.
      destruct (Z.ltb_spec 0 (2 ^ (bits lw - 1))), (Z.ltb_spec a (2 ^ (bits lw - 1))); lia.
Qed.

(** A sign conversion whose value is not representable, and a division by zero that panics, stop the program. *)
Theorem convert_aborts op lw a : exact_lw lw -> in_u lw a -> op = iu_to_s \/ op = is_to_u ->
  2 ^ (bits lw - 1) <= a -> emit1 op lw (Some a) = Aborts.
Proof.
  intros El A O G. pose proof (exact_valid _ El) as Vl.
  pose proof (half_bits _ Vl) as HB. pose proof (half_pos _ Vl) as HP. unfold in_u in A.
  destruct O as [-> | ->]; unfold emit1; rewrite (exact_width _ El).
  - unfold int_type_bounds. change (2 ^ lw) with (bits lw). unfold licmp, lconst, lmap2. cbn [cmp].
    replace (wrap (bits lw) (2 ^ (bits lw - 1) - 1)) with (2 ^ (bits lw - 1) - 1) by (unfold wrap; rewrite Z.mod_small; lia).
    replace (a <=? 2 ^ (bits lw - 1) - 1) with false by lia. reflexivity.
  - unfold licmp, lconst, lmap2. cbn [cmp]. replace (sgn (bits lw) (wrap (bits lw) 0) <=? sgn (bits lw) a) with false; [reflexivity|].
    replace (wrap (bits lw) 0) with 0 by (unfold wrap; rewrite Z.mod_0_l; lia). unfold sgn.
    destruct (Z.ltb_spec 0 (2 ^ (bits lw - 1))), (Z.ltb_spec a (2 ^ (bits lw - 1))); lia.
Qed.

Theorem div_aborts op lw a : exact_lw lw -> panicking op -> emit2 op lw (Some a) (Some 0) = Aborts.
Proof.
  intros El P. pose proof (pow_bits_pos _ (exact_valid _ El)) as PP.
  assert (V : forall o s, emit_divmod o s true lw (Some a) (Some 0) = Aborts).
  { intros o s. unfold emit_divmod, make_divmod, licmp, lconst, lmap2, wrap. rewrite (exact_width _ El), Z.mod_0_l by lia. reflexivity. }
  destruct op; try contradiction P; apply V.
Qed.

(** * Width conversions *)
Lemma bits_mono lw0 lw1 : 0 <= lw0 <= lw1 -> bits lw0 <= bits lw1.
Proof. intros H. unfold bits. apply Z.pow_le_mono_r; lia. Qed.

Lemma pow_split_bits lw0 lw1 : valid_lw lw0 -> valid_lw lw1 -> lw0 <= lw1 ->
  2 ^ (bits lw0 - 1) <= 2 ^ (bits lw1 - 1) /\ 2 ^ bits lw0 <= 2 ^ bits lw1.
Proof.
  intros V0 V1 L. pose proof (bits_mono lw0 lw1 ltac:(unfold valid_lw in V0; lia)).
  pose proof (bits_pos _ V0). split; apply Z.pow_le_mono_r; lia.
Qed.

Theorem emit_conv_good op lw0 lw1 a : exact_lw lw0 -> exact_lw lw1 -> in_u lw0 a ->
  In op [iwiden_u; iwiden_s] /\ lw0 <= lw1 \/ In op [inarrow_u; inarrow_s] /\ lw1 <= lw0 ->
  computes lw1 (spec_conv op lw0 lw1 a) (emit_conv op lw0 lw1 (Some a)).
Proof.
  intros E0 E1 A H. pose proof (exact_valid _ E0) as V0. pose proof (exact_valid _ E1) as V1.
  pose proof (half_bits _ V0) as HB0. pose proof (half_pos _ V0) as HP0. pose proof (bits_pos _ V0) as BP0.
  pose proof (half_bits _ V1) as HB1. pose proof (half_pos _ V1) as HP1. pose proof (bits_pos _ V1) as BP1.
  assert (SA := sgn_signed _ _ V0 A). assert (SI := signed_in _ _ V0 A). pose proof (signed_cong _ _ V0 A) as SC.
  destruct H as [[I L]|[I L]]; cbn [In] in I; repeat (destruct I as [<-|I]); try contradiction I;
    unfold emit_conv; rewrite ?(exact_width _ E0), ?(exact_width _ E1).
  - destruct (pow_split_bits _ _ V0 V1 L) as [P1 P2]. unfold lcast. cbn [option_map].
    apply computes_int; [exact E1|]. cbn [spec_conv]. split; [exact L|]. f_equal. f_equal.
    destruct (Z.leb_spec (bits lw1) (bits lw0)); [|reflexivity]. unfold wrap. apply Z.mod_small. unfold in_u in A. lia.
  - destruct (pow_split_bits _ _ V0 V1 L) as [P1 P2]. unfold lcast. cbn [option_map].
    apply computes_int; [exact E1|]. cbn [spec_conv]. split; [exact L|]. eexists. split; [reflexivity|].
    rewrite SA. unfold in_s in SI.
    destruct (Z.leb_spec (bits lw1) (bits lw0)) as [W|W].
    + assert (EB : bits lw0 = bits lw1) by (pose proof (bits_mono lw0 lw1 ltac:(unfold valid_lw in V0; lia)); lia).
      unfold wrap. rewrite Z.mod_small by (unfold in_u in A; lia).
      replace a with (signed lw0 a mod 2 ^ bits lw1) at 2 by (rewrite <- EB; exact SC).
      apply (pattern_repr lw1 (signed lw0 a) V1). unfold in_s. lia.
    + unfold wrap. apply (pattern_repr lw1 (signed lw0 a) V1). unfold in_s. lia.
  - destruct (pow_split_bits _ _ V1 V0 L) as [P1 P2].
    unfold make_narrow, int_type_bounds. rewrite (exact_width _ E0), (exact_width _ E1). change (2 ^ lw1) with (bits lw1).
    unfold licmp, lconst, lmap2, lxor, lmap2. cbn [cmp]. unfold in_u in A.
    replace (wrap (bits lw0) (2 ^ bits lw1 - 1)) with (2 ^ bits lw1 - 1) by (unfold wrap; rewrite Z.mod_small; lia).
    destruct (Z.ltb_spec (2 ^ bits lw1 - 1) a) as [Out|In].
    + exists [build_tag 0 [VErr]], [ErrV]. split; [reflexivity|]. split; [reflexivity|].
      cbn [spec_conv]. split; [exact L|]. right. split; [unfold in_u; lia|reflexivity].
    + exists [build_tag 1 [VInt (bits lw1) (Some a)]], [OkV (IntV lw1 a)]. split; [|split].
      * unfold val_or_error. cbn [b2z]. change (Z.lxor 0 1) with 1. cbn [lselect Z.eqb]. unfold lcast. cbn [option_map].
        repeat f_equal. destruct (Z.leb_spec (bits lw1) (bits lw0)); [|reflexivity]. unfold wrap. apply Z.mod_small. lia.
      * cbn. rewrite (exact_width _ E1), Z.eqb_refl. reflexivity.
      * cbn [spec_conv]. split; [exact L|]. left. split; [unfold in_u; lia|reflexivity].
  - destruct (pow_split_bits _ _ V1 V0 L) as [P1 P2].
    unfold make_narrow, int_type_bounds. rewrite (exact_width _ E0), (exact_width _ E1). change (2 ^ lw1) with (bits lw1).
    unfold licmp, lconst, lor, lxor, lmap2. cbn [cmp]. unfold in_u in A.
    assert (M1 : sgn (bits lw0) (wrap (bits lw0) (2 ^ (bits lw1 - 1) - 1)) = 2 ^ (bits lw1 - 1) - 1).
    { unfold wrap. rewrite Z.mod_small by lia. unfold sgn. destruct (Z.ltb_spec (2 ^ (bits lw1 - 1) - 1) (2 ^ (bits lw0 - 1))); lia. }
    assert (M2 : sgn (bits lw0) (wrap (bits lw0) (- 2 ^ (bits lw1 - 1))) = - 2 ^ (bits lw1 - 1)).
    { unfold wrap. replace (- 2 ^ (bits lw1 - 1)) with (2 ^ bits lw0 - 2 ^ (bits lw1 - 1) + (-1) * 2 ^ bits lw0) at 1 by lia.
      rewrite Z.mod_add, Z.mod_small by lia. unfold sgn.
      destruct (Z.ltb_spec (2 ^ bits lw0 - 2 ^ (bits lw1 - 1)) (2 ^ (bits lw0 - 1))); lia. }
    rewrite M1, M2, SA. unfold val_or_error.
    destruct (Z.ltb_spec (2 ^ (bits lw1 - 1) - 1) (signed lw0 a)) as [O1|O1];
    [|destruct (Z.ltb_spec (signed lw0 a) (- 2 ^ (bits lw1 - 1))) as [O2|O2]].
    + exists [build_tag 0 [VErr]], [ErrV].
      split; [destruct (signed lw0 a <? - 2 ^ (bits lw1 - 1)); reflexivity|]. split; [reflexivity|].
      cbn [spec_conv]. split; [exact L|]. right. split; [unfold in_s; lia|reflexivity].
    + exists [build_tag 0 [VErr]], [ErrV]. split; [reflexivity|]. split; [reflexivity|].
      cbn [spec_conv]. split; [exact L|]. right. split; [unfold in_s; lia|reflexivity].
    + cbn [b2z]. change (Z.lor 0 0) with 0. change (Z.lxor 0 1) with 1. cbn [lselect Z.eqb]. unfold lcast. cbn [option_map].
      assert (W : (if bits lw1 <=? bits lw0 then wrap (bits lw1) a else wrap (bits lw1) (sgn (bits lw0) a)) = signed lw0 a mod 2 ^ bits lw1).
      { pose proof (bits_mono lw1 lw0 ltac:(unfold valid_lw in V1; lia)). destruct (Z.leb_spec (bits lw1) (bits lw0)); [|lia].
        unfold wrap. rewrite <- SC at 1. symmetry. apply Znumtheory.Zmod_div_mod; [lia|lia|].
        exists (2 ^ (bits lw0 - bits lw1)). rewrite <- Z.pow_add_r by lia. f_equal. lia. }
      rewrite W. eexists. eexists. split; [reflexivity|]. split; [cbn [obs_all obs build_tag]; rewrite (exact_width _ E1), Z.eqb_refl; reflexivity|].
      cbn [spec_conv]. split; [exact L|]. left. eexists. split; [|reflexivity].
      apply (pattern_repr lw1 (signed lw0 a) V1). unfold in_s. lia.
Qed.
