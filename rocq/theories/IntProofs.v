(** Lemmas about the integer folding model. *)
From Coq Require Import ZArith List Bool Lia ZifyBool.
From Verif Require Import IntModel IntSpec.
Import ListNotations.
Open Scope Z_scope.
Ltac Zify.zify_post_hook ::= Z.div_mod_to_equations.

(** * Powers of two *)

Lemma lw_cases lw : valid_lw lw ->
  lw = 0 \/ lw = 1 \/ lw = 2 \/ lw = 3 \/ lw = 4 \/ lw = 5 \/ lw = 6.
Proof. unfold valid_lw; lia. Qed.

Ltac lw_split H :=
  destruct (lw_cases _ H) as [?|[?|[?|[?|[?|[?|?]]]]]]; subst.

Lemma bits_pos lw : valid_lw lw -> 1 <= bits lw <= 64.
Proof. intros H; lw_split H; cbv; split; congruence. Qed.

Lemma two64_bits lw : valid_lw lw -> exists k, 0 < k /\ two64 = k * 2 ^ bits lw.
Proof.
  intros H. exists (2 ^ (64 - bits lw)). pose proof (bits_pos _ H).
  split; [apply Z.pow_pos_nonneg; lia|].
  unfold two64. rewrite <- Z.pow_add_r by lia. f_equal; lia.
Qed.

Lemma half_bits lw : valid_lw lw -> 2 ^ bits lw = 2 * 2 ^ (bits lw - 1).
Proof.
  intros H; pose proof (bits_pos _ H).
  replace (bits lw) with (1 + (bits lw - 1)) at 1 by lia.
  rewrite Z.pow_add_r by lia. reflexivity.
Qed.

Lemma half_pos lw : valid_lw lw -> 0 < 2 ^ (bits lw - 1).
Proof. intros H; pose proof (bits_pos _ H); apply Z.pow_pos_nonneg; lia. Qed.

Lemma pow_bits_le lw : valid_lw lw -> 2 ^ bits lw <= two64.
Proof.
  intros H; pose proof (bits_pos _ H); unfold two64; apply Z.pow_le_mono_r; lia.
Qed.

Lemma pow_bits_pos lw : valid_lw lw -> 0 < 2 ^ bits lw.
Proof. intros H; pose proof (bits_pos _ H); apply Z.pow_pos_nonneg; lia. Qed.

Lemma mod_mod_bits x lw : valid_lw lw -> (x mod two64) mod 2 ^ bits lw = x mod 2 ^ bits lw.
Proof.
  intros H. destruct (two64_bits _ H) as (k & Hk & E). rewrite E.
  pose proof (pow_bits_pos _ H).
  rewrite Z.mul_comm, Z.rem_mul_r by lia.
  rewrite (Z.mul_comm (2 ^ bits lw)). rewrite Z.add_mod, Z.mod_mul by lia.
  rewrite Z.add_0_r, !Z.mod_mod by lia. reflexivity.
Qed.

Lemma mask_ones lw : valid_lw lw -> bitmask_from_logwidth lw = Z.ones (bits lw).
Proof. intros H; lw_split H; reflexivity. Qed.

Lemma land_mask x lw : valid_lw lw ->
  Z.land x (bitmask_from_logwidth lw) = x mod 2 ^ bits lw.
Proof.
  intros H. rewrite (mask_ones _ H), Z.land_ones; [reflexivity|].
  pose proof (bits_pos _ H); lia.
Qed.

Lemma to_u64_small v : 0 <= v < two64 -> to_u64 v = v.
Proof. intros; unfold to_u64; apply Z.mod_small; assumption. Qed.

Lemma to_i64_small v : 0 <= v < two63 -> to_i64 v = v.
Proof.
  intros H. unfold to_i64. rewrite Z.mod_small.
  - destruct (Z.ltb_spec v two63); lia.
  - unfold two63, two64 in *; lia.
Qed.

(** * Readings of constants *)

Lemma signed_eq lw v : valid_lw lw -> in_u lw v ->
  signed lw v = if v <? 2 ^ (bits lw - 1) then v else v - 2 ^ bits lw.
Proof.
  intros Hl [H0 H1]. unfold signed.
  pose proof (bits_pos _ Hl) as Hb. pose proof (half_pos _ Hl) as Hp.
  rewrite (half_bits _ Hl) in *.
  rewrite Z.testbit_eqb by lia.
  destruct (Z.ltb_spec v (2 ^ (bits lw - 1))) as [Hlt|Hge].
  - rewrite Z.div_small, Z.mod_small by lia. change (0 mod 2 =? 1) with false. cbv iota. lia.
  - assert (v / 2 ^ (bits lw - 1) = 1) as -> by (symmetry; apply Z.div_unique with (v - 2 ^ (bits lw - 1)); lia).
    change (1 mod 2 =? 1) with true. cbv iota. assert (v mod 2 ^ (bits lw - 1) = v - 2 ^ (bits lw - 1)) as ->
      by (symmetry; apply Z.mod_unique with 1; lia). lia.
Qed.

Lemma signed_in lw v : valid_lw lw -> in_u lw v -> in_s lw (signed lw v).
Proof.
  intros Hl Hv. rewrite (signed_eq _ _ Hl Hv). unfold in_s, in_u in *.
  rewrite (half_bits _ Hl) in *. pose proof (half_pos _ Hl).
  destruct (Z.ltb_spec v (2 ^ (bits lw - 1))); lia.
Qed.

Lemma signed_cong lw v : valid_lw lw -> in_u lw v -> signed lw v mod 2 ^ bits lw = v.
Proof.
  intros Hl Hv. rewrite (signed_eq _ _ Hl Hv). unfold in_u in Hv.
  destruct (v <? 2 ^ (bits lw - 1)).
  - apply Z.mod_small; lia.
  - symmetry; apply Z.mod_unique with (-1); lia.
Qed.

Lemma value_s_signed c : wf_ci c -> value_s c = signed (ci_lw c) (ci_val c).
Proof.
  destruct c as [lw v]; cbn [ci_lw ci_val]. intros [Hl Hv]; cbn [ci_lw ci_val] in *.
  rewrite (signed_eq _ _ Hl Hv). unfold value_s; cbn [ci_lw ci_val].
  unfold in_u in Hv.
  lw_split Hl;
    cbn [Z.eqb LOG_WIDTH_MAX] in *;
    unfold to_i64;
    try change (two64) with 18446744073709551616 in *;
    try change (two63) with 9223372036854775808 in *;
    try change (2 ^ bits 0) with 2 in *; try change (2 ^ (bits 0 - 1)) with 1 in *;
    try change (2 ^ 2 ^ 0) with 2;
    try change (2 ^ bits 1) with 4 in *; try change (2 ^ (bits 1 - 1)) with 2 in *;
    try change (2 ^ 2 ^ 1) with 4;
    try change (2 ^ bits 2) with 16 in *; try change (2 ^ (bits 2 - 1)) with 8 in *;
    try change (2 ^ 2 ^ 2) with 16;
    try change (2 ^ bits 3) with 256 in *; try change (2 ^ (bits 3 - 1)) with 128 in *;
    try change (2 ^ 2 ^ 3) with 256;
    try change (2 ^ bits 4) with 65536 in *; try change (2 ^ (bits 4 - 1)) with 32768 in *;
    try change (2 ^ 2 ^ 4) with 65536;
    try change (2 ^ bits 5) with 4294967296 in *; try change (2 ^ (bits 5 - 1)) with 2147483648 in *;
    try change (2 ^ 2 ^ 5) with 4294967296;
    try change (2 ^ bits 6) with 18446744073709551616 in *;
    try change (2 ^ (bits 6 - 1)) with 9223372036854775808 in *;
    rewrite ?(Z.mod_small v) by lia;
    try (rewrite (Z.mod_small (v * 2)) by lia);
    repeat match goal with |- context [if ?b then _ else _] => destruct b eqn:? end; lia.
Qed.

Lemma new_u_ok lw v : valid_lw lw -> in_u lw v -> new_u lw v = Some (mk_ci lw v).
Proof.
  intros Hl Hv. unfold new_u, in_u, valid_lw in *.
  assert (is_valid_log_width lw = true) as -> by (unfold is_valid_log_width, LOG_WIDTH_BOUND, LOG_WIDTH_MAX; lia).
  cbn [negb]. unfold bits in *.
  destruct (Z.leb_spec (2 ^ 2 ^ lw) v); [lia|].
  rewrite andb_false_r. reflexivity.
Qed.

Definition pattern (lw s : Z) : Z := s mod 2 ^ bits lw.

Lemma pattern_repr lw s : valid_lw lw -> in_s lw s -> repr_s lw s (pattern lw s).
Proof.
  intros Hl Hs. unfold repr_s, pattern.
  pose proof (pow_bits_pos _ Hl) as Hp.
  assert (Hu : in_u lw (s mod 2 ^ bits lw)) by (unfold in_u; apply Z.mod_pos_bound; lia).
  split; [exact Hu|]. rewrite (signed_eq _ _ Hl Hu). unfold in_s in Hs.
  rewrite (half_bits _ Hl) in *. pose proof (half_pos _ Hl) as Hh.
  destruct (Z.leb_spec 0 s).
  - rewrite Z.mod_small by lia. destruct (Z.ltb_spec s (2 ^ (bits lw - 1))); lia.
  - assert (s mod (2 * 2 ^ (bits lw - 1)) = s + 2 * 2 ^ (bits lw - 1)) as ->
      by (symmetry; apply Z.mod_unique with (-1); lia).
    destruct (Z.ltb_spec (s + 2 * 2 ^ (bits lw - 1)) (2 ^ (bits lw - 1))); lia.
Qed.

Lemma new_s_ok lw s : valid_lw lw -> in_s lw s -> new_s lw s = Some (mk_ci lw (pattern lw s)).
Proof.
  intros Hl Hs. unfold new_s.
  assert (is_valid_log_width lw = true) as ->
      by (unfold is_valid_log_width, LOG_WIDTH_BOUND, LOG_WIDTH_MAX, valid_lw in *; lia).
  cbn [negb]. fold (bits lw). unfold in_s in Hs.
  destruct (Z.leb_spec (2 ^ (bits lw - 1)) s); [lia|].
  destruct (Z.ltb_spec s (- 2 ^ (bits lw - 1))); [lia|].
  cbn [orb]. rewrite andb_false_r.
  do 2 f_equal. unfold pattern, to_u64, LOG_WIDTH_MAX.
  pose proof (half_pos _ Hl). pose proof (half_bits _ Hl). pose proof (pow_bits_le _ Hl).
  destruct (Z.leb_spec 0 s).
  - cbn [orb]. rewrite !Z.mod_small by lia. reflexivity.
  - cbn [orb]. destruct (Z.eqb_spec lw 6) as [->|Hne].
    + reflexivity.
    + rewrite (Z.mod_small (s + 2 ^ bits lw)) by lia.
      apply Z.mod_unique with (-1); lia.
Qed.

Lemma repr_unique lw s w w' : valid_lw lw -> repr_s lw s w -> repr_s lw s w' -> w = w'.
Proof.
  intros Hl [Hw E] [Hw' E'].
  rewrite <- (signed_cong _ _ Hl Hw), <- (signed_cong _ _ Hl Hw'). congruence.
Qed.

Lemma pattern_signed lw v : valid_lw lw -> in_u lw v -> pattern lw (signed lw v) = v.
Proof. intros; apply signed_cong; assumption. Qed.

(** * Prologues on well-formed inputs *)

Lemma get_lw_ok lw : valid_lw lw -> get_log_width (TBoundedNat lw) = Some lw.
Proof.
  intros H. unfold get_log_width, is_valid_log_width, LOG_WIDTH_BOUND, LOG_WIDTH_MAX, valid_lw in *.
  rewrite Z.mod_small by lia. destruct (Z.ltb_spec lw (6 + 1)); [reflexivity|lia].
Qed.

Lemma bin_prologue_ok lw a b : valid_lw lw ->
  bin_prologue [TBoundedNat lw] [IntV lw a; IntV lw b] = Folded (lw, mk_ci lw a, mk_ci lw b).
Proof.
  intros H. unfold bin_prologue. rewrite (get_lw_ok _ H). cbn.
  rewrite Z.eqb_refl. reflexivity.
Qed.

Lemma un_prologue_ok lw a : valid_lw lw ->
  un_prologue [TBoundedNat lw] [IntV lw a] = Folded (lw, mk_ci lw a).
Proof.
  intros H. unfold un_prologue. rewrite (get_lw_ok _ H). cbn.
  rewrite Z.eqb_refl. reflexivity.
Qed.

Lemma conv_prologue_ok (ge : bool) lw0 lw1 a : valid_lw lw0 -> valid_lw lw1 ->
  (if ge then lw1 <= lw0 else lw0 <= lw1) ->
  conv_prologue ge [TBoundedNat lw0; TBoundedNat lw1] [IntV lw0 a] = Folded (lw0, lw1, mk_ci lw0 a).
Proof.
  intros H0 H1 Hge. unfold conv_prologue. rewrite (get_lw_ok _ H0), (get_lw_ok _ H1). cbn.
  rewrite Z.eqb_refl. destruct ge; rewrite (proj2 (Z.leb_le _ _) Hge); reflexivity.
Qed.

Lemma wf_mk lw a : valid_lw lw -> in_u lw a -> wf_ci (mk_ci lw a).
Proof. split; assumption. Qed.

(** * C01 *)

Lemma new_u_iff lw v : 0 <= lw < 256 -> 0 <= v < 2 ^ 64 ->
  (exists c, new_u lw v = Some c) <-> (valid_lw lw /\ in_u lw v).
Proof.
  intros Hl Hv. split.
  - intros [c E]. unfold new_u in E.
    unfold is_valid_log_width, LOG_WIDTH_BOUND, LOG_WIDTH_MAX in E.
    destruct (Z.ltb_spec lw (6 + 1)); cbn [negb] in E; [|discriminate].
    assert (valid_lw lw) by (unfold valid_lw; lia). split; [assumption|].
    unfold in_u, bits. split; [lia|].
    destruct (Z.leb_spec lw 5); cbn [andb] in E.
    + destruct (Z.leb_spec (2 ^ 2 ^ lw) v); [discriminate|lia].
    + assert (lw = 6) by lia; subst. exact (proj2 Hv).
  - intros [H1 H2]. eexists. apply new_u_ok; assumption.
Qed.

Lemma new_u_value lw v c : new_u lw v = Some c -> value_u c = v /\ ci_lw c = lw.
Proof.
  unfold new_u. destruct (negb _); [discriminate|]. destruct (_ && _); [discriminate|].
  intros E; injection E as <-. split; reflexivity.
Qed.

Lemma new_s_iff lw v : 0 <= lw < 256 -> - 2 ^ 63 <= v < 2 ^ 63 ->
  (exists c, new_s lw v = Some c) <-> (valid_lw lw /\ in_s lw v).
Proof.
  intros Hl Hv. split.
  - intros [c E]. unfold new_s in E.
    unfold is_valid_log_width, LOG_WIDTH_BOUND in E. unfold LOG_WIDTH_MAX in E at 1.
    destruct (Z.ltb_spec lw (6 + 1)); cbn [negb] in E; [|discriminate].
    assert (valid_lw lw) by (unfold valid_lw; lia). split; [assumption|].
    unfold in_s. fold (bits lw) in E.
    destruct (Z.leb_spec lw 5); cbn [andb] in E.
    + destruct (Z.leb_spec (2 ^ (bits lw - 1)) v); [discriminate|].
      destruct (Z.ltb_spec v (- 2 ^ (bits lw - 1))); [discriminate|lia].
    + assert (lw = 6) by lia; subst. exact Hv.
  - intros [H1 H2]. eexists. apply new_s_ok; assumption.
Qed.

Lemma new_s_value lw v c : 0 <= lw < 256 -> - 2 ^ 63 <= v < 2 ^ 63 ->
  new_s lw v = Some c -> value_s c = v /\ ci_lw c = lw /\ wf_ci c.
Proof.
  intros Hl Hv E.
  destruct (proj1 (new_s_iff lw v Hl Hv) (ex_intro _ _ E)) as [H1 H2].
  rewrite (new_s_ok _ _ H1 H2) in E; injection E as <-.
  destruct (pattern_repr _ _ H1 H2) as [Hu Hs].
  assert (Hwf : wf_ci (mk_ci lw (pattern lw v))) by (apply wf_mk; assumption).
  split; [|split; [reflexivity|assumption]].
  rewrite (value_s_signed _ Hwf). exact Hs.
Qed.

Lemma readings_congruent c : wf_ci c ->
  in_s (ci_lw c) (value_s c) /\ value_s c mod 2 ^ bits (ci_lw c) = value_u c.
Proof.
  intros Hwf. rewrite (value_s_signed _ Hwf). destruct Hwf as [Hl Hv].
  split; [apply signed_in; assumption | apply signed_cong; assumption].
Qed.

(** * C02: ring and bitwise operations *)

Lemma out_u_ok lw v : valid_lw lw -> in_u lw v -> out_u lw v = Folded [(0, IntV lw v)].
Proof. intros. unfold out_u. rewrite new_u_ok by assumption. reflexivity. Qed.

Lemma out_s_ok lw s : valid_lw lw -> in_s lw s -> out_s lw s = Folded [(0, IntV lw (pattern lw s))].
Proof. intros. unfold out_s. rewrite new_s_ok by assumption. reflexivity. Qed.

Lemma in_u_mod lw x : valid_lw lw -> in_u lw (x mod 2 ^ bits lw).
Proof. intros H. unfold in_u. apply Z.mod_pos_bound. apply pow_bits_pos; assumption. Qed.

Lemma land_u64_mask lw x : valid_lw lw ->
  Z.land (to_u64 x) (bitmask_from_logwidth lw) = x mod 2 ^ bits lw.
Proof. intros H. rewrite land_mask by assumption. apply mod_mod_bits; assumption. Qed.

Lemma in_u_bits lw v : valid_lw lw -> 0 <= v -> (forall i, bits lw <= i -> Z.testbit v i = false) -> in_u lw v.
Proof.
  intros Hl H0 Hb. split; [exact H0|].
  destruct (Z.eq_dec v 0) as [->|Hn]; [apply pow_bits_pos; assumption|].
  apply Z.log2_lt_pow2; [lia|].
  destruct (Z.lt_ge_cases (Z.log2 v) (bits lw)) as [|Hge]; [assumption|].
  exfalso. specialize (Hb _ Hge). rewrite Z.bit_log2 in Hb by lia. discriminate.
Qed.

Lemma in_u_testbit lw v i : valid_lw lw -> in_u lw v -> bits lw <= i -> Z.testbit v i = false.
Proof.
  intros Hl [H0 H1] Hi. destruct (Z.eq_dec v 0) as [->|Hn]; [apply Z.bits_0|].
  apply Z.bits_above_log2; [lia|].
  apply Z.lt_le_trans with (bits lw); [apply (proj1 (Z.log2_lt_pow2 v (bits lw) ltac:(lia))); assumption|assumption].
Qed.

Lemma bin_u_ok f lw a b v : valid_lw lw -> in_u lw v -> f lw a b = Folded v ->
  bin_u f [TBoundedNat lw] [IntV lw a; IntV lw b] = Folded [(0, IntV lw v)].
Proof.
  intros Hl Hv Hf. unfold bin_u. rewrite bin_prologue_ok by assumption. cbn [obind value_u ci_val].
  rewrite Hf. cbn [obind]. apply out_u_ok; assumption.
Qed.

Lemma ring_ok chk op lw a b : valid_lw lw -> in_u lw a -> in_u lw b ->
  In op [iadd; isub; imul] ->
  exists outs, fold chk op [TBoundedNat lw] [IntV lw a; IntV lw b] = Folded (on_ports outs)
               /\ spec2 op lw a b outs.
Proof.
  intros Hl Ha Hb Hop.
  destruct Hop as [<-|[<-|[<-|[]]]]; cbn [fold spec2]; (eexists; split; [|reflexivity]);
    cbn [on_ports combine map seq length]; change (Z.of_nat 0) with 0;
    apply bin_u_ok; auto using in_u_mod; rewrite land_u64_mask by assumption; reflexivity.
Qed.

Lemma neg_ok chk lw a : valid_lw lw -> in_u lw a ->
  fold chk ineg [TBoundedNat lw] [IntV lw a] = Folded (on_ports [IntV lw ((- a) mod 2 ^ bits lw)]).
Proof.
  intros Hl Ha. cbn [fold]. rewrite un_prologue_ok by assumption. cbn [obind value_u ci_val].
  rewrite land_u64_mask by assumption. rewrite out_u_ok; auto using in_u_mod.
Qed.

Lemma bitwise_ok chk op lw a b : valid_lw lw -> in_u lw a -> in_u lw b ->
  In op [iand; ior; ixor] ->
  exists outs, fold chk op [TBoundedNat lw] [IntV lw a; IntV lw b] = Folded (on_ports outs)
               /\ spec2 op lw a b outs.
Proof.
  intros Hl Ha Hb Hop.
  assert (Ha' := fun i => in_u_testbit lw a i Hl Ha).
  assert (Hb' := fun i => in_u_testbit lw b i Hl Hb).
  assert (0 <= a /\ 0 <= b) as [Pa Pb] by (unfold in_u in *; lia).
  destruct Hop as [<-|[<-|[<-|[]]]]; cbn [fold spec2].
  - assert (in_u lw (Z.land a b)).
    { apply in_u_bits; [assumption|apply Z.land_nonneg; lia|].
      intros i Hi. rewrite Z.land_spec, Ha' by assumption. reflexivity. }
    exists [IntV lw (Z.land a b)]; split; [apply (bin_u_ok _ lw a b (Z.land a b)); auto|].
    eexists; split; [reflexivity|]. split; [assumption|]. intros; apply Z.land_spec.
  - assert (in_u lw (Z.lor a b)).
    { apply in_u_bits; [assumption|apply Z.lor_nonneg; lia|].
      intros i Hi. rewrite Z.lor_spec, Ha', Hb' by assumption. reflexivity. }
    exists [IntV lw (Z.lor a b)]; split; [apply (bin_u_ok _ lw a b (Z.lor a b)); auto|].
    eexists; split; [reflexivity|]. split; [assumption|]. intros; apply Z.lor_spec.
  - assert (in_u lw (Z.lxor a b)).
    { apply in_u_bits; [assumption|apply Z.lxor_nonneg; lia|].
      intros i Hi. rewrite Z.lxor_spec, Ha', Hb' by assumption. reflexivity. }
    exists [IntV lw (Z.lxor a b)]; split; [apply (bin_u_ok _ lw a b (Z.lxor a b)); auto|].
    eexists; split; [reflexivity|]. split; [assumption|]. intros; apply Z.lxor_spec.
Qed.

Lemma not_ok chk lw a : valid_lw lw -> in_u lw a ->
  exists outs, fold chk inot [TBoundedNat lw] [IntV lw a] = Folded (on_ports outs)
               /\ spec1 inot lw a outs.
Proof.
  intros Hl Ha. cbn [fold spec1]. rewrite un_prologue_ok by assumption. cbn [obind value_u ci_val].
  rewrite (Z.land_comm _ (two64 - 1 - a)), land_mask by assumption.
  exists [IntV lw ((two64 - 1 - a) mod 2 ^ bits lw)]; split; [rewrite out_u_ok by auto using in_u_mod; reflexivity|].
  eexists; split; [reflexivity|]. split; [apply in_u_mod; assumption|].
  intros i Hi. rewrite Z.mod_pow2_bits_low by lia.
  replace (two64 - 1 - a) with (Z.lnot a + 1 * 2 ^ 64) by (unfold two64, Z.lnot; lia).
  pose proof (bits_pos _ Hl).
  transitivity (Z.testbit ((Z.lnot a + 1 * 2 ^ 64) mod 2 ^ 64) i).
  { symmetry; apply Z.mod_pow2_bits_low; lia. }
  rewrite Z.mod_add by lia. rewrite Z.mod_pow2_bits_low by lia.
  apply Z.lnot_spec; lia.
Qed.

(** * C03: division *)

Lemma divmod_s_ok chk n m : - 2 ^ 63 < n < 2 ^ 63 -> 0 < m < 2 ^ 64 ->
  exists q r, divmod_s chk n m = Folded (q, r) /\ q * m + r = n /\ 0 <= r < m.
Proof.
  intros Hn Hm. unfold divmod_s.
  destruct (Z.eqb_spec m 0); [lia|].
  destruct (Z.leb_spec 0 n).
  - rewrite to_i64_small.
    2:{ split; [apply Z.div_pos; lia|].
        apply Z.le_lt_trans with n; [apply Z.div_le_upper_bound; nia|]. unfold two63; lia. }
    do 2 eexists; split; [reflexivity|].
    pose proof (Z.div_mod n m). pose proof (Z.mod_pos_bound n m). lia.
  - unfold i64_min. destruct (Z.eqb_spec n (- 2 ^ 63)); [lia|]. cbn [negb].
    rewrite to_i64_small.
    2:{ split; [apply Z.div_pos; lia|].
        apply Z.le_lt_trans with (- n); [apply Z.div_le_upper_bound; nia|]. unfold two63; lia. }
    pose proof (Z.div_mod (- n) m) as E. pose proof (Z.mod_pos_bound (- n) m) as B.
    specialize (E ltac:(lia)). specialize (B ltac:(lia)).
    destruct (Z.eqb_spec ((- n) mod m) 0) as [E0|E0]; do 2 eexists; (split; [reflexivity|]); nia.
Qed.

Lemma divmod_s_min_ok chk m : 0 < m < 2 ^ 64 -> m < 2 ^ 63 -> m <> 1 ->
  Z.rem (- 2 ^ 63) m = 0 ->
  exists q r, divmod_s chk (- 2 ^ 63) m = Folded (q, r) /\ q * m + r = - 2 ^ 63 /\ 0 <= r < m.
Proof.
  intros Hm Hs H1 Hr. unfold divmod_s.
  destruct (Z.eqb_spec m 0); [lia|].
  change (0 <=? - 2 ^ 63) with false. change (- 2 ^ 63 =? i64_min) with true. cbn [negb].
  destruct (Z.eqb_spec m 1); [lia|]. unfold two63.
  destruct (Z.ltb_spec m (2 ^ 63)); [|lia]. cbv zeta. rewrite Hr.
  change (0 =? 0) with true. cbv iota.
  do 2 eexists; split; [reflexivity|].
  pose proof (Z.quot_rem (- 2 ^ 63) m). lia.
Qed.

Lemma divmod_s_min_big chk m : 2 ^ 63 <= m < 2 ^ 64 ->
  exists q r, divmod_s chk (- 2 ^ 63) m = Folded (q, r) /\ q * m + r = - 2 ^ 63 /\ 0 <= r < m.
Proof.
  intros Hm. unfold divmod_s.
  destruct (Z.eqb_spec m 0); [lia|].
  change (0 <=? - 2 ^ 63) with false. change (- 2 ^ 63 =? i64_min) with true. cbn [negb].
  destruct (Z.eqb_spec m 1); [lia|]. unfold two63.
  destruct (Z.ltb_spec m (2 ^ 63)); [lia|].
  do 2 eexists; split; [reflexivity|]. lia.
Qed.

Lemma divmod_s_min_one chk :
  exists q r, divmod_s chk (- 2 ^ 63) 1 = Folded (q, r) /\ q * 1 + r = - 2 ^ 63 /\ 0 <= r < 1.
Proof. do 2 eexists; split; [reflexivity|]. lia. Qed.

Lemma divmod_s_safe chk n m : - 2 ^ 63 <= n < 2 ^ 63 -> 0 < m < 2 ^ 64 -> divs_safe n m ->
  exists q r, divmod_s chk n m = Folded (q, r) /\ q * m + r = n /\ 0 <= r < m.
Proof.
  intros Hn Hm Hsafe.
  destruct (Z.eq_dec n (- 2 ^ 63)) as [->|Hne]; [|apply divmod_s_ok; lia].
  destruct (Z.le_gt_cases (2 ^ 63) m); [apply divmod_s_min_big; lia|].
  destruct (Z.eq_dec m 1) as [->|]; [apply divmod_s_min_one|].
  apply divmod_s_min_ok; try lia.
  destruct (Hsafe eq_refl) as [D|]; [|lia].
  apply Z.rem_divide; [lia|]. apply Z.divide_opp_r; assumption.
Qed.

Lemma divmod_s_unsafe n m : 0 < m -> ~ divs_safe n m ->
  forall chk q r, divmod_s chk n m = Folded (q, r) -> ~ (0 <= r < m).
Proof.
  intros Hm Hu chk q r Hd.
  assert (Hn : n = - 2 ^ 63).
  { destruct (Z.eq_dec n (- 2 ^ 63)); [assumption|]. exfalso; apply Hu; intros ?; contradiction. }
  assert (Hdiv : ~ (m | 2 ^ 63)) by (intros ?; apply Hu; intros _; left; assumption).
  assert (Hlt : m < 2 ^ 63).
  { destruct (Z.lt_ge_cases m (2 ^ 63)); [assumption|]. exfalso; apply Hu; intros _; right; assumption. }
  subst n. unfold divmod_s in Hd.
  assert (m <> 1) by (intros ->; apply Hdiv; exists (2 ^ 63); lia).
  destruct (Z.eqb_spec m 0); [lia|].
  change (0 <=? - 2 ^ 63) with false in Hd. change (- 2 ^ 63 =? i64_min) with true in Hd. cbn [negb] in Hd.
  destruct (Z.eqb_spec m 1); [lia|]. unfold two63 in Hd.
  destruct (Z.ltb_spec m (2 ^ 63)); [|lia]. cbv zeta in Hd.
  assert (Hr : Z.rem (- 2 ^ 63) m <> 0).
  { intros E. apply Hdiv. apply Z.rem_divide in E; [|lia]. apply Z.divide_opp_r in E. exact E. }
  destruct (Z.eqb_spec (Z.rem (- 2 ^ 63) m) 0); [contradiction|].
  pose proof (Z.rem_bound_pos_neg (- 2 ^ 63) m ltac:(lia) ltac:(lia)) as B.
  set (r' := Z.rem (- 2 ^ 63) m) in *. clearbody r'.
  unfold i64_result, i64_min, two63 in Hd.
  destruct (Z.leb_spec (- 2 ^ 63) (m - r')); [|lia].
  destruct (Z.ltb_spec (m - r') (2 ^ 63)); cbn [andb obind] in Hd.
  - injection Hd as _ <-. rewrite to_u64_small by (unfold two64; lia). lia.
  - destruct chk; [discriminate|]. cbn [obind] in Hd. injection Hd as _ <-.
    unfold to_i64, two63. rewrite Z.mod_small by (unfold two64; lia).
    destruct (Z.ltb_spec (m - r') (2 ^ 63)); [lia|].
    unfold to_u64. replace ((m - r' - two64) mod two64) with (m - r'); [lia|].
    apply Z.mod_unique with (-1); unfold two64; lia.
Qed.

Lemma quot_in_s lw a q b r : valid_lw lw -> in_s lw a -> 0 < b -> q * b + r = a -> 0 <= r < b -> in_s lw q.
Proof.
  intros Hl Ha Hb E Hr. unfold in_s in *. pose proof (half_pos _ Hl). nia.
Qed.

Lemma in_s_i64 lw s : valid_lw lw -> in_s lw s -> - 2 ^ 63 <= s < 2 ^ 63.
Proof.
  intros Hl Hs. unfold in_s in Hs. pose proof (bits_pos _ Hl).
  assert (2 ^ (bits lw - 1) <= 2 ^ 63) by (apply Z.pow_le_mono_r; lia). lia.
Qed.

Lemma in_u_u64 lw v : valid_lw lw -> in_u lw v -> 0 <= v < 2 ^ 64.
Proof. intros Hl Hv. unfold in_u in Hv. pose proof (pow_bits_le _ Hl). unfold two64 in *; lia. Qed.

(** Unsigned division, panicking variants. *)
Lemma div_u_ok chk op lw a b : valid_lw lw -> in_u lw a -> in_u lw b -> b <> 0 ->
  In op [idivmod_u; idiv_u; imod_u] ->
  exists outs, fold chk op [TBoundedNat lw] [IntV lw a; IntV lw b] = Folded (on_ports outs)
               /\ spec2 op lw a b outs.
Proof.
  intros Hl Ha Hb Hb0 Hop.
  assert (Hq : in_u lw (a / b)).
  { unfold in_u in *. split; [apply Z.div_pos; lia|].
    apply Z.le_lt_trans with a; [|lia]. apply Z.div_le_upper_bound; nia. }
  assert (Hr : in_u lw (a mod b)).
  { unfold in_u in *. pose proof (Z.mod_pos_bound a b ltac:(lia)). lia. }
  assert (E : (a / b) * b + a mod b = a) by (rewrite Z.mul_comm; symmetry; apply Z.div_mod; assumption).
  assert (B : 0 <= a mod b < b) by (apply Z.mod_pos_bound; unfold in_u in *; lia).
  destruct Hop as [<-|[<-|[<-|[]]]]; cbn [fold spec2]; rewrite bin_prologue_ok by assumption;
    cbn [obind value_u ci_val]; destruct (Z.eqb_spec b 0); try contradiction;
    rewrite ?out_u_ok, ?new_u_ok by assumption; cbn [or_panic obind].
  - exists [IntV lw (a / b); IntV lw (a mod b)]; split; [reflexivity|]. exists (a / b), (a mod b); auto.
  - exists [IntV lw (a / b)]; split; [reflexivity|]. exists (a / b), (a mod b); auto.
  - exists [IntV lw (a mod b)]; split; [reflexivity|]. exists (a / b), (a mod b); auto.
Qed.

(** Signed division, panicking variants, on safe operands. *)
Lemma div_s_ok chk op lw a b : valid_lw lw -> in_u lw a -> in_u lw b -> b <> 0 ->
  divs_safe (signed lw a) b ->
  In op [idivmod_s; idiv_s; imod_s] ->
  exists outs, fold chk op [TBoundedNat lw] [IntV lw a; IntV lw b] = Folded (on_ports outs)
               /\ spec2 op lw a b outs.
Proof.
  intros Hl Ha Hb Hb0 Hsafe Hop.
  pose proof (signed_in _ _ Hl Ha) as Hsa.
  destruct (divmod_s_safe chk (signed lw a) b) as (q & r & Ed & Eq & Hr).
  { apply (in_s_i64 lw); assumption. }
  { pose proof (in_u_u64 _ _ Hl Hb). lia. }
  { assumption. }
  assert (Hqs : in_s lw q) by (apply (quot_in_s lw (signed lw a) q b r); auto; lia).
  assert (Hru : in_u lw r) by (unfold in_u in *; lia).
  pose proof (pattern_repr _ _ Hl Hqs) as Hrepr.
  assert (Hvs : value_s (mk_ci lw a) = signed lw a) by (apply value_s_signed, wf_mk; assumption).
  destruct Hop as [<-|[<-|[<-|[]]]]; cbn [fold spec2]; rewrite bin_prologue_ok by assumption;
    cbn [obind]; rewrite Hvs; cbn [value_u ci_val]; destruct (Z.eqb_spec b 0); try contradiction;
    rewrite Ed; cbn [obind fst snd];
    rewrite ?out_u_ok, ?out_s_ok, ?new_u_ok, ?new_s_ok by assumption; cbn [or_panic obind].
  - exists [IntV lw (pattern lw q); IntV lw r]; split; [reflexivity|].
    exists q, (pattern lw q), r; auto.
  - exists [IntV lw (pattern lw q)]; split; [reflexivity|].
    exists q, (pattern lw q), r; auto.
  - exists [IntV lw r]; split; [reflexivity|]. exists q, r; auto.
Qed.

Lemma div_zero_nofold chk op lw a : valid_lw lw -> in_u lw a ->
  In op [idivmod_u; idiv_u; imod_u; idivmod_s; idiv_s; imod_s] ->
  fold chk op [TBoundedNat lw] [IntV lw a; IntV lw 0] = NoFold.
Proof.
  intros Hl Ha Hop.
  destruct Hop as [<-|[<-|[<-|[<-|[<-|[<-|[]]]]]]]; cbn [fold];
    rewrite bin_prologue_ok by assumption; reflexivity.
Qed.

Lemma div_zero_checked chk op lw a : valid_lw lw -> in_u lw a ->
  In op [idivmod_checked_u; idiv_checked_u; imod_checked_u;
         idivmod_checked_s; idiv_checked_s; imod_checked_s] ->
  fold chk op [TBoundedNat lw] [IntV lw a; IntV lw 0] = Folded (on_ports [ErrV]).
Proof.
  intros Hl Ha Hop.
  destruct Hop as [<-|[<-|[<-|[<-|[<-|[<-|[]]]]]]]; cbn [fold];
    rewrite bin_prologue_ok by assumption; reflexivity.
Qed.

(** On a non-zero divisor the checked variants fold to the same numbers as the panicking
    ones, but deliver them bare (a lone integer, or a one-variant tuple) instead of in the
    success variant of the declared result type. *)
Lemma checked_bare chk op cop lw a b outs : valid_lw lw -> in_u lw a -> in_u lw b -> b <> 0 ->
  checked_of op = Some cop ->
  fold chk op [TBoundedNat lw] [IntV lw a; IntV lw b] = Folded (on_ports outs) ->
  fold chk cop [TBoundedNat lw] [IntV lw a; IntV lw b]
  = Folded (on_ports [match outs with [v] => v | _ => CSum 0 outs end]).
Proof.
  intros Hl Ha Hb Hb0 Hc H.
  destruct op; try discriminate Hc; injection Hc as <-; cbn [fold] in *;
    rewrite bin_prologue_ok in * by assumption; cbn [obind] in *; cbn [value_u ci_val] in *;
    destruct (Z.eqb_spec b 0); try contradiction;
    unfold out_u, out_s in *;
    repeat match goal with
           | H : context [divmod_s ?c ?x ?y] |- _ => destruct (divmod_s c x y) as [[? ?]| |]; cbn [obind fst snd] in *; try discriminate H
           | H : context [new_u ?x ?y] |- _ => destruct (new_u x y); cbn [or_panic obind] in *; try discriminate H
           | H : context [new_s ?x ?y] |- _ => destruct (new_s x y); cbn [or_panic obind] in *; try discriminate H
           end;
    destruct outs as [|o1 [|o2 [|o3 outs]]]; try discriminate H;
    injection H; intros; subst; reflexivity.
Qed.

(** * C04 *)

Lemma cmp_ok chk op lw a b : valid_lw lw -> in_u lw a -> in_u lw b ->
  In op [ieq; ine; ilt_u; ilt_s; igt_u; igt_s; ile_u; ile_s; ige_u; ige_s] ->
  exists outs, fold chk op [TBoundedNat lw] [IntV lw a; IntV lw b] = Folded (on_ports outs)
               /\ spec2 op lw a b outs.
Proof.
  intros Hl Ha Hb Hop.
  assert (Hvs : value_s (mk_ci lw a) = signed lw a) by (apply value_s_signed, wf_mk; assumption).
  assert (Hvs' : value_s (mk_ci lw b) = signed lw b) by (apply value_s_signed, wf_mk; assumption).
  destruct Hop as [<-|[<-|[<-|[<-|[<-|[<-|[<-|[<-|[<-|[<-|[]]]]]]]]]]];
    cbn [fold spec2]; unfold cmp_u, cmp_s; rewrite bin_prologue_ok by assumption; cbn [obind];
    rewrite ?Hvs, ?Hvs'; cbn [value_u ci_val].
  - eexists [_]; split; reflexivity.
  - eexists [_]; split; reflexivity.
  - eexists [BoolV (a <? b)]; split; [reflexivity|]. eexists; split; [reflexivity|]. lia.
  - eexists [BoolV (signed lw a <? signed lw b)]; split; [reflexivity|].
    eexists; split; [reflexivity|]. lia.
  - eexists [BoolV (a >? b)]; split; [reflexivity|]. eexists; split; [reflexivity|]. lia.
  - eexists [BoolV (signed lw a >? signed lw b)]; split; [reflexivity|].
    eexists; split; [reflexivity|]. lia.
  - eexists [BoolV (a <=? b)]; split; [reflexivity|]. eexists; split; [reflexivity|]. lia.
  - eexists [BoolV (signed lw a <=? signed lw b)]; split; [reflexivity|].
    eexists; split; [reflexivity|]. lia.
  - eexists [BoolV (a >=? b)]; split; [reflexivity|]. eexists; split; [reflexivity|]. lia.
  - eexists [BoolV (signed lw a >=? signed lw b)]; split; [reflexivity|].
    eexists; split; [reflexivity|]. lia.
Qed.

Lemma minmax_ok chk op lw a b : valid_lw lw -> in_u lw a -> in_u lw b ->
  In op [imax_u; imin_u; imax_s; imin_s] ->
  exists outs, fold chk op [TBoundedNat lw] [IntV lw a; IntV lw b] = Folded (on_ports outs)
               /\ spec2 op lw a b outs.
Proof.
  intros Hl Ha Hb Hop.
  assert (Hvs : value_s (mk_ci lw a) = signed lw a) by (apply value_s_signed, wf_mk; assumption).
  assert (Hvs' : value_s (mk_ci lw b) = signed lw b) by (apply value_s_signed, wf_mk; assumption).
  assert (Hsa := signed_in _ _ Hl Ha). assert (Hsb := signed_in _ _ Hl Hb).
  assert (Pa := pattern_signed _ _ Hl Ha). assert (Pb := pattern_signed _ _ Hl Hb).
  destruct Hop as [<-|[<-|[<-|[<-|[]]]]]; cbn [fold spec2].
  - eexists [_]; split.
    + apply (bin_u_ok _ lw a b (Z.max a b)); auto. unfold in_u in *; lia.
    + eexists; split; [reflexivity|]. lia.
  - eexists [_]; split.
    + apply (bin_u_ok _ lw a b (Z.min a b)); auto. unfold in_u in *; lia.
    + eexists; split; [reflexivity|]. lia.
  - unfold bin_s. rewrite bin_prologue_ok by assumption. cbn [obind]. rewrite Hvs, Hvs'.
    rewrite out_s_ok; [|assumption|unfold in_s in *; lia].
    eexists [_]; split; [reflexivity|]. eexists; split; [reflexivity|].
    destruct (Z.max_spec (signed lw a) (signed lw b)) as [[? ->]|[? ->]]; rewrite ?Pa, ?Pb; lia.
  - unfold bin_s. rewrite bin_prologue_ok by assumption. cbn [obind]. rewrite Hvs, Hvs'.
    rewrite out_s_ok; [|assumption|unfold in_s in *; lia].
    eexists [_]; split; [reflexivity|]. eexists; split; [reflexivity|].
    destruct (Z.min_spec (signed lw a) (signed lw b)) as [[? ->]|[? ->]]; rewrite ?Pa, ?Pb; lia.
Qed.

Lemma bits_mono lw0 lw1 : valid_lw lw0 -> lw0 <= lw1 -> bits lw0 <= bits lw1.
Proof. intros; unfold bits; apply Z.pow_le_mono_r; unfold valid_lw in *; lia. Qed.

Lemma in_u_mono lw0 lw1 v : valid_lw lw0 -> lw0 <= lw1 -> in_u lw0 v -> in_u lw1 v.
Proof.
  intros H0 Hle Hv. unfold in_u in *. split; [lia|].
  apply Z.lt_le_trans with (2 ^ bits lw0); [lia|].
  apply Z.pow_le_mono_r; [lia|]. apply bits_mono; assumption.
Qed.

Lemma in_s_mono lw0 lw1 v : valid_lw lw0 -> lw0 <= lw1 -> in_s lw0 v -> in_s lw1 v.
Proof.
  intros H0 Hle Hv. unfold in_s in *.
  assert (2 ^ (bits lw0 - 1) <= 2 ^ (bits lw1 - 1)).
  { apply Z.pow_le_mono_r; [lia|]. pose proof (bits_mono _ _ H0 Hle). lia. }
  lia.
Qed.

Lemma widen_ok chk op lw0 lw1 a : valid_lw lw0 -> valid_lw lw1 -> lw0 <= lw1 -> in_u lw0 a ->
  In op [iwiden_u; iwiden_s] ->
  exists outs, fold chk op [TBoundedNat lw0; TBoundedNat lw1] [IntV lw0 a] = Folded (on_ports outs)
               /\ spec_conv op lw0 lw1 a outs.
Proof.
  intros H0 H1 Hle Ha Hop.
  assert (Hvs : value_s (mk_ci lw0 a) = signed lw0 a) by (apply value_s_signed, wf_mk; assumption).
  destruct Hop as [<-|[<-|[]]]; cbn [fold spec_conv];
    rewrite (conv_prologue_ok false) by assumption; cbn [obind].
  - cbn [value_u ci_val]. rewrite new_u_ok by (eauto using in_u_mono).
    eexists [_]; split; [reflexivity|]. split; [assumption|reflexivity].
  - rewrite Hvs.
    assert (Hs : in_s lw1 (signed lw0 a)) by (apply (in_s_mono lw0); auto using signed_in).
    rewrite new_s_ok by assumption.
    eexists [_]; split; [reflexivity|]. split; [assumption|].
    eexists; split; [reflexivity|]. apply pattern_repr; assumption.
Qed.

(** Narrowing to a strictly smaller machine word ([lw1 <= 5]) is right in both profiles. *)
Lemma narrow_ok chk op lw0 lw1 a : valid_lw lw0 -> valid_lw lw1 -> lw1 <= lw0 -> lw1 <= 5 ->
  in_u lw0 a -> In op [inarrow_u; inarrow_s] ->
  exists outs, fold chk op [TBoundedNat lw0; TBoundedNat lw1] [IntV lw0 a] = Folded (on_ports outs)
               /\ spec_conv op lw0 lw1 a outs.
Proof.
  intros H0 H1 Hle H5 Ha Hop.
  assert (Hvs : value_s (mk_ci lw0 a) = signed lw0 a) by (apply value_s_signed, wf_mk; assumption).
  assert (Hb : bits lw1 <= 32) by (change 32 with (bits 5); apply bits_mono; assumption).
  pose proof (bits_pos _ H1) as Hb1.
  destruct Hop as [<-|[<-|[]]]; cbn [fold spec_conv];
    rewrite (conv_prologue_ok true) by assumption; cbn [obind].
  - cbn [value_u ci_val]. fold (bits lw1). unfold u64_shr.
    destruct (Z.ltb_spec (bits lw1) 64); [|lia]. cbn [obind].
    pose proof (pow_bits_pos _ H1).
    destruct (Z.eqb_spec (a / 2 ^ bits lw1) 0) as [E|E]; cbn [negb].
    + assert (in_u lw1 a).
      { unfold in_u in *. apply Z.div_small_iff in E; lia. }
      rewrite new_u_ok by assumption.
      eexists [_]; split; [reflexivity|]. split; [assumption|]. left; split; [assumption|reflexivity].
    + eexists [_]; split; [reflexivity|]. split; [assumption|]. right; split; [|reflexivity].
      intros [? ?]. apply E. apply Z.div_small; lia.
  - rewrite Hvs. fold (bits lw1). unfold i64_one_shl.
    destruct (Z.ltb_spec (bits lw1 - 1) 64); [|lia]. cbn [obind].
    assert (P31 : 2 ^ (bits lw1 - 1) <= 2 ^ 31) by (apply Z.pow_le_mono_r; lia).
    pose proof (half_pos _ H1) as Hp.
    rewrite to_i64_small by (unfold two63; lia).
    destruct (Z.leb_spec (2 ^ (bits lw1 - 1)) (signed lw0 a)) as [Hbig|Hsmall].
    + eexists [_]; split; [reflexivity|]. split; [assumption|]. right; split; [|reflexivity].
      unfold in_s; lia.
    + unfold i64_result, i64_min, two63.
      destruct (Z.leb_spec (- 2 ^ 63) (- 2 ^ (bits lw1 - 1))); [|lia].
      destruct (Z.ltb_spec (- 2 ^ (bits lw1 - 1)) (2 ^ 63)); [|lia]. cbn [andb obind].
      destruct (Z.ltb_spec (signed lw0 a) (- 2 ^ (bits lw1 - 1))) as [Hlow|Hok].
      * eexists [_]; split; [reflexivity|]. split; [assumption|]. right; split; [|reflexivity].
        unfold in_s; lia.
      * assert (in_s lw1 (signed lw0 a)) by (unfold in_s; lia).
        rewrite new_s_ok by assumption.
        eexists [_]; split; [reflexivity|]. split; [assumption|]. left.
        eexists; split; [apply pattern_repr; assumption|reflexivity].
Qed.

(** Absolute value: right except on the most negative value of widths below 64, where the
    closure panics. *)
Lemma abs_ok chk lw a : valid_lw lw -> in_u lw a ->
  (lw < 6 -> signed lw a <> - 2 ^ (bits lw - 1)) ->
  exists outs, fold chk iabs [TBoundedNat lw] [IntV lw a] = Folded (on_ports outs)
               /\ spec1 iabs lw a outs.
Proof.
  intros Hl Ha Hmin.
  assert (Hvs : value_s (mk_ci lw a) = signed lw a) by (apply value_s_signed, wf_mk; assumption).
  pose proof (signed_in _ _ Hl Ha) as Hs.
  cbn [fold spec1]. rewrite un_prologue_ok by assumption. cbn [obind]. rewrite Hvs.
  unfold i64_min. destruct (Z.eqb_spec (signed lw a) (- 2 ^ 63)) as [E|E].
  - assert (lw = 6).
    { destruct (Z.eq_dec lw 6); [assumption|exfalso].
      assert (H5 : bits lw <= 32) by (change 32 with (bits 5); apply bits_mono; unfold valid_lw in *; lia).
      assert (2 ^ (bits lw - 1) <= 2 ^ 31) by (apply Z.pow_le_mono_r; lia).
      unfold in_s in Hs. lia. }
    subst. rewrite E. eexists [_]; split; reflexivity.
  - assert (Ha' : in_s lw (Z.abs (signed lw a))).
    { assert (signed lw a <> - 2 ^ (bits lw - 1)).
      { destruct (Z.eq_dec lw 6) as [->|]; [exact E|]. apply Hmin. unfold valid_lw in Hl; lia. }
      unfold in_s in *. lia. }
    rewrite out_s_ok by assumption. eexists [_]; split; [reflexivity|].
    unfold pattern. rewrite Z.mod_small; [reflexivity|].
    unfold in_s in Ha'. pose proof (half_bits _ Hl). lia.
Qed.

Lemma abs_min_panics chk lw : valid_lw lw -> lw < 6 ->
  fold chk iabs [TBoundedNat lw] [IntV lw (2 ^ (bits lw - 1))] = Panic.
Proof.
  intros Hl Hlt. destruct chk; lw_split Hl; try lia; vm_compute; reflexivity.
Qed.

Lemma signconv_ok chk op lw a : valid_lw lw -> in_u lw a -> 0 <= signed lw a ->
  In op [is_to_u; iu_to_s] ->
  exists outs, fold chk op [TBoundedNat lw] [IntV lw a] = Folded (on_ports outs)
               /\ spec1 op lw a outs.
Proof.
  intros Hl Ha Hs Hop.
  assert (Hvs : value_s (mk_ci lw a) = signed lw a) by (apply value_s_signed, wf_mk; assumption).
  destruct Hop as [<-|[<-|[]]]; cbn [fold spec1]; rewrite un_prologue_ok by assumption;
    cbn [obind]; rewrite Hvs; destruct (Z.leb_spec 0 (signed lw a)); try lia;
    eexists [_]; split; reflexivity.
Qed.

(** * C05: shifts, rotations, powers *)

Lemma shl_ok chk lw a b : valid_lw lw -> in_u lw a -> in_u lw b -> b < 64 ->
  exists outs, fold chk ishl [TBoundedNat lw] [IntV lw a; IntV lw b] = Folded (on_ports outs)
               /\ spec2 ishl lw a b outs.
Proof.
  intros Hl Ha Hb H64. cbn [fold spec2].
  eexists [_]; split.
  - apply (bin_u_ok _ lw a b ((a * 2 ^ b) mod 2 ^ bits lw)); auto using in_u_mod.
    unfold u64_shl. destruct (Z.ltb_spec b 64); [|lia]. cbn [obind].
    rewrite land_mask by assumption. rewrite mod_mod_bits by assumption. reflexivity.
  - eexists; split; [reflexivity|]. split; [apply in_u_mod; assumption|].
    intros i Hi. rewrite Z.mod_pow2_bits_low by lia.
    destruct (Z.leb_spec b i); cbn [andb].
    + rewrite Z.mul_pow2_bits by (unfold in_u in Hb; lia). reflexivity.
    + rewrite Z.mul_pow2_bits_low by lia. reflexivity.
Qed.

Lemma shr_ok chk lw a b : valid_lw lw -> in_u lw a -> in_u lw b -> b < 64 ->
  exists outs, fold chk ishr [TBoundedNat lw] [IntV lw a; IntV lw b] = Folded (on_ports outs)
               /\ spec2 ishr lw a b outs.
Proof.
  intros Hl Ha Hb H64. cbn [fold spec2].
  assert (0 <= b) by (unfold in_u in Hb; lia).
  assert (Hv : in_u lw (a / 2 ^ b)).
  { unfold in_u in *. pose proof (Z.pow_pos_nonneg 2 b). split; [apply Z.div_pos; lia|].
    apply Z.le_lt_trans with a; [|lia]. apply Z.div_le_upper_bound; nia. }
  eexists [_]; split.
  - apply (bin_u_ok _ lw a b (a / 2 ^ b)); auto.
    unfold u64_shr. destruct (Z.ltb_spec b 64); [|lia]. reflexivity.
  - eexists; split; [reflexivity|]. split; [assumption|].
    intros i Hi. rewrite Z.div_pow2_bits by lia.
    destruct (Z.ltb_spec (i + b) (bits lw)); cbn [andb]; [reflexivity|].
    apply (in_u_testbit lw); auto.
Qed.

(** Amounts of 64 and more: with overflow checks the fold aborts, without it uses the
    amount modulo 64. *)
Lemma shl_big_checked lw a b : valid_lw lw -> in_u lw a -> in_u lw b -> 64 <= b ->
  fold true ishl [TBoundedNat lw] [IntV lw a; IntV lw b] = Panic /\
  fold true ishr [TBoundedNat lw] [IntV lw a; IntV lw b] = Panic.
Proof.
  intros Hl Ha Hb H64. cbn [fold]. unfold bin_u. rewrite bin_prologue_ok by assumption.
  cbn [obind value_u ci_val]. unfold u64_shl, u64_shr.
  destruct (Z.ltb_spec b 64); [lia|]. split; reflexivity.
Qed.

Lemma mask_width_ones lw : valid_lw lw -> bitmask_from_width (2 ^ lw) = Z.ones (bits lw).
Proof. apply mask_ones. Qed.

Lemma rot_core a N k i : 0 < N -> 0 <= k < N -> 0 <= i < N ->
  (forall j, N <= j -> Z.testbit a j = false) ->
  Z.testbit (Z.lor ((a * 2 ^ k) mod 2 ^ N) (a / 2 ^ (N - k))) i = Z.testbit a ((i - k) mod N).
Proof.
  intros HN Hk Hi Hhi. rewrite Z.lor_spec, Z.mod_pow2_bits_low by lia.
  rewrite Z.div_pow2_bits by lia.
  destruct (Z.le_gt_cases k i).
  - rewrite Z.mul_pow2_bits by lia. rewrite (Hhi (i + (N - k))) by lia.
    rewrite orb_false_r. rewrite Z.mod_small by lia. reflexivity.
  - rewrite Z.mul_pow2_bits_low by lia. cbn [orb].
    f_equal. apply Z.mod_unique with (-1); lia.
Qed.

Lemma rotl_ok chk lw a b : valid_lw lw -> in_u lw a -> in_u lw b ->
  (chk = true -> lw = 6 -> b mod 64 <> 0) ->
  exists outs, fold chk irotl [TBoundedNat lw] [IntV lw a; IntV lw b] = Folded (on_ports outs)
               /\ spec2 irotl lw a b outs.
Proof.
  intros Hl Ha Hb Hz. cbn [fold spec2].
  pose proof (bits_pos _ Hl) as Hbp.
  assert (Hhi := fun i => in_u_testbit lw a i Hl Ha).
  set (k := b mod bits lw). assert (Hk : 0 <= k < bits lw) by (apply Z.mod_pos_bound; lia).
  assert (Ha64 := in_u_u64 _ _ Hl Ha).
  set (v := Z.lor ((a * 2 ^ k) mod 2 ^ bits lw) (a / 2 ^ (bits lw - k))).
  assert (Hv : in_u lw v).
  { apply in_u_bits; [assumption| |].
    - apply Z.lor_nonneg; split; [apply Z.mod_pos_bound, pow_bits_pos; assumption|].
      apply Z.div_pos; [lia|]. apply Z.pow_pos_nonneg; lia.
    - intros i Hi. unfold v. rewrite Z.lor_spec, Z.mod_pow2_bits_high by lia.
      rewrite Z.div_pow2_bits by lia. apply Hhi; lia. }
  exists [IntV lw v]; split.
  - apply bin_u_ok; auto. cbv zeta. fold (bits lw). fold k. unfold u64_shl, u64_shr.
    destruct (Z.ltb_spec k 64); [|lia]. cbn [obind].
    assert (X : Z.land ((a * 2 ^ k) mod two64) (bitmask_from_width (bits lw)) = (a * 2 ^ k) mod 2 ^ bits lw).
    { change (bitmask_from_width (bits lw)) with (bitmask_from_logwidth lw).
      rewrite land_mask, mod_mod_bits by assumption. reflexivity. }
    destruct (Z.ltb_spec (bits lw - k) 64) as [|Hge].
    + cbn [obind]. rewrite X. reflexivity.
    + assert (bits lw = 64 /\ k = 0) as [B0 K0] by lia.
      assert (lw = 6) by (lw_split Hl; try reflexivity; vm_compute in B0; lia).
      destruct chk; [exfalso; apply Hz; auto; subst lw; exact K0|].
      cbn [obind]. rewrite X. unfold v. rewrite K0, B0. change ((64 - 0) mod 64) with 0.
      rewrite Z.pow_0_r, Z.mul_1_r, Z.div_1_r.
      assert (a mod 2 ^ 64 = a) as -> by (apply Z.mod_small; lia).
      assert (a / 2 ^ (64 - 0) = 0) as -> by (apply Z.div_small; lia).
      rewrite Z.lor_diag, Z.lor_0_r. reflexivity.
  - eexists; split; [reflexivity|]. split; [assumption|]. intros i Hi. unfold v.
    rewrite rot_core by (auto; lia). f_equal. unfold k.
    rewrite Zminus_mod_idemp_r. reflexivity.
Qed.

Lemma rot_core_r a N k i : 0 < N -> 0 <= k < N -> 0 <= i < N ->
  (forall j, N <= j -> Z.testbit a j = false) ->
  Z.testbit (Z.lor ((a * 2 ^ (N - k)) mod 2 ^ N) (a / 2 ^ k)) i = Z.testbit a ((i + k) mod N).
Proof.
  intros HN Hk Hi Hhi. rewrite Z.lor_spec, Z.mod_pow2_bits_low by lia.
  rewrite Z.div_pow2_bits by lia.
  destruct (Z.le_gt_cases (N - k) i).
  - rewrite Z.mul_pow2_bits by lia. rewrite (Hhi (i + k)) by lia.
    rewrite orb_false_r. f_equal. apply Z.mod_unique with 1; lia.
  - rewrite Z.mul_pow2_bits_low by lia. cbn [orb]. rewrite Z.mod_small by lia. reflexivity.
Qed.

Lemma rotr_ok chk lw a b : valid_lw lw -> in_u lw a -> in_u lw b ->
  (chk = true -> lw = 6 -> b mod 64 <> 0) ->
  exists outs, fold chk irotr [TBoundedNat lw] [IntV lw a; IntV lw b] = Folded (on_ports outs)
               /\ spec2 irotr lw a b outs.
Proof.
  intros Hl Ha Hb Hz. cbn [fold spec2].
  pose proof (bits_pos _ Hl) as Hbp.
  assert (Hhi := fun i => in_u_testbit lw a i Hl Ha).
  set (k := b mod bits lw). assert (Hk : 0 <= k < bits lw) by (apply Z.mod_pos_bound; lia).
  assert (Ha64 := in_u_u64 _ _ Hl Ha).
  set (v := Z.lor ((a * 2 ^ (bits lw - k)) mod 2 ^ bits lw) (a / 2 ^ k)).
  assert (Hv : in_u lw v).
  { apply in_u_bits; [assumption| |].
    - apply Z.lor_nonneg; split; [apply Z.mod_pos_bound, pow_bits_pos; assumption|].
      apply Z.div_pos; [lia|]. apply Z.pow_pos_nonneg; lia.
    - intros i Hi. unfold v. rewrite Z.lor_spec, Z.mod_pow2_bits_high by lia.
      rewrite Z.div_pow2_bits by lia. apply Hhi; lia. }
  exists [IntV lw v]; split.
  - apply bin_u_ok; auto. cbv zeta. fold (bits lw). fold k. unfold u64_shl, u64_shr.
    rewrite (proj2 (Z.ltb_lt k 64)) by lia.
    assert (X : forall s, Z.land ((a * 2 ^ s) mod two64) (bitmask_from_width (bits lw)) = (a * 2 ^ s) mod 2 ^ bits lw).
    { intros s. change (bitmask_from_width (bits lw)) with (bitmask_from_logwidth lw).
      rewrite land_mask, mod_mod_bits by assumption. reflexivity. }
    destruct (Z.ltb_spec (bits lw - k) 64) as [|Hge].
    + cbn [obind]. rewrite X. reflexivity.
    + assert (bits lw = 64 /\ k = 0) as [B0 K0] by lia.
      assert (lw = 6) by (lw_split Hl; try reflexivity; vm_compute in B0; lia).
      destruct chk; [exfalso; apply Hz; auto; subst lw; exact K0|].
      cbn [obind]. rewrite X. unfold v. rewrite K0, B0. change ((64 - 0) mod 64) with 0.
      rewrite Z.pow_0_r, Z.mul_1_r, Z.div_1_r.
      assert (a mod 2 ^ 64 = a) as -> by (apply Z.mod_small; lia).
      assert ((a * 2 ^ (64 - 0)) mod 2 ^ 64 = 0) as -> by (apply Z.mod_mul; lia).
      rewrite Z.lor_diag. reflexivity.
  - eexists; split; [reflexivity|]. split; [assumption|]. intros i Hi. unfold v.
    rewrite rot_core_r by (auto; lia). f_equal. unfold k.
    rewrite Zplus_mod_idemp_r. reflexivity.
Qed.

Lemma pow_pos_wrap_ok b e : pow_pos_wrap b e = (b ^ Zpos e) mod two64.
Proof.
  induction e as [e IH|e IH|]; cbn [pow_pos_wrap].
  - rewrite IH. rewrite Pos2Z.inj_xI, Z.pow_add_r, Z.pow_mul_r, Z.pow_2_r by lia.
    rewrite Z.pow_1_r. rewrite <- Z.mul_mod by (unfold two64; lia).
    rewrite Z.mul_mod_idemp_l by (unfold two64; lia).
    do 2 f_equal. rewrite <- Z.pow_mul_l. f_equal.
  - rewrite IH. rewrite Pos2Z.inj_xO, Z.pow_mul_r, Z.pow_2_r by lia.
    rewrite <- Z.mul_mod by (unfold two64; lia). f_equal. rewrite <- Z.pow_mul_l. f_equal.
  - rewrite Z.pow_1_r. reflexivity.
Qed.

Lemma overflowing_pow_ok b e : 0 <= e -> overflowing_pow b e = (b ^ e) mod two64.
Proof.
  intros He. destruct e as [|p|p]; [reflexivity|apply pow_pos_wrap_ok|lia].
Qed.

Lemma pow_ok chk lw a b : valid_lw lw -> in_u lw a -> in_u lw b -> b < 2 ^ 32 ->
  exists outs, fold chk ipow [TBoundedNat lw] [IntV lw a; IntV lw b] = Folded (on_ports outs)
               /\ spec2 ipow lw a b outs.
Proof.
  intros Hl Ha Hb H32. cbn [fold spec2]. eexists; split; [|reflexivity].
  apply bin_u_ok; auto using in_u_mod.
  destruct (Z.ltb_spec b (2 ^ 32)); [|lia].
  rewrite overflowing_pow_ok by (unfold in_u in Hb; lia).
  rewrite land_mask, mod_mod_bits by assumption. reflexivity.
Qed.

(** * Rejection: whatever the arguments, a fold happens only on integer constants of the
      declared widths, one per operand. *)
Lemma fold_shape chk op args consts outs : fold chk op args consts = Folded outs ->
  exists cs : list const_int, consts = map CInt cs /\ length cs = arity op /\
    match args with
    | TBoundedNat n :: _ => forall c, In c cs -> ci_lw c = n mod 256
    | _ => False
    end.
Proof.
  intros H.
  assert (Hbin : forall p, bin_prologue args consts = Folded p ->
    exists cs, consts = map CInt cs /\ length cs = 2%nat /\
      match args with TBoundedNat n :: _ => forall c, In c cs -> ci_lw c = n mod 256 | _ => False end).
  { intros p Hp. unfold bin_prologue in Hp. destruct args as [|arg [|]]; try discriminate.
    destruct arg as [n|]; [|discriminate]. unfold get_log_width in Hp.
    destruct (is_valid_log_width (n mod 256)); [|discriminate]. cbn [or_nofold obind] in Hp.
    destruct consts as [|[c0| | |] [|[c1| | |] [|]]]; try discriminate.
    cbn in Hp. destruct (Z.eqb_spec (ci_lw c0) (n mod 256)); [|discriminate].
    destruct (Z.eqb_spec (ci_lw c1) (n mod 256)); [|discriminate].
    exists [c0; c1]. split; [reflexivity|]. split; [reflexivity|].
    intros c [<-|[<-|[]]]; assumption. }
  assert (Hun : forall p, un_prologue args consts = Folded p ->
    exists cs, consts = map CInt cs /\ length cs = 1%nat /\
      match args with TBoundedNat n :: _ => forall c, In c cs -> ci_lw c = n mod 256 | _ => False end).
  { intros p Hp. unfold un_prologue in Hp. destruct args as [|arg [|]]; try discriminate.
    destruct arg as [n|]; [|discriminate]. unfold get_log_width in Hp.
    destruct (is_valid_log_width (n mod 256)); [|discriminate]. cbn [or_nofold obind] in Hp.
    destruct consts as [|[c0| | |] [|]]; try discriminate.
    cbn in Hp. destruct (Z.eqb_spec (ci_lw c0) (n mod 256)); [|discriminate].
    exists [c0]. split; [reflexivity|]. split; [reflexivity|].
    intros c [<-|[]]; assumption. }
  assert (Hcv : forall ge p, conv_prologue ge args consts = Folded p ->
    exists cs, consts = map CInt cs /\ length cs = 1%nat /\
      match args with TBoundedNat n :: _ => forall c, In c cs -> ci_lw c = n mod 256 | _ => False end).
  { intros ge p Hp. unfold conv_prologue in Hp.
    destruct args as [|arg [|arg1 [|]]]; try discriminate.
    destruct arg as [n|]; [|discriminate]. unfold get_log_width at 1 in Hp.
    destruct (is_valid_log_width (n mod 256)); [|discriminate]. cbn [or_nofold obind] in Hp.
    destruct (get_log_width arg1); [|discriminate]. cbn [or_nofold obind] in Hp.
    destruct consts as [|[c0| | |] [|]]; try discriminate.
    cbn [single_input as_int or_nofold obind] in Hp.
    destruct (Z.eqb_spec (ci_lw c0) (n mod 256)); [|rewrite andb_false_r in Hp; discriminate].
    exists [c0]. split; [reflexivity|]. split; [reflexivity|].
    intros c [<-|[]]; assumption. }
  destruct op; cbn [fold arity] in *; unfold bin_u, bin_s, cmp_u, cmp_s in H;
    match type of H with
    | obind ?m _ = _ => destruct m as [p| |] eqn:E; cbn [obind] in H; try discriminate; eauto
    end.
Qed.

(** * Refutations *)

Lemma div_s_unsafe chk lw a b : valid_lw lw -> in_u lw a -> in_u lw b -> b <> 0 ->
  ~ divs_safe (signed lw a) b -> forall op outs, In op [idivmod_s; imod_s] ->
  fold chk op [TBoundedNat lw] [IntV lw a; IntV lw b] = Folded (on_ports outs) ->
  ~ spec2 op lw a b outs.
Proof.
  intros Hl Ha Hb Hb0 Hu op outs Hop Hf Hs.
  assert (Hvs : value_s (mk_ci lw a) = signed lw a) by (apply value_s_signed, wf_mk; assumption).
  assert (0 < b) by (unfold in_u in Hb; lia).
  destruct Hop as [<-|[<-|[]]]; cbn [fold spec2] in *; rewrite bin_prologue_ok in Hf by assumption;
    cbn [obind] in Hf; rewrite Hvs in Hf; cbn [value_u ci_val] in Hf;
    destruct (Z.eqb_spec b 0); try contradiction;
    destruct (divmod_s chk (signed lw a) b) as [[q r]| |] eqn:E; cbn [obind fst snd] in Hf; try discriminate;
    pose proof (divmod_s_unsafe _ _ H Hu _ _ _ E) as Hbad.
  - destruct (new_s lw q); [|discriminate]. cbn [or_panic obind] in Hf.
    unfold new_u in Hf. destruct (negb _); [discriminate|]. destruct (_ && _); [discriminate|].
    cbn [or_panic obind] in Hf.
    destruct Hs as (qs & qw & rw & -> & _ & _ & Hr).
    injection Hf as _ E2. subst rw. contradiction.
  - unfold out_u, new_u in Hf. destruct (negb _); [discriminate|]. destruct (_ && _); [discriminate|].
    cbn [or_panic obind] in Hf. unfold out1 in Hf.
    destruct Hs as (qs & rw & -> & _ & Hr). injection Hf as E2. subst rw. contradiction.
Qed.

Lemma checked_never_ok chk op cop lw a b outs : valid_lw lw -> in_u lw a -> in_u lw b -> b <> 0 ->
  checked_of op = Some cop ->
  fold chk cop [TBoundedNat lw] [IntV lw a; IntV lw b] = Folded (on_ports outs) ->
  ~ spec2 cop lw a b outs.
Proof.
  intros Hl Ha Hb Hb0 Hc Hf Hs.
  destruct op; try discriminate Hc; injection Hc as <-; cbn [fold spec2] in *;
    rewrite bin_prologue_ok in Hf by assumption; cbn [obind] in Hf; cbn [value_u ci_val] in Hf;
    destruct (Z.eqb_spec b 0); try contradiction; unfold out_u, out_s in Hf;
    repeat match type of Hf with
           | context [divmod_s ?c ?x ?y] => destruct (divmod_s c x y) as [[? ?]| |]; cbn [obind fst snd] in Hf; try discriminate Hf
           | context [new_u ?x ?y] => destruct (new_u x y); cbn [or_panic obind] in Hf; try discriminate Hf
           | context [new_s ?x ?y] => destruct (new_s x y); cbn [or_panic obind] in Hf; try discriminate Hf
           end;
    firstorder (subst; discriminate).
Qed.

Lemma narrow_s_64_always_err a : in_u 6 a ->
  forall chk, fold chk inarrow_s [TBoundedNat 6; TBoundedNat 6] [IntV 6 a] = Folded (on_ports [ErrV]).
Proof.
  intros Ha chk. cbn [fold]. rewrite (conv_prologue_ok true 6 6) by (unfold valid_lw; lia). cbn [obind].
  rewrite value_s_signed by (apply wf_mk; [unfold valid_lw; lia|assumption]). cbn [ci_lw ci_val].
  change (i64_one_shl chk (2 ^ 6 - 1)) with (@Folded Z (- 2 ^ 63)). cbn [obind].
  pose proof (signed_in 6 a ltac:(unfold valid_lw; lia) Ha) as [H _].
  change (- 2 ^ (bits 6 - 1)) with (- 2 ^ 63) in H.
  rewrite (proj2 (Z.leb_le _ _) H). reflexivity.
Qed.

Lemma narrow_u_64 a : in_u 6 a ->
  fold true inarrow_u [TBoundedNat 6; TBoundedNat 6] [IntV 6 a] = Panic /\
  (a <> 0 -> fold false inarrow_u [TBoundedNat 6; TBoundedNat 6] [IntV 6 a] = Folded (on_ports [ErrV])).
Proof.
  intros Ha. cbn [fold]. rewrite (conv_prologue_ok true 6 6) by (unfold valid_lw; lia). cbn [obind].
  cbn [value_u ci_val]. unfold u64_shr. change (2 ^ 6 <? 64) with false. cbv iota. cbn [obind].
  split; [reflexivity|]. intros Ha0. change (2 ^ (2 ^ 6 mod 64)) with 1. rewrite Z.div_1_r.
  destruct (Z.eqb_spec a 0); [contradiction|]. reflexivity.
Qed.

Lemma rot_zero_64_checked a b : in_u 6 a -> in_u 6 b -> b mod 64 = 0 ->
  fold true irotl [TBoundedNat 6] [IntV 6 a; IntV 6 b] = Panic /\
  fold true irotr [TBoundedNat 6] [IntV 6 a; IntV 6 b] = Panic.
Proof.
  intros Ha Hb Hz. cbn [fold]. unfold bin_u.
  rewrite bin_prologue_ok by (unfold valid_lw; lia). cbn [obind value_u ci_val]. cbv zeta.
  change (2 ^ 6) with 64. rewrite Hz. unfold u64_shl, u64_shr.
  change (64 - 0 <? 64) with false. change (0 <? 64) with true. split; reflexivity.
Qed.

Lemma shl_64_release lw a : 3 <= lw <= 6 -> in_u lw a -> a <> 0 ->
  fold false ishl [TBoundedNat lw] [IntV lw a; IntV lw 64] = Folded (on_ports [IntV lw a]) /\
  fold false ishr [TBoundedNat lw] [IntV lw a; IntV lw 64] = Folded (on_ports [IntV lw a]).
Proof.
  intros Hl Ha Ha0. assert (Hv : valid_lw lw) by (unfold valid_lw; lia).
  assert (Ha64 := in_u_u64 _ _ Hv Ha).
  cbn [fold]. split; apply bin_u_ok; auto; unfold u64_shl, u64_shr;
    change (64 <? 64) with false; cbv iota; change (2 ^ (64 mod 64)) with 1; cbn [obind].
  - rewrite Z.mul_1_r, land_mask, mod_mod_bits by assumption. f_equal. apply Z.mod_small. exact Ha.
  - rewrite Z.div_1_r. reflexivity.
Qed.

(** * Assembly for the property file *)

Lemma ring_bitwise_ok chk op lw a b : valid_lw lw -> in_u lw a -> in_u lw b ->
  In op [iadd; isub; imul; iand; ior; ixor] ->
  exists outs, fold chk op [TBoundedNat lw] [IntV lw a; IntV lw b] = Folded (on_ports outs)
               /\ spec2 op lw a b outs.
Proof.
  intros Hl Ha Hb Hop.
  destruct (in_app_or [iadd; isub; imul] [iand; ior; ixor] op Hop).
  - apply ring_ok; assumption.
  - apply bitwise_ok; assumption.
Qed.

Lemma neg_not_ok chk op lw a : valid_lw lw -> in_u lw a -> In op [ineg; inot] ->
  exists outs, fold chk op [TBoundedNat lw] [IntV lw a] = Folded (on_ports outs)
               /\ spec1 op lw a outs.
Proof.
  intros Hl Ha [<-|[<-|[]]].
  - eexists; split; [apply neg_ok; assumption|reflexivity].
  - apply not_ok; assumption.
Qed.

Lemma div_s_narrow_ok chk op lw a b :
  valid_lw lw -> lw < 6 -> in_u lw a -> in_u lw b -> b <> 0 ->
  In op [idivmod_s; idiv_s; imod_s] ->
  exists outs, fold chk op [TBoundedNat lw] [IntV lw a; IntV lw b] = Folded (on_ports outs)
               /\ spec2 op lw a b outs.
Proof.
  intros Hl H6 Ha Hb Hb0 Hop. apply div_s_ok; auto.
  intros E. exfalso. pose proof (signed_in _ _ Hl Ha) as Hs. unfold in_s in Hs.
  assert (bits lw <= 32) by (change 32 with (bits 5); apply bits_mono; [assumption|unfold valid_lw in *; lia]).
  assert (2 ^ (bits lw - 1) <= 2 ^ 31) by (apply Z.pow_le_mono_r; lia). lia.
Qed.

Lemma div_s_refuted :
  exists lw a b, valid_lw lw /\ in_u lw a /\ in_u lw b /\ b <> 0 /\
    (forall chk, fold chk imod_s [TBoundedNat lw] [IntV lw a; IntV lw b] = Folded [(0, IntV lw 5)]) /\
    ~ spec2 imod_s lw a b [IntV lw 5] /\
    fold true imod_s [TBoundedNat 6] [IntV 6 (2^63); IntV 6 (2^63 - 1)] = Panic.
Proof.
  exists 6, (2 ^ 63), 3.
  split; [unfold valid_lw; lia|]. split; [vm_compute; split; congruence|].
  split; [vm_compute; split; congruence|]. split; [lia|].
  split; [intros chk; destruct chk; vm_compute; reflexivity|].
  split; [|vm_compute; reflexivity].
  cbn [spec2]. intros (q & r & E & _ & H). injection E as E. lia.
Qed.

Lemma div_by_zero_ok chk op lw a : valid_lw lw -> in_u lw a ->
  (In op [idivmod_u; idiv_u; imod_u; idivmod_s; idiv_s; imod_s] ->
   fold chk op [TBoundedNat lw] [IntV lw a; IntV lw 0] = NoFold) /\
  (In op [idivmod_checked_u; idiv_checked_u; imod_checked_u;
          idivmod_checked_s; idiv_checked_s; imod_checked_s] ->
   exists outs, fold chk op [TBoundedNat lw] [IntV lw a; IntV lw 0] = Folded (on_ports outs)
                /\ spec2 op lw a 0 outs).
Proof.
  intros Hl Ha. split; intros Hop; [apply div_zero_nofold; assumption|].
  exists [ErrV]. split; [apply div_zero_checked; assumption|].
  destruct Hop as [<-|[<-|[<-|[<-|[<-|[<-|[]]]]]]]; reflexivity.
Qed.

Lemma checked_refuted :
  exists lw a b outs, valid_lw lw /\ in_u lw a /\ in_u lw b /\ b <> 0 /\
    (forall chk, fold chk idiv_checked_u [TBoundedNat lw] [IntV lw a; IntV lw b]
                 = Folded (on_ports outs)) /\
    ~ spec2 idiv_checked_u lw a b outs.
Proof.
  exists 3, 7, 2, [IntV 3 3].
  split; [unfold valid_lw; lia|]. split; [vm_compute; split; congruence|].
  split; [vm_compute; split; congruence|]. split; [lia|].
  split; [intros chk; destruct chk; vm_compute; reflexivity|].
  cbn. intros (q & r & E & _). discriminate.
Qed.

Lemma div_nonvacuous :
  fold true idivmod_s [TBoundedNat 3] [IntV 3 (256 - 7); IntV 3 200]
  = Folded [(0, IntV 3 255); (1, IntV 3 193)] /\
  divs_safe (signed 3 249) 200 /\ divs_safe (- 2 ^ 63) 4 /\ ~ divs_safe (- 2 ^ 63) 3.
Proof.
  split; [vm_compute; reflexivity|]. split; [|split].
  - intros E; vm_compute in E; discriminate.
  - intros _. left. exists (2 ^ 61). reflexivity.
  - intros H. destruct (H eq_refl) as [[k E]|E]; lia.
Qed.

Lemma cmp_minmax_ok chk op lw a b : valid_lw lw -> in_u lw a -> in_u lw b ->
  In op [ieq; ine; ilt_u; ilt_s; igt_u; igt_s; ile_u; ile_s; ige_u; ige_s;
         imax_u; imin_u; imax_s; imin_s] ->
  exists outs, fold chk op [TBoundedNat lw] [IntV lw a; IntV lw b] = Folded (on_ports outs)
               /\ spec2 op lw a b outs.
Proof.
  intros Hl Ha Hb Hop.
  destruct (in_app_or [ieq; ine; ilt_u; ilt_s; igt_u; igt_s; ile_u; ile_s; ige_u; ige_s]
                      [imax_u; imin_u; imax_s; imin_s] op Hop).
  - apply cmp_ok; assumption.
  - apply minmax_ok; assumption.
Qed.

Lemma narrow_64_refuted a : in_u 6 a ->
  (forall chk, fold chk inarrow_s [TBoundedNat 6; TBoundedNat 6] [IntV 6 a] = Folded (on_ports [ErrV])
               /\ ~ spec_conv inarrow_s 6 6 a [ErrV]) /\
  fold true inarrow_u [TBoundedNat 6; TBoundedNat 6] [IntV 6 a] = Panic /\
  (a <> 0 -> fold false inarrow_u [TBoundedNat 6; TBoundedNat 6] [IntV 6 a] = Folded (on_ports [ErrV])
             /\ ~ spec_conv inarrow_u 6 6 a [ErrV]).
Proof.
  intros Ha. destruct (narrow_u_64 a Ha) as [H1 H2]. split; [|split; [exact H1|]].
  - intros chk. split; [apply narrow_s_64_always_err; assumption|].
    cbn [spec_conv]. intros [_ [(v & _ & E)|[Hn _]]]; [discriminate|].
    apply Hn, signed_in; [unfold valid_lw; lia|assumption].
  - intros Ha0. split; [auto|]. cbn [spec_conv]. intros [_ [[_ E]|[Hn _]]]; [discriminate|]. auto.
Qed.

Lemma abs_min_refuted chk lw : valid_lw lw -> lw < 6 ->
  fold chk iabs [TBoundedNat lw] [IntV lw (2 ^ (bits lw - 1))] = Panic
  /\ in_u lw (2 ^ (bits lw - 1)).
Proof.
  intros Hl H6. split; [apply abs_min_panics; assumption|].
  unfold in_u. rewrite half_bits by assumption. pose proof (half_pos _ Hl). lia.
Qed.

Lemma signconv_full chk op lw a : valid_lw lw -> in_u lw a -> In op [is_to_u; iu_to_s] ->
  (0 <= signed lw a ->
   exists outs, fold chk op [TBoundedNat lw] [IntV lw a] = Folded (on_ports outs)
                /\ outs = [IntV lw a]) /\
  (signed lw a < 0 -> fold chk op [TBoundedNat lw] [IntV lw a] = Panic).
Proof.
  intros Hl Ha Hop. split.
  - intros Hs. destruct (signconv_ok chk op lw a Hl Ha Hs Hop) as (outs & E & Hsp).
    exists outs; split; [exact E|]. destruct Hop as [<-|[<-|[]]]; apply Hsp; assumption.
  - intros Hs.
    assert (Hvs : value_s (mk_ci lw a) = signed lw a) by (apply value_s_signed, wf_mk; assumption).
    destruct Hop as [<-|[<-|[]]]; cbn [fold]; rewrite un_prologue_ok by assumption;
      cbn [obind]; rewrite Hvs; destruct (Z.leb_spec 0 (signed lw a)); try lia; reflexivity.
Qed.

Lemma shift_ok chk op lw a b : valid_lw lw -> in_u lw a -> in_u lw b -> b < 64 -> In op [ishl; ishr] ->
  exists outs, fold chk op [TBoundedNat lw] [IntV lw a; IntV lw b] = Folded (on_ports outs)
               /\ spec2 op lw a b outs.
Proof. intros Hl Ha Hb H [<-|[<-|[]]]; [apply shl_ok|apply shr_ok]; assumption. Qed.

Lemma rot_ok chk op lw a b : valid_lw lw -> in_u lw a -> in_u lw b ->
  (chk = true -> lw = 6 -> b mod 64 <> 0) -> In op [irotl; irotr] ->
  exists outs, fold chk op [TBoundedNat lw] [IntV lw a; IntV lw b] = Folded (on_ports outs)
               /\ spec2 op lw a b outs.
Proof. intros Hl Ha Hb H [<-|[<-|[]]]; [apply rotl_ok|apply rotr_ok]; assumption. Qed.

Lemma rot_refuted a b op : in_u 6 a -> in_u 6 b -> b mod 64 = 0 ->
  In op [irotl; irotr] -> fold true op [TBoundedNat 6] [IntV 6 a; IntV 6 b] = Panic.
Proof.
  intros Ha Hb Hz [<-|[<-|[]]]; apply (rot_zero_64_checked a b); assumption.
Qed.

Lemma nonzero_bit lw a : valid_lw lw -> in_u lw a -> a <> 0 ->
  exists i, 0 <= i < bits lw /\ Z.testbit a i = true.
Proof.
  intros Hl [H0 H1] Hn. exists (Z.log2 a). split; [|apply Z.bit_log2; lia].
  split; [apply Z.log2_nonneg|]. apply (proj1 (Z.log2_lt_pow2 a (bits lw) ltac:(lia))); assumption.
Qed.

Lemma shift_refuted lw a op : 3 <= lw <= 6 -> in_u lw a -> In op [ishl; ishr] ->
  (forall b, in_u lw b -> 64 <= b ->
             fold true op [TBoundedNat lw] [IntV lw a; IntV lw b] = Panic) /\
  (a <> 0 -> in_u lw 64 /\
     fold false op [TBoundedNat lw] [IntV lw a; IntV lw 64] = Folded (on_ports [IntV lw a]) /\
     ~ spec2 op lw a 64 [IntV lw a]).
Proof.
  intros Hl Ha Hop. assert (Hv : valid_lw lw) by (unfold valid_lw; lia). split.
  - intros b Hb H64. destruct Hop as [<-|[<-|[]]]; apply (shl_big_checked lw a b); assumption.
  - intros Ha0. split.
    { unfold in_u. split; [lia|]. apply Z.lt_le_trans with (2 ^ bits 3); [reflexivity|].
      apply Z.pow_le_mono_r; [lia|]. apply bits_mono; [unfold valid_lw|]; lia. }
    destruct (shl_64_release lw a Hl Ha Ha0) as [E1 E2].
    destruct (nonzero_bit lw a Hv Ha Ha0) as (i & Hi & Ht).
    pose proof (bits_pos _ Hv).
    destruct Hop as [<-|[<-|[]]]; (split; [assumption|]); cbn [spec2];
      intros (v & E & _ & Hspec); injection E as <-; specialize (Hspec i Hi).
    + destruct (Z.leb_spec 64 i); [lia|]. cbn in Hspec. congruence.
    + destruct (Z.ltb_spec (i + 64) (bits lw)); [lia|]. cbn in Hspec. congruence.
Qed.

Lemma pow_odd_even_m1 : (2 ^ 64 - 1) ^ (2 ^ 32) mod 2 ^ 64 = 1.
Proof.
  pose proof (overflowing_pow_ok (2 ^ 64 - 1) (2 ^ 32) ltac:(lia)) as E.
  unfold two64 in E. rewrite <- E. vm_compute. reflexivity.
Qed.

Lemma pow_refuted : exists a b, in_u 6 a /\ in_u 6 b /\
  forall chk, exists outs,
    fold chk ipow [TBoundedNat 6] [IntV 6 a; IntV 6 b] = Folded (on_ports outs)
    /\ ~ spec2 ipow 6 a b outs.
Proof.
  exists (2 ^ 64 - 1), (2 ^ 32). split; [vm_compute; split; congruence|].
  split; [vm_compute; split; congruence|]. intros chk.
  exists [IntV 6 (2 ^ 64 - 1)]. split; [destruct chk; vm_compute; reflexivity|].
  cbn [spec2]. change (2 ^ bits 6) with (2 ^ 64). rewrite pow_odd_even_m1. discriminate.
Qed.

(** Well-formedness of outputs: every integer output comes out of a constructor that accepted
    it, or is an input. *)
Lemma new_u_wf lw v c : 0 <= lw -> 0 <= v < 2 ^ 64 -> new_u lw v = Some c -> wf_ci c.
Proof.
  intros Hl Hv E. unfold new_u in E.
  destruct (is_valid_log_width lw) eqn:V; [|discriminate]. cbn [negb] in E.
  unfold is_valid_log_width, LOG_WIDTH_BOUND, LOG_WIDTH_MAX in V.
  assert (valid_lw lw) by (unfold valid_lw; lia).
  destruct (Z.leb_spec lw 5); cbn [andb] in E.
  - destruct (Z.leb_spec (2 ^ 2 ^ lw) v); [discriminate|]. injection E as <-.
    split; [assumption|]. unfold in_u, bits; cbn [ci_lw ci_val]; lia.
  - injection E as <-. split; [assumption|]. cbn [ci_lw ci_val].
    assert (lw = 6) as -> by lia. exact Hv.
Qed.

Lemma new_s_wf lw v c : 0 <= lw -> - 2 ^ 63 <= v < 2 ^ 63 -> new_s lw v = Some c -> wf_ci c.
Proof.
  intros Hl Hv E.
  assert (lw < 256).
  { unfold new_s, is_valid_log_width, LOG_WIDTH_BOUND, LOG_WIDTH_MAX in E.
    destruct (Z.ltb_spec lw (6 + 1)); [lia|discriminate]. }
  exact (proj2 (proj2 (new_s_value lw v c (conj Hl H) Hv E))).
Qed.

Definition wf_outs (o : outcome (list (Z * cval))) : Prop :=
  match o with Folded outs => forall p v, In (p, v) outs -> wf_val v | _ => True end.

Definition wf_consts (consts : list cval) : Prop := forall c, In (CInt c) consts -> wf_ci c.

Lemma out_u_wf lw v : 0 <= lw -> 0 <= v < 2 ^ 64 -> wf_outs (out_u lw v).
Proof.
  intros Hl Hv. unfold out_u. destruct (new_u lw v) as [c|] eqn:E; [|exact I].
  cbn. intros p w [H|[]]. injection H as <- <-. cbn [wf_val]. eapply new_u_wf; eassumption.
Qed.

Lemma out_s_wf lw v : 0 <= lw -> - 2 ^ 63 <= v < 2 ^ 63 -> wf_outs (out_s lw v).
Proof.
  intros Hl Hv. unfold out_s. destruct (new_s lw v) as [c|] eqn:E; [|exact I].
  cbn. intros p w [H|[]]. injection H as <- <-. cbn [wf_val]. eapply new_s_wf; eassumption.
Qed.

Lemma bin_prologue_inv args consts lw n0 n1 : wf_consts consts ->
  bin_prologue args consts = Folded (lw, n0, n1) ->
  wf_ci n0 /\ wf_ci n1 /\ ci_lw n0 = lw /\ ci_lw n1 = lw.
Proof.
  intros Hc Hp. unfold bin_prologue in Hp. destruct args as [|arg [|]]; try discriminate.
  destruct (get_log_width arg) as [l|]; [|discriminate]. cbn [or_nofold obind] in Hp.
  destruct consts as [|[c0| | |] [|[c1| | |] [|]]]; try discriminate.
  cbn in Hp. destruct (Z.eqb_spec (ci_lw c0) l); [|discriminate].
  destruct (Z.eqb_spec (ci_lw c1) l); [|discriminate]. cbn in Hp. injection Hp as <- <- <-.
  repeat split; try assumption; apply Hc; cbn; auto.
Qed.

Lemma un_prologue_inv args consts lw n0 : wf_consts consts ->
  un_prologue args consts = Folded (lw, n0) -> wf_ci n0 /\ ci_lw n0 = lw.
Proof.
  intros Hc Hp. unfold un_prologue in Hp. destruct args as [|arg [|]]; try discriminate.
  destruct (get_log_width arg) as [l|]; [|discriminate]. cbn [or_nofold obind] in Hp.
  destruct consts as [|[c0| | |] [|]]; try discriminate.
  cbn in Hp. destruct (Z.eqb_spec (ci_lw c0) l); [|discriminate].
  injection Hp as <- <-. split; [|assumption]. apply Hc; cbn; auto.
Qed.

Lemma conv_prologue_inv ge args consts lw0 lw1 n0 : wf_consts consts ->
  conv_prologue ge args consts = Folded (lw0, lw1, n0) ->
  wf_ci n0 /\ ci_lw n0 = lw0 /\ 0 <= lw1.
Proof.
  intros Hc Hp. unfold conv_prologue in Hp. destruct args as [|arg [|arg1 [|]]]; try discriminate.
  destruct (get_log_width arg) as [l|]; [|discriminate]. cbn [or_nofold obind] in Hp.
  destruct (get_log_width arg1) as [l1|] eqn:E1; [|discriminate]. cbn [or_nofold obind] in Hp.
  destruct consts as [|[c0| | |] [|]]; try discriminate.
  cbn [single_input as_int or_nofold obind] in Hp.
  destruct (Z.eqb_spec (ci_lw c0) l); [|rewrite andb_false_r in Hp; discriminate].
  destruct (_ && true); [|discriminate].
  injection Hp as <- <- <-. split; [apply Hc; cbn; auto|]. split; [assumption|].
  unfold get_log_width in E1. destruct arg1; [|discriminate].
  destruct (is_valid_log_width _); [|discriminate]. injection E1 as <-.
  apply Z.mod_pos_bound. lia.
Qed.

Lemma wf_u64 c : wf_ci c -> 0 <= value_u c < 2 ^ 64.
Proof. intros [Hl Hv]. exact (in_u_u64 _ _ Hl Hv). Qed.

Lemma wf_i64 c : wf_ci c -> - 2 ^ 63 <= value_s c < 2 ^ 63.
Proof.
  intros Hwf. rewrite (value_s_signed _ Hwf). destruct Hwf as [Hl Hv].
  apply (in_s_i64 (ci_lw c)); auto using signed_in.
Qed.

Lemma bin_u_wf f args consts : wf_consts consts ->
  (forall lw a b v, valid_lw lw -> in_u lw a -> in_u lw b -> f lw a b = Folded v -> 0 <= v < 2 ^ 64) ->
  wf_outs (bin_u f args consts).
Proof.
  intros Hc Hf. unfold bin_u. destruct (bin_prologue args consts) as [[[lw n0] n1]| |] eqn:E; try exact I.
  cbn [obind]. destruct (bin_prologue_inv _ _ _ _ _ Hc E) as ([H0 V0] & [H1 V1] & E0 & E1).
  destruct (f lw (value_u n0) (value_u n1)) as [v| |] eqn:Ef; try exact I. cbn [obind].
  rewrite E0 in *. rewrite E1 in *. apply out_u_wf; [unfold valid_lw in *; lia|].
  apply (Hf lw (value_u n0) (value_u n1) v); assumption.
Qed.

Lemma land_mask_u64 lw x : valid_lw lw -> 0 <= Z.land x (bitmask_from_logwidth lw) < 2 ^ 64.
Proof.
  intros Hl. rewrite land_mask by assumption. apply (in_u_u64 lw); auto using in_u_mod.
Qed.

Lemma land_in a b : 0 <= a < 2 ^ 64 -> 0 <= Z.land a b < 2 ^ 64.
Proof.
  intros Ha. assert (valid_lw 6) by (unfold valid_lw; lia).
  apply (in_u_u64 6); [assumption|]. apply in_u_bits; [assumption|apply Z.land_nonneg; lia|].
  intros i Hi. rewrite Z.land_spec, (in_u_testbit 6 a i) by assumption. reflexivity.
Qed.

Lemma lor_in a b : 0 <= a < 2 ^ 64 -> 0 <= b < 2 ^ 64 -> 0 <= Z.lor a b < 2 ^ 64.
Proof.
  intros Ha Hb. assert (valid_lw 6) by (unfold valid_lw; lia).
  apply (in_u_u64 6); [assumption|]. apply in_u_bits; [assumption|apply Z.lor_nonneg; lia|].
  intros i Hi. rewrite Z.lor_spec, (in_u_testbit 6 a i), (in_u_testbit 6 b i) by assumption. reflexivity.
Qed.

Lemma lxor_in a b : 0 <= a < 2 ^ 64 -> 0 <= b < 2 ^ 64 -> 0 <= Z.lxor a b < 2 ^ 64.
Proof.
  intros Ha Hb. assert (valid_lw 6) by (unfold valid_lw; lia).
  apply (in_u_u64 6); [assumption|]. apply in_u_bits; [assumption|apply Z.lxor_nonneg; lia|].
  intros i Hi. rewrite Z.lxor_spec, (in_u_testbit 6 a i), (in_u_testbit 6 b i) by assumption. reflexivity.
Qed.

Lemma u64_shl_in chk a k v : u64_shl chk a k = Folded v -> 0 <= v < 2 ^ 64.
Proof.
  unfold u64_shl. destruct (k <? 64); [|destruct chk; [discriminate|]]; intros E; injection E as <-;
    apply Z.mod_pos_bound; reflexivity.
Qed.

Lemma u64_shr_in chk a k v : 0 <= a < 2 ^ 64 -> 0 <= k -> u64_shr chk a k = Folded v -> 0 <= v < 2 ^ 64.
Proof.
  intros Ha Hk.
  assert (G : forall j, 0 <= j -> 0 <= a / 2 ^ j < 2 ^ 64).
  { intros j Hj. pose proof (Z.pow_pos_nonneg 2 j ltac:(lia) Hj). split; [apply Z.div_pos; lia|].
    apply Z.le_lt_trans with a; [|lia]. apply Z.div_le_upper_bound; nia. }
  unfold u64_shr. destruct (k <? 64); [|destruct chk; [discriminate|]]; intros E; injection E as <-; apply G.
  - assumption.
  - apply Z.mod_pos_bound; lia.
Qed.

Lemma divmod_s_range chk n m q r : - 2 ^ 63 <= n < 2 ^ 63 -> 0 < m < 2 ^ 64 ->
  divmod_s chk n m = Folded (q, r) -> - 2 ^ 63 <= q < 2 ^ 63 /\ 0 <= r < 2 ^ 64.
Proof.
  intros Hn Hm E.
  destruct (Z.eq_dec n (- 2 ^ 63)) as [->|Hne].
  2:{ destruct (divmod_s_ok chk n m ltac:(lia) Hm) as (q' & r' & E' & Eq & Hr).
      rewrite E' in E. injection E as <- <-. split; nia. }
  unfold divmod_s in E.
  destruct (Z.eqb_spec m 0); [lia|].
  change (0 <=? - 2 ^ 63) with false in E. change (- 2 ^ 63 =? i64_min) with true in E. cbn [negb] in E.
  destruct (Z.eqb_spec m 1); [injection E as <- <-; lia|]. unfold two63 in E.
  destruct (Z.ltb_spec m (2 ^ 63)); [|injection E as <- <-; lia]. cbv zeta in E.
  pose proof (Z.quot_rem (- 2 ^ 63) m ltac:(lia)) as Eqr.
  pose proof (Z.rem_bound_pos_neg (- 2 ^ 63) m ltac:(lia) ltac:(lia)) as B.
  set (r' := Z.rem (- 2 ^ 63) m) in *. set (q' := Z.quot (- 2 ^ 63) m) in *. clearbody r' q'.
  destruct (Z.eqb_spec r' 0).
  - injection E as <- <-. split; [nia|lia].
  - destruct (i64_result chk (m - r')) as [d| |]; try discriminate. cbn [obind] in E.
    injection E as <- <-. split; [nia|]. apply Z.mod_pos_bound. reflexivity.
Qed.

Lemma wf_outs_fold chk op args consts : wf_consts consts -> wf_outs (fold chk op args consts).
Proof.
  intros Hc.
  assert (Hlw : forall c, wf_ci c -> 0 <= ci_lw c) by (intros c [H _]; unfold valid_lw in H; lia).
  assert (Hbin : forall k, (forall lw n0 n1, wf_ci n0 -> wf_ci n1 -> ci_lw n0 = lw -> ci_lw n1 = lw ->
            wf_outs (k (lw, n0, n1))) -> wf_outs (obind (bin_prologue args consts) k)).
  { intros k Hk. destruct (bin_prologue args consts) as [[[lw n0] n1]| |] eqn:E; try exact I.
    destruct (bin_prologue_inv _ _ _ _ _ Hc E) as (? & ? & ? & ?). apply Hk; assumption. }
  assert (Hun : forall k, (forall lw n0, wf_ci n0 -> ci_lw n0 = lw ->
            wf_outs (k (lw, n0))) -> wf_outs (obind (un_prologue args consts) k)).
  { intros k Hk. destruct (un_prologue args consts) as [[lw n0]| |] eqn:E; try exact I.
    destruct (un_prologue_inv _ _ _ _ Hc E) as (? & ?). apply Hk; assumption. }
  assert (Hcv : forall ge k, (forall lw0 lw1 n0, wf_ci n0 -> ci_lw n0 = lw0 -> 0 <= lw1 ->
            wf_outs (k (lw0, lw1, n0))) -> wf_outs (obind (conv_prologue ge args consts) k)).
  { intros ge k Hk. destruct (conv_prologue ge args consts) as [[[lw0 lw1] n0]| |] eqn:E; try exact I.
    destruct (conv_prologue_inv _ _ _ _ _ _ Hc E) as (? & ? & ?). apply Hk; assumption. }
  assert (Hone : forall v, wf_val v -> wf_outs (out1 v)).
  { intros v Hv p w [H|[]]. injection H as <- <-. exact Hv. }
  assert (Htwo : forall q r, wf_ci q -> wf_ci r ->
            wf_outs (Folded [(0, CInt q); (1, CInt r)]) /\ wf_outs (out1 (tuple [CInt q; CInt r]))).
  { intros q r Hq Hr. split; [|apply Hone; cbn; auto].
    intros p w [H|[H|[]]]; injection H as <- <-; assumption. }
  assert (Hcmp : forall f, wf_outs (cmp_u f args consts) /\ wf_outs (cmp_s f args consts)).
  { intros f. split; apply Hbin; intros; apply Hone; exact I. }
  assert (Hudiv : forall n m, wf_ci n -> wf_ci m -> value_u m <> 0 ->
            0 <= value_u n / value_u m < 2 ^ 64 /\ 0 <= value_u n mod value_u m < 2 ^ 64).
  { intros n m Hn Hm Hz. pose proof (wf_u64 _ Hn). pose proof (wf_u64 _ Hm).
    pose proof (Z.mod_pos_bound (value_u n) (value_u m) ltac:(lia)). split; [|lia].
    split; [apply Z.div_pos; lia|]. apply Z.le_lt_trans with (value_u n); [|lia].
    apply Z.div_le_upper_bound; nia. }
  assert (Hsdiv : forall n m q r, wf_ci n -> wf_ci m -> value_u m <> 0 ->
            divmod_s chk (value_s n) (value_u m) = Folded (q, r) ->
            - 2 ^ 63 <= q < 2 ^ 63 /\ 0 <= r < 2 ^ 64).
  { intros n m q r Hn Hm Hz E. pose proof (wf_i64 _ Hn). pose proof (wf_u64 _ Hm).
    apply (divmod_s_range chk (value_s n) (value_u m)); [assumption|lia|assumption]. }
  destruct op; cbn [fold].
  (* conversions *)
  1,2,3,4: apply Hcv; intros lw0 lw1 n0 Hn E0 Hl1.
  - destruct (new_u lw1 (value_u n0)) eqn:E; [|exact I]. apply Hone.
    exact (new_u_wf _ _ _ Hl1 (wf_u64 _ Hn) E).
  - destruct (new_s lw1 (value_s n0)) eqn:E; [|exact I]. apply Hone.
    exact (new_s_wf _ _ _ Hl1 (wf_i64 _ Hn) E).
  - destruct (u64_shr _ _ _) as [hi| |]; try exact I. cbn [obind].
    destruct (negb (hi =? 0)); [apply Hone; cbn; auto|].
    destruct (new_u lw1 (value_u n0)) eqn:E; [|exact I]. apply Hone. cbn. split; [|exact I].
    exact (new_u_wf _ _ _ Hl1 (wf_u64 _ Hn) E).
  - destruct (i64_one_shl _ _) as [ub| |]; try exact I. cbn [obind].
    destruct (ub <=? value_s n0); [apply Hone; cbn; auto|].
    destruct (i64_result _ _) as [nub| |]; try exact I. cbn [obind].
    destruct (value_s n0 <? nub); [apply Hone; cbn; auto|].
    destruct (new_s lw1 (value_s n0)) eqn:E; [|exact I]. apply Hone. cbn. split; [|exact I].
    exact (new_s_wf _ _ _ Hl1 (wf_i64 _ Hn) E).
  (* comparisons *)
  - apply Hcmp. - apply Hcmp. - apply Hcmp. - apply Hcmp. - apply Hcmp.
  - apply Hcmp. - apply Hcmp. - apply Hcmp. - apply Hcmp. - apply Hcmp.
  (* min/max *)
  - apply bin_u_wf; [assumption|]. intros lw a b v Hl Ha Hb E; injection E as <-.
    pose proof (in_u_u64 _ _ Hl Ha). pose proof (in_u_u64 _ _ Hl Hb). lia.
  - apply Hbin. intros lw n0 n1 H0 H1 E0 E1. cbn [obind]. apply out_s_wf; [rewrite <- E0; auto|].
    pose proof (wf_i64 _ H0). pose proof (wf_i64 _ H1). lia.
  - apply bin_u_wf; [assumption|]. intros lw a b v Hl Ha Hb E; injection E as <-.
    pose proof (in_u_u64 _ _ Hl Ha). pose proof (in_u_u64 _ _ Hl Hb). lia.
  - apply Hbin. intros lw n0 n1 H0 H1 E0 E1. cbn [obind]. apply out_s_wf; [rewrite <- E0; auto|].
    pose proof (wf_i64 _ H0). pose proof (wf_i64 _ H1). lia.
  (* ring *)
  - apply bin_u_wf; [assumption|]. intros lw a b v Hl Ha Hb E; injection E as <-. apply land_mask_u64; assumption.
  - apply bin_u_wf; [assumption|]. intros lw a b v Hl Ha Hb E; injection E as <-. apply land_mask_u64; assumption.
  - apply Hun. intros lw n0 H0 E0. apply out_u_wf; [rewrite <- E0; auto|].
    apply land_mask_u64. rewrite <- E0. apply H0.
  - apply bin_u_wf; [assumption|]. intros lw a b v Hl Ha Hb E; injection E as <-. apply land_mask_u64; assumption.
  (* division *)
  - apply Hbin. intros lw n m Hn Hm E0 E1. destruct (Z.eqb_spec (value_u m) 0); [apply Hone; cbn; auto|].
    destruct (Hudiv n m Hn Hm n0) as [A B].
    destruct (new_u lw (value_u n / value_u m)) eqn:Eq; [|exact I]. cbn [or_panic obind].
    destruct (new_u lw (value_u n mod value_u m)) eqn:Er; [|exact I]. cbn [or_panic obind].
    apply Htwo; (eapply new_u_wf; [| |eassumption]; [rewrite <- E0; auto|assumption]).
  - apply Hbin. intros lw n m Hn Hm E0 E1. destruct (Z.eqb_spec (value_u m) 0); [exact I|].
    destruct (Hudiv n m Hn Hm n0) as [A B].
    destruct (new_u lw (value_u n / value_u m)) eqn:Eq; [|exact I]. cbn [or_panic obind].
    destruct (new_u lw (value_u n mod value_u m)) eqn:Er; [|exact I]. cbn [or_panic obind].
    apply Htwo; (eapply new_u_wf; [| |eassumption]; [rewrite <- E0; auto|assumption]).
  - apply Hbin. intros lw n m Hn Hm E0 E1. destruct (Z.eqb_spec (value_u m) 0); [apply Hone; cbn; auto|].
    destruct (divmod_s chk (value_s n) (value_u m)) as [[q r]| |] eqn:Ed; try exact I. cbn [obind fst snd].
    destruct (Hsdiv n m q r Hn Hm n0 Ed) as [A B].
    destruct (new_s lw q) eqn:Eq; [|exact I]. cbn [or_panic obind].
    destruct (new_u lw r) eqn:Er; [|exact I]. cbn [or_panic obind].
    apply Htwo; [eapply new_s_wf; [| |eassumption]|eapply new_u_wf; [| |eassumption]];
      first [assumption | rewrite <- E0; auto].
  - apply Hbin. intros lw n m Hn Hm E0 E1. destruct (Z.eqb_spec (value_u m) 0); [exact I|].
    destruct (divmod_s chk (value_s n) (value_u m)) as [[q r]| |] eqn:Ed; try exact I. cbn [obind fst snd].
    destruct (Hsdiv n m q r Hn Hm n0 Ed) as [A B].
    destruct (new_s lw q) eqn:Eq; [|exact I]. cbn [or_panic obind].
    destruct (new_u lw r) eqn:Er; [|exact I]. cbn [or_panic obind].
    apply Htwo; [eapply new_s_wf; [| |eassumption]|eapply new_u_wf; [| |eassumption]];
      first [assumption | rewrite <- E0; auto].
  - apply Hbin. intros lw n m Hn Hm E0 E1. destruct (Z.eqb_spec (value_u m) 0); [apply Hone; cbn; auto|].
    apply out_u_wf; [rewrite <- E0; auto|]. apply Hudiv; assumption.
  - apply Hbin. intros lw n m Hn Hm E0 E1. destruct (Z.eqb_spec (value_u m) 0); [exact I|].
    apply out_u_wf; [rewrite <- E0; auto|]. apply Hudiv; assumption.
  - apply Hbin. intros lw n m Hn Hm E0 E1. destruct (Z.eqb_spec (value_u m) 0); [apply Hone; cbn; auto|].
    apply out_u_wf; [rewrite <- E0; auto|]. apply Hudiv; assumption.
  - apply Hbin. intros lw n m Hn Hm E0 E1. destruct (Z.eqb_spec (value_u m) 0); [exact I|].
    apply out_u_wf; [rewrite <- E0; auto|]. apply Hudiv; assumption.
  - apply Hbin. intros lw n m Hn Hm E0 E1. destruct (Z.eqb_spec (value_u m) 0); [apply Hone; cbn; auto|].
    destruct (divmod_s chk (value_s n) (value_u m)) as [[q r]| |] eqn:Ed; try exact I. cbn [obind fst snd].
    apply out_s_wf; [rewrite <- E0; auto|]. apply (Hsdiv n m q r Hn Hm n0 Ed).
  - apply Hbin. intros lw n m Hn Hm E0 E1. destruct (Z.eqb_spec (value_u m) 0); [exact I|].
    destruct (divmod_s chk (value_s n) (value_u m)) as [[q r]| |] eqn:Ed; try exact I. cbn [obind fst snd].
    apply out_s_wf; [rewrite <- E0; auto|]. apply (Hsdiv n m q r Hn Hm n0 Ed).
  - apply Hbin. intros lw n m Hn Hm E0 E1. destruct (Z.eqb_spec (value_u m) 0); [apply Hone; cbn; auto|].
    destruct (divmod_s chk (value_s n) (value_u m)) as [[q r]| |] eqn:Ed; try exact I. cbn [obind fst snd].
    apply out_u_wf; [rewrite <- E0; auto|]. apply (Hsdiv n m q r Hn Hm n0 Ed).
  - apply Hbin. intros lw n m Hn Hm E0 E1. destruct (Z.eqb_spec (value_u m) 0); [exact I|].
    destruct (divmod_s chk (value_s n) (value_u m)) as [[q r]| |] eqn:Ed; try exact I. cbn [obind fst snd].
    apply out_u_wf; [rewrite <- E0; auto|]. apply (Hsdiv n m q r Hn Hm n0 Ed).
  (* ipow, iabs *)
  - apply bin_u_wf; [assumption|]. intros lw a b v Hl Ha Hb E; injection E as <-. apply land_mask_u64; assumption.
  - apply Hun. intros lw n0 H0 E0. destruct (Z.eqb_spec (value_s n0) i64_min).
    + apply out_u_wf; [lia|]. unfold two63; lia.
    + apply out_s_wf; [rewrite <- E0; auto|]. pose proof (wf_i64 _ H0). unfold i64_min in *. lia.
  (* bitwise *)
  - apply bin_u_wf; [assumption|]. intros lw a b v Hl Ha Hb E; injection E as <-.
    apply land_in. apply (in_u_u64 lw); assumption.
  - apply bin_u_wf; [assumption|]. intros lw a b v Hl Ha Hb E; injection E as <-.
    apply lor_in; apply (in_u_u64 lw); assumption.
  - apply bin_u_wf; [assumption|]. intros lw a b v Hl Ha Hb E; injection E as <-.
    apply lxor_in; apply (in_u_u64 lw); assumption.
  - apply Hun. intros lw n0 H0 E0. apply out_u_wf; [rewrite <- E0; auto|].
    rewrite Z.land_comm. apply land_mask_u64. rewrite <- E0. apply H0.
  (* shifts *)
  - apply bin_u_wf; [assumption|]. intros lw a b v Hl Ha Hb E.
    destruct (u64_shl chk a b) as [s| |] eqn:Es; try discriminate. cbn [obind] in E. injection E as <-.
    apply land_mask_u64; assumption.
  - apply bin_u_wf; [assumption|]. intros lw a b v Hl Ha Hb E.
    apply (u64_shr_in chk a b); [apply (in_u_u64 lw); assumption|unfold in_u in Hb; lia|assumption].
  - apply bin_u_wf; [assumption|]. intros lw a b v Hl Ha Hb E. cbv zeta in E. pose proof (bits_pos _ Hl).
    pose proof (Z.mod_pos_bound b (2 ^ lw) ltac:(unfold bits in *; lia)).
    destruct (u64_shl chk a (b mod 2 ^ lw)) as [x| |] eqn:Ex; try discriminate. cbn [obind] in E.
    destruct (u64_shr chk a (2 ^ lw - b mod 2 ^ lw)) as [y| |] eqn:Ey; try discriminate. cbn [obind] in E.
    injection E as <-. apply lor_in.
    + apply land_mask_u64; assumption.
    + assert (0 <= a < 2 ^ 64) by (apply (in_u_u64 lw); assumption).
      assert (0 <= 2 ^ lw - b mod 2 ^ lw) by lia.
      eapply u64_shr_in; [| |exact Ey]; lia.
  - apply bin_u_wf; [assumption|]. intros lw a b v Hl Ha Hb E. cbv zeta in E. pose proof (bits_pos _ Hl).
    pose proof (Z.mod_pos_bound b (2 ^ lw) ltac:(unfold bits in *; lia)).
    destruct (u64_shl chk a (2 ^ lw - b mod 2 ^ lw)) as [x| |] eqn:Ex; try discriminate. cbn [obind] in E.
    destruct (u64_shr chk a (b mod 2 ^ lw)) as [y| |] eqn:Ey; try discriminate. cbn [obind] in E.
    injection E as <-. apply lor_in.
    + apply land_mask_u64; assumption.
    + assert (0 <= a < 2 ^ 64) by (apply (in_u_u64 lw); assumption).
      assert (0 <= 2 ^ lw - b mod 2 ^ lw) by lia.
      eapply u64_shr_in; [| |exact Ey]; lia.
  - apply Hun. intros lw n0 H0 E0. destruct (0 <=? value_s n0); [|exact I]. apply Hone; exact H0.
  - apply Hun. intros lw n0 H0 E0. destruct (0 <=? value_s n0); [|exact I]. apply Hone; exact H0.
Qed.

Lemma fold_outputs_wf chk op args consts outs :
  fold chk op args consts = Folded outs ->
  (forall c, In (CInt c) consts -> wf_ci c) ->
  forall p v, In (p, v) outs -> wf_val v.
Proof.
  intros E Hc. pose proof (wf_outs_fold chk op args consts Hc) as H. rewrite E in H. exact H.
Qed.
