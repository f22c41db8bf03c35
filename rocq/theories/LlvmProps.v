(** Properties of the lowering of integer operations to LLVM (claim C06). *)
From Coq Require Import ZArith List Bool Lia ZifyBool.
From Verif Require Import IntModel IntSpec IntProofs LlvmModel LlvmSpec LlvmProofs.
Import ListNotations.
Open Scope Z_scope.

(** The claim as documented: at a width with an LLVM type of its own, the code emitted for an
    operation leaves the specified outputs, for all operands (a zero divisor of a panicking division
    excepted). *)
Definition lowering_right (op : int_op) (lw a b : Z) : Prop :=
  computes lw (spec2 op lw a b) (emit2 op lw (Some a) (Some b)).

(** C06.  Exactly the operands of [good2] are lowered correctly: no rotation; shifts by less than the
    width; maxima and minima at 64 bits only; checked divisions by a non-zero divisor only; signed
    divisions except of the least number by the greatest. *)
Theorem lowering_binary op lw a b :
  exact_lw lw -> in_u lw a -> in_u lw b -> arity op = 2%nat -> (panicking op -> b <> 0) ->
  (lowering_right op lw a b <-> good2 op lw a b).
Proof.
  intros El A B Ar P. split; [|now apply emit2_good].
  intros (vs & outs & E & O & S). pose proof (exact_valid _ El) as Vl.
  pose proof (half_pos _ Vl) as HP. pose proof (half_bits _ Vl) as HB. pose proof (pow_bits_pos _ Vl) as PB.
  assert (W64 : llvm_width lw = 64 -> lw = 6).
  { intros W. destruct (Z.eq_dec lw 6); [assumption|].
    assert (lw = 3 \/ lw = 4 \/ lw = 5) as [-> | [-> | ->]] by (unfold exact_lw in El; lia); discriminate W. }
  assert (UB : forall sg, build_divmod sg lw (Some a) (Some 0) = Undefined).
  { intros [|]; [|reflexivity]. unfold build_divmod, lsdiv, lsdiv_by. reflexivity. }
  assert (DZ : forall o sg, emit_divmod o sg false lw (Some a) (Some 0) = Undefined).
  { intros o sg. unfold emit_divmod, make_divmod. rewrite UB. reflexivity. }
  assert (UM : build_divmod true lw (Some (2 ^ (bits lw - 1))) (Some (2 ^ bits lw - 1)) = Undefined).
  { unfold build_divmod, lsdiv, lsdiv_by. rewrite (exact_width _ El). replace (2 ^ bits lw - 1 =? 0) with false by lia.
    rewrite !Z.eqb_refl. reflexivity. }
  assert (DM : forall o p, a = 2 ^ (bits lw - 1) /\ b = 2 ^ bits lw - 1 ->
                           emit_divmod o true p lw (Some a) (Some b) = Undefined).
  { intros o p [-> ->]. unfold emit_divmod, make_divmod. rewrite valid_true by (assumption || lia). rewrite UM. destruct p; reflexivity. }
  destruct op; try discriminate Ar; cbn [good2 panicking checked signed_div] in *;
    try discriminate E;
    try (split; [intros _ -> | intros _ M]; cbn [emit2] in E; [rewrite DZ in E; discriminate E|rewrite (DM _ _ M) in E; discriminate E]);
    try (split; [tauto|intros _ M]; cbn [emit2] in E; rewrite (DM _ _ M) in E; discriminate E);
    try (split; [intros _ ->|tauto]; cbn [emit2] in E; rewrite DZ in E; discriminate E);
    try (apply W64; unfold emit2, intrinsic64 in E; destruct (Z.eqb_spec (llvm_width lw) 64); [assumption|discriminate E]);
    try tauto.
  - cbn [emit2] in E. injection E as <-. unfold lshl in O. rewrite (exact_width _ El) in O.
    destruct (Z.ltb_spec b (bits lw)); [assumption|discriminate O].
  - cbn [emit2] in E. injection E as <-. unfold llshr in O. rewrite (exact_width _ El) in O.
    destruct (Z.ltb_spec b (bits lw)); [assumption|discriminate O].
Qed.
Print Assumptions lowering_binary.

(** Operations with one operand; sign conversions of a value that both readings have. *)
Theorem lowering_unary op lw a :
  exact_lw lw -> in_u lw a -> In op [ineg; inot; iabs; iu_to_s; is_to_u] ->
  (op = iu_to_s \/ op = is_to_u -> a < 2 ^ (bits lw - 1)) ->
  (computes lw (spec1 op lw a) (emit1 op lw (Some a)) <-> good1 op lw a).
Proof.
  intros El A I C. split; [|now apply emit1_good].
  intros (vs & outs & E & O & S).
  cbn [In] in I. repeat (destruct I as [<-|I]); try contradiction I; cbn [good1]; auto.
  unfold emit1, intrinsic64 in E. destruct (Z.eqb_spec (llvm_width lw) 64) as [W|W]; [|discriminate E].
  assert (lw = 6).
  { destruct (Z.eq_dec lw 6); [assumption|].
    assert (lw = 3 \/ lw = 4 \/ lw = 5) as [-> | [-> | ->]] by (unfold exact_lw in El; lia); discriminate W. }
  split; [assumption|]. intros ->. injection E as <-. subst lw. discriminate O.
Qed.
Print Assumptions lowering_unary.

(** Changes of width. *)
Theorem lowering_width op lw0 lw1 a : exact_lw lw0 -> exact_lw lw1 -> in_u lw0 a ->
  In op [iwiden_u; iwiden_s] /\ lw0 <= lw1 \/ In op [inarrow_u; inarrow_s] /\ lw1 <= lw0 ->
  computes lw1 (spec_conv op lw0 lw1 a) (emit_conv op lw0 lw1 (Some a)).
Proof. apply emit_conv_good. Qed.
Print Assumptions lowering_width.

(** Where no output is specified the program stops: it does not go on with some value. *)
Theorem lowering_stops op lw a : exact_lw lw -> in_u lw a ->
  (panicking op -> emit2 op lw (Some a) (Some 0) = Aborts) /\
  (op = iu_to_s \/ op = is_to_u -> 2 ^ (bits lw - 1) <= a -> emit1 op lw (Some a) = Aborts).
Proof. intros El A. split; [now apply div_aborts|now apply convert_aborts]. Qed.
Print Assumptions lowering_stops.

(** * Where the claim fails *)
Ltac small := cbv; repeat split; intros; discriminate.

(** A checked division by zero, which has to return an error, is undefined behaviour: the division is
    executed before its result is discarded. *)
Theorem checked_division_refuted :
  exists op lw a b, checked op /\ exact_lw lw /\ in_u lw a /\ in_u lw b /\
    spec2 op lw a b [ErrV] /\ emit2 op lw (Some a) (Some b) = Undefined.
Proof. exists idiv_checked_u, 6, 1, 0. split; [exact Logic.I|]. repeat split; try (cbv; congruence); reflexivity. Qed.
Print Assumptions checked_division_refuted.

(** Dividing the least signed number by the greatest unsigned one is undefined behaviour, as the
    emitted [sdiv] reads the divisor as -1. *)
Theorem signed_division_refuted :
  exists op lw a b, signed_div op /\ exact_lw lw /\ in_u lw a /\ in_u lw b /\ b <> 0 /\
    (exists outs, spec2 op lw a b outs) /\ emit2 op lw (Some a) (Some b) = Undefined.
Proof.
  exists idivmod_s, 3, 128, 255. split; [exact Logic.I|]. repeat split; try (cbv; congruence).
  exists [IntV 3 255; IntV 3 127], (-1), 255, 127. repeat split; cbv; congruence.
Qed.
Print Assumptions signed_division_refuted.

(** A shift by the width, specified to give 0, gives poison. *)
Theorem shift_refuted :
  exists op lw a b, exact_lw lw /\ in_u lw a /\ in_u lw b /\
    spec2 op lw a b [IntV lw 0] /\ emit2 op lw (Some a) (Some b) = Ret [VInt (bits lw) None].
Proof.
  exists ishr, 3, 1, 8. repeat split; try (cbv; congruence).
  exists 0. split; [reflexivity|]. split; [cbv; split; congruence|]. intros i Hi. change (bits 3) with 8 in *.
  rewrite Z.bits_0. destruct (Z.ltb_spec (i + 8) 8); [lia|reflexivity].
Qed.
Print Assumptions shift_refuted.

(** The absolute value of the least number is poison. *)
Theorem abs_refuted :
  exists lw a, exact_lw lw /\ in_u lw a /\
    spec1 iabs lw a [IntV lw (2 ^ 63)] /\ emit1 iabs lw (Some a) = Ret [VInt (bits lw) None].
Proof. exists 6, (2 ^ 63). repeat split; try (cbv; congruence). Qed.
Print Assumptions abs_refuted.

(** At 8, 16 and 32 bits there is no code at all for maxima, minima and absolute values. *)
Theorem intrinsics_refuted :
  forall op lw a b, exact_lw lw -> lw <> 6 -> In op [imax_s; imax_u; imin_s; imin_u] ->
    emit2 op lw a b = EmitError /\ emit1 iabs lw a = EmitError.
Proof.
  intros op lw a b El N I.
  assert (llvm_width lw =? 64 = false) as W.
  { assert (lw = 3 \/ lw = 4 \/ lw = 5) as [-> | [-> | ->]] by (unfold exact_lw in El; lia); reflexivity. }
  cbn [In] in I. repeat (destruct I as [<-|I]); try contradiction I; unfold emit2, emit1, intrinsic64; rewrite W; auto.
Qed.
Print Assumptions intrinsics_refuted.

(** Integers of fewer than 8 bits live in an [i8] and are not reduced: adding 1 to the greatest 4-bit
    number gives 16, not 0; a comparison of the results differs as well. *)
Theorem small_widths_refuted :
  exists lw a b, valid_lw lw /\ in_u lw a /\ in_u lw b /\
    spec2 iadd lw a b [IntV lw 0] /\ emit2 iadd lw (Some a) (Some b) = Ret [VInt 8 (Some 16)] /\
    emit2 ieq lw (Some 16) (Some 0) = Ret [VSum (Some 0) []].
Proof. exists 2, 15, 1. repeat split; cbv; congruence. Qed.
Print Assumptions small_widths_refuted.

(** * Examples *)
Example div_s : emit2 idivmod_s 3 (Some 249) (Some 3) = Ret [VInt 8 (Some 253); VInt 8 (Some 2)].
Proof. reflexivity. Qed.  (* -7 = -3 * 3 + 2 *)
Example div_s_big : emit2 idivmod_checked_s 3 (Some 249) (Some 200)
  = Ret [build_tag 1 [build_tag 0 [VInt 8 (Some 255); VInt 8 (Some 193)]]].
Proof. reflexivity. Qed.  (* -7 = -1 * 200 + 193 *)
Example div_s_hyps : good2 idivmod_s 3 249 3.
Proof. cbn. split; [discriminate|]. intros _ [H _]. discriminate H. Qed.
Example pow_ex : emit2 ipow 3 (Some 3) (Some 7) = Ret [VInt 8 (Some (2187 mod 256))].
Proof. reflexivity. Qed.
Example narrow_ex : emit_conv inarrow_s 4 3 (Some 65408) = Ret [build_tag 1 [VInt 8 (Some 128)]]
  /\ emit_conv inarrow_s 4 3 (Some 65407) = Ret [build_tag 0 [VErr]].
Proof. split; reflexivity. Qed.
Example u_to_s_ex : emit1 iu_to_s 3 (Some 127) = Ret [VInt 8 (Some 127)] /\ emit1 iu_to_s 3 (Some 128) = Aborts.
Proof. split; reflexivity. Qed.
