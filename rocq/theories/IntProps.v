(** Property theorems for integer constants and integer constant folding: C01-C05. *)
From Coq Require Import ZArith List Bool Lia.
From Verif Require Import IntModel IntSpec IntProofs.
Import ListNotations.
Open Scope Z_scope.

(** ** C01 *)

(** Building from an unsigned value succeeds exactly in range, and then reads back. *)
Theorem constint_new_u : forall lw v, 0 <= lw < 256 -> 0 <= v < 2 ^ 64 ->
  ((exists c, new_u lw v = Some c) <-> (valid_lw lw /\ in_u lw v)) /\
  (forall c, new_u lw v = Some c -> value_u c = v /\ ci_lw c = lw).
Proof. intros lw v Hl Hv. exact (conj (new_u_iff lw v Hl Hv) (new_u_value lw v)). Qed.
Print Assumptions constint_new_u.

Theorem constint_new_s : forall lw v, 0 <= lw < 256 -> - 2 ^ 63 <= v < 2 ^ 63 ->
  ((exists c, new_s lw v = Some c) <-> (valid_lw lw /\ in_s lw v)) /\
  (forall c, new_s lw v = Some c -> value_s c = v /\ ci_lw c = lw /\ wf_ci c).
Proof. intros lw v Hl Hv. exact (conj (new_s_iff lw v Hl Hv) (fun c => new_s_value lw v c Hl Hv)). Qed.
Print Assumptions constint_new_s.

(** The two readings of one constant agree modulo the width and the signed one is in range. *)
Theorem constint_readings : forall c, wf_ci c ->
  in_s (ci_lw c) (value_s c) /\ value_s c mod 2 ^ bits (ci_lw c) = value_u c.
Proof. exact readings_congruent. Qed.
Print Assumptions constint_readings.

Example constint_nonvacuous :
  new_u 3 255 = Some (mk_ci 3 255) /\ new_u 3 256 = None /\ new_s 3 (-128) = Some (mk_ci 3 128)
  /\ new_s 3 128 = None /\ value_s (mk_ci 3 128) = -128 /\ new_u 7 0 = None
  /\ wf_ci (mk_ci 3 128).
Proof. repeat split; try reflexivity; cbn; lia. Qed.

(** ** C02 *)

Theorem fold_ring_bitwise_binary : forall chk op lw a b,
  valid_lw lw -> in_u lw a -> in_u lw b ->
  In op [iadd; isub; imul; iand; ior; ixor] ->
  exists outs, fold chk op [TBoundedNat lw] [IntV lw a; IntV lw b] = Folded (on_ports outs)
               /\ spec2 op lw a b outs.
Proof. exact ring_bitwise_ok. Qed.
Print Assumptions fold_ring_bitwise_binary.

Theorem fold_ring_bitwise_unary : forall chk op lw a,
  valid_lw lw -> in_u lw a -> In op [ineg; inot] ->
  exists outs, fold chk op [TBoundedNat lw] [IntV lw a] = Folded (on_ports outs)
               /\ spec1 op lw a outs.
Proof. exact neg_not_ok. Qed.
Print Assumptions fold_ring_bitwise_unary.

(** Whatever is folded, by any operation, is folded from one integer constant per operand,
    each of the declared width. *)
Theorem fold_only_on_matching_constants : forall chk op args consts outs,
  fold chk op args consts = Folded outs ->
  exists cs : list const_int, consts = map CInt cs /\ length cs = arity op /\
    match args with
    | TBoundedNat n :: _ => forall c, In c cs -> ci_lw c = n mod 256
    | _ => False
    end.
Proof. exact fold_shape. Qed.
Print Assumptions fold_only_on_matching_constants.

(** Every integer constant an operation folds to is a well-formed constant. *)
Theorem fold_outputs_wellformed : forall chk op args consts outs,
  fold chk op args consts = Folded outs ->
  (forall c, In (CInt c) consts -> wf_ci c) ->
  forall p v, In (p, v) outs -> wf_val v.
Proof. exact fold_outputs_wf. Qed.
Print Assumptions fold_outputs_wellformed.

Example fold_ring_nonvacuous :
  fold true iadd [TBoundedNat 3] [IntV 3 200; IntV 3 100] = Folded [(0, IntV 3 44)] /\
  fold true imul [TBoundedNat 6] [IntV 6 (2^63); IntV 6 3] = Folded [(0, IntV 6 (2^63))] /\
  fold true inot [TBoundedNat 1] [IntV 1 1] = Folded [(0, IntV 1 2)] /\
  valid_lw 6 /\ in_u 6 (2^63) /\ in_u 3 200.
Proof. repeat split; try reflexivity; vm_compute; congruence. Qed.

(** ** C03 *)

Theorem fold_div_unsigned : forall chk op lw a b,
  valid_lw lw -> in_u lw a -> in_u lw b -> b <> 0 -> In op [idivmod_u; idiv_u; imod_u] ->
  exists outs, fold chk op [TBoundedNat lw] [IntV lw a; IntV lw b] = Folded (on_ports outs)
               /\ spec2 op lw a b outs.
Proof. exact div_u_ok. Qed.
Print Assumptions fold_div_unsigned.

(** Full statement for the signed operations: the same without the [divs_safe] premise. It is
    false ([fold_div_signed_refuted]); this is what does hold. *)
Theorem fold_div_signed_partial : forall chk op lw a b,
  valid_lw lw -> in_u lw a -> in_u lw b -> b <> 0 -> divs_safe (signed lw a) b ->
  In op [idivmod_s; idiv_s; imod_s] ->
  exists outs, fold chk op [TBoundedNat lw] [IntV lw a; IntV lw b] = Folded (on_ports outs)
               /\ spec2 op lw a b outs.
Proof. exact div_s_ok. Qed.
Print Assumptions fold_div_signed_partial.

(** In particular every width below 64 is unconditionally right. *)
Theorem fold_div_signed_narrow : forall chk op lw a b,
  valid_lw lw -> lw < 6 -> in_u lw a -> in_u lw b -> b <> 0 ->
  In op [idivmod_s; idiv_s; imod_s] ->
  exists outs, fold chk op [TBoundedNat lw] [IntV lw a; IntV lw b] = Folded (on_ports outs)
               /\ spec2 op lw a b outs.
Proof. exact div_s_narrow_ok. Qed.
Print Assumptions fold_div_signed_narrow.

(** The excluded operands are exactly the wrong ones: there the remainder delivered, if any,
    is never in range. *)
Theorem fold_mod_signed_unsafe_wrong : forall chk lw a b,
  valid_lw lw -> in_u lw a -> in_u lw b -> b <> 0 -> ~ divs_safe (signed lw a) b ->
  forall op outs, In op [idivmod_s; imod_s] ->
  fold chk op [TBoundedNat lw] [IntV lw a; IntV lw b] = Folded (on_ports outs) ->
  ~ spec2 op lw a b outs.
Proof. exact div_s_unsafe. Qed.
Print Assumptions fold_mod_signed_unsafe_wrong.

(** [-2^63 mod 3] folds to 5 (in every build profile); [-2^63 mod (2^63-1)] aborts with
    overflow checks on. *)
Theorem fold_div_signed_refuted :
  exists lw a b, valid_lw lw /\ in_u lw a /\ in_u lw b /\ b <> 0 /\
    (forall chk, fold chk imod_s [TBoundedNat lw] [IntV lw a; IntV lw b] = Folded [(0, IntV lw 5)]) /\
    ~ spec2 imod_s lw a b [IntV lw 5] /\
    fold true imod_s [TBoundedNat 6] [IntV 6 (2^63); IntV 6 (2^63 - 1)] = Panic.
Proof. exact div_s_refuted. Qed.
Print Assumptions fold_div_signed_refuted.

Theorem fold_div_by_zero : forall chk op lw a, valid_lw lw -> in_u lw a ->
  (In op [idivmod_u; idiv_u; imod_u; idivmod_s; idiv_s; imod_s] ->
   fold chk op [TBoundedNat lw] [IntV lw a; IntV lw 0] = NoFold) /\
  (In op [idivmod_checked_u; idiv_checked_u; imod_checked_u;
          idivmod_checked_s; idiv_checked_s; imod_checked_s] ->
   exists outs, fold chk op [TBoundedNat lw] [IntV lw a; IntV lw 0] = Folded (on_ports outs)
                /\ spec2 op lw a 0 outs).
Proof. exact div_by_zero_ok. Qed.
Print Assumptions fold_div_by_zero.

(** Checked variants, non-zero divisor: they fold to the same numbers as the panicking ones
    but outside the success variant of their declared result type... *)
Theorem fold_checked_div_values : forall chk op cop lw a b outs,
  valid_lw lw -> in_u lw a -> in_u lw b -> b <> 0 -> checked_of op = Some cop ->
  fold chk op [TBoundedNat lw] [IntV lw a; IntV lw b] = Folded (on_ports outs) ->
  fold chk cop [TBoundedNat lw] [IntV lw a; IntV lw b]
  = Folded (on_ports [match outs with [v] => v | _ => CSum 0 outs end]).
Proof. exact checked_bare. Qed.
Print Assumptions fold_checked_div_values.

(** ... so they never meet the specification on a non-zero divisor, for any operands. *)
Theorem fold_checked_div_never_ok : forall chk op cop lw a b outs,
  valid_lw lw -> in_u lw a -> in_u lw b -> b <> 0 -> checked_of op = Some cop ->
  fold chk cop [TBoundedNat lw] [IntV lw a; IntV lw b] = Folded (on_ports outs) ->
  ~ spec2 cop lw a b outs.
Proof. exact checked_never_ok. Qed.
Print Assumptions fold_checked_div_never_ok.

Theorem fold_checked_div_refuted :
  exists lw a b outs, valid_lw lw /\ in_u lw a /\ in_u lw b /\ b <> 0 /\
    (forall chk, fold chk idiv_checked_u [TBoundedNat lw] [IntV lw a; IntV lw b]
                 = Folded (on_ports outs)) /\
    ~ spec2 idiv_checked_u lw a b outs.
Proof. exact checked_refuted. Qed.
Print Assumptions fold_checked_div_refuted.

Example fold_div_nonvacuous :
  fold true idivmod_s [TBoundedNat 3] [IntV 3 (256 - 7); IntV 3 200]
  = Folded [(0, IntV 3 255); (1, IntV 3 193)] /\
  divs_safe (signed 3 249) 200 /\ divs_safe (- 2 ^ 63) 4 /\ ~ divs_safe (- 2 ^ 63) 3.
Proof. exact div_nonvacuous. Qed.

(** ** C04 *)

Theorem fold_compare_minmax : forall chk op lw a b,
  valid_lw lw -> in_u lw a -> in_u lw b ->
  In op [ieq; ine; ilt_u; ilt_s; igt_u; igt_s; ile_u; ile_s; ige_u; ige_s;
         imax_u; imin_u; imax_s; imin_s] ->
  exists outs, fold chk op [TBoundedNat lw] [IntV lw a; IntV lw b] = Folded (on_ports outs)
               /\ spec2 op lw a b outs.
Proof. exact cmp_minmax_ok. Qed.
Print Assumptions fold_compare_minmax.

Theorem fold_widen : forall chk op lw0 lw1 a,
  valid_lw lw0 -> valid_lw lw1 -> lw0 <= lw1 -> in_u lw0 a -> In op [iwiden_u; iwiden_s] ->
  exists outs, fold chk op [TBoundedNat lw0; TBoundedNat lw1] [IntV lw0 a] = Folded (on_ports outs)
               /\ spec_conv op lw0 lw1 a outs.
Proof. exact widen_ok. Qed.
Print Assumptions fold_widen.

(** Narrowing: right for every target below 64 bits; the full statement (any target at most
    the source) is refuted below at 64 -> 64. *)
Theorem fold_narrow_partial : forall chk op lw0 lw1 a,
  valid_lw lw0 -> valid_lw lw1 -> lw1 <= lw0 -> lw1 <= 5 -> in_u lw0 a ->
  In op [inarrow_u; inarrow_s] ->
  exists outs, fold chk op [TBoundedNat lw0; TBoundedNat lw1] [IntV lw0 a] = Folded (on_ports outs)
               /\ spec_conv op lw0 lw1 a outs.
Proof. exact narrow_ok. Qed.
Print Assumptions fold_narrow_partial.

(** Narrowing from 64 to 64 bits (accepted by the signature check) never succeeds signed,
    aborts unsigned with overflow checks, and without them fails on every non-zero value. *)
Theorem fold_narrow_64_refuted : forall a, in_u 6 a ->
  (forall chk, fold chk inarrow_s [TBoundedNat 6; TBoundedNat 6] [IntV 6 a] = Folded (on_ports [ErrV])
               /\ ~ spec_conv inarrow_s 6 6 a [ErrV]) /\
  fold true inarrow_u [TBoundedNat 6; TBoundedNat 6] [IntV 6 a] = Panic /\
  (a <> 0 -> fold false inarrow_u [TBoundedNat 6; TBoundedNat 6] [IntV 6 a] = Folded (on_ports [ErrV])
             /\ ~ spec_conv inarrow_u 6 6 a [ErrV]).
Proof. exact narrow_64_refuted. Qed.
Print Assumptions fold_narrow_64_refuted.

(** Absolute value: right except at the signed minimum of widths below 64, where the fold
    aborts in every build profile. *)
Theorem fold_abs_partial : forall chk lw a, valid_lw lw -> in_u lw a ->
  (lw < 6 -> signed lw a <> - 2 ^ (bits lw - 1)) ->
  exists outs, fold chk iabs [TBoundedNat lw] [IntV lw a] = Folded (on_ports outs)
               /\ spec1 iabs lw a outs.
Proof. exact abs_ok. Qed.
Print Assumptions fold_abs_partial.

Theorem fold_abs_refuted : forall chk lw, valid_lw lw -> lw < 6 ->
  fold chk iabs [TBoundedNat lw] [IntV lw (2 ^ (bits lw - 1))] = Panic
  /\ in_u lw (2 ^ (bits lw - 1)).
Proof. exact abs_min_refuted. Qed.
Print Assumptions fold_abs_refuted.

(** Sign conversions: value preserved when representable; the fold aborts exactly otherwise. *)
Theorem fold_sign_conversion : forall chk op lw a,
  valid_lw lw -> in_u lw a -> In op [is_to_u; iu_to_s] ->
  (0 <= signed lw a ->
   exists outs, fold chk op [TBoundedNat lw] [IntV lw a] = Folded (on_ports outs)
                /\ outs = [IntV lw a]) /\
  (signed lw a < 0 -> fold chk op [TBoundedNat lw] [IntV lw a] = Panic).
Proof. exact signconv_full. Qed.
Print Assumptions fold_sign_conversion.

Example fold_conv_nonvacuous :
  fold true iwiden_s [TBoundedNat 3; TBoundedNat 4] [IntV 3 128] = Folded [(0, IntV 4 65408)] /\
  fold true inarrow_s [TBoundedNat 4; TBoundedNat 3] [IntV 4 65408] = Folded [(0, OkV (IntV 3 128))] /\
  fold true inarrow_s [TBoundedNat 4; TBoundedNat 3] [IntV 4 128] = Folded [(0, ErrV)] /\
  fold true ilt_s [TBoundedNat 3] [IntV 3 255; IntV 3 0] = Folded [(0, BoolV true)] /\
  fold true imax_s [TBoundedNat 3] [IntV 3 255; IntV 3 0] = Folded [(0, IntV 3 0)] /\
  fold true iabs [TBoundedNat 3] [IntV 3 255] = Folded [(0, IntV 3 1)].
Proof. repeat split. Qed.

(** ** C05 *)

(** Full statement: for every [b]. False for [64 <= b] ([fold_shift_refuted]). *)
Theorem fold_shift_partial : forall chk op lw a b,
  valid_lw lw -> in_u lw a -> in_u lw b -> b < 64 -> In op [ishl; ishr] ->
  exists outs, fold chk op [TBoundedNat lw] [IntV lw a; IntV lw b] = Folded (on_ports outs)
               /\ spec2 op lw a b outs.
Proof. exact shift_ok. Qed.
Print Assumptions fold_shift_partial.

(** For every width from 8 up: amounts of 64 or more abort with overflow checks; without
    them a shift by 64 returns the operand unchanged instead of zero. *)
Theorem fold_shift_refuted : forall lw a op, 3 <= lw <= 6 -> in_u lw a -> In op [ishl; ishr] ->
  (forall b, in_u lw b -> 64 <= b ->
             fold true op [TBoundedNat lw] [IntV lw a; IntV lw b] = Panic) /\
  (a <> 0 -> in_u lw 64 /\
     fold false op [TBoundedNat lw] [IntV lw a; IntV lw 64] = Folded (on_ports [IntV lw a]) /\
     ~ spec2 op lw a 64 [IntV lw a]).
Proof. exact shift_refuted. Qed.
Print Assumptions fold_shift_refuted.

(** Full statement: without the premise on [chk]. It fails only in builds with overflow
    checks, at 64 bits, for amounts divisible by 64. *)
Theorem fold_rotate_partial : forall chk op lw a b,
  valid_lw lw -> in_u lw a -> in_u lw b -> (chk = true -> lw = 6 -> b mod 64 <> 0) ->
  In op [irotl; irotr] ->
  exists outs, fold chk op [TBoundedNat lw] [IntV lw a; IntV lw b] = Folded (on_ports outs)
               /\ spec2 op lw a b outs.
Proof. exact rot_ok. Qed.
Print Assumptions fold_rotate_partial.

Theorem fold_rotate_refuted : forall a b op, in_u 6 a -> in_u 6 b -> b mod 64 = 0 ->
  In op [irotl; irotr] -> fold true op [TBoundedNat 6] [IntV 6 a; IntV 6 b] = Panic.
Proof. exact rot_refuted. Qed.
Print Assumptions fold_rotate_refuted.

(** Full statement: for every [b]. False from [2^32] on ([fold_pow_refuted]). *)
Theorem fold_pow_partial : forall chk lw a b,
  valid_lw lw -> in_u lw a -> in_u lw b -> b < 2 ^ 32 ->
  exists outs, fold chk ipow [TBoundedNat lw] [IntV lw a; IntV lw b] = Folded (on_ports outs)
               /\ spec2 ipow lw a b outs.
Proof. exact pow_ok. Qed.
Print Assumptions fold_pow_partial.

(** [(2^64-1)^(2^32)] is 1 modulo [2^64] but folds to [2^64-1]. *)
Theorem fold_pow_refuted : exists a b, in_u 6 a /\ in_u 6 b /\
  forall chk, exists outs,
    fold chk ipow [TBoundedNat 6] [IntV 6 a; IntV 6 b] = Folded (on_ports outs)
    /\ ~ spec2 ipow 6 a b outs.
Proof. exact pow_refuted. Qed.
Print Assumptions fold_pow_refuted.

Example fold_shift_nonvacuous :
  fold true ishl [TBoundedNat 3] [IntV 3 129; IntV 3 1] = Folded [(0, IntV 3 2)] /\
  fold true ishl [TBoundedNat 3] [IntV 3 129; IntV 3 9] = Folded [(0, IntV 3 0)] /\
  fold true irotl [TBoundedNat 3] [IntV 3 129; IntV 3 9] = Folded [(0, IntV 3 3)] /\
  fold false irotr [TBoundedNat 6] [IntV 6 129; IntV 6 64] = Folded [(0, IntV 6 129)] /\
  fold true ipow [TBoundedNat 3] [IntV 3 3; IntV 3 6] = Folded [(0, IntV 3 217)].
Proof. repeat split. Qed.
