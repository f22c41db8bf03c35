(** Independent specification of the integer operations, after
    /repo/specification/hugr.md l.1655-1735 and the operation descriptions in
    hugr-core/src/std_extensions/arithmetic/int_ops.rs l.164-223.

    Nothing from the folding code is used here, only the shape of constants. *)
From Coq Require Import ZArith List Bool.
From Verif Require Import IntModel.
Import ListNotations.
Open Scope Z_scope.

(** Number of bits of an integer type of log-width [lw]. *)
Definition bits (lw : Z) : Z := 2 ^ lw.

(** [v] is a bit pattern of that type. *)
Definition in_u (lw v : Z) : Prop := 0 <= v < 2 ^ bits lw.
(** [v] is representable as a signed integer of that type. *)
Definition in_s (lw v : Z) : Prop := - 2 ^ (bits lw - 1) <= v < 2 ^ (bits lw - 1).

(** Signed reading of a bit pattern: [sum_{i<N-1} 2^i a_i - 2^{N-1} a_{N-1}]. *)
Definition signed (lw v : Z) : Z := v mod 2 ^ (bits lw - 1)
                                    - (if Z.testbit v (bits lw - 1) then 2 ^ (bits lw - 1) else 0).

Definition valid_lw (lw : Z) : Prop := 0 <= lw <= 6.

(** Constants that exist: the ones the constructors can make. *)
Definition wf_ci (c : const_int) : Prop := valid_lw (ci_lw c) /\ in_u (ci_lw c) (ci_val c).

(** The value of an integer constant of the given type, as a folder output. *)
Definition IntV (lw v : Z) : cval := CInt (mk_ci lw v).
Definition BoolV (b : bool) : cval := CSum (if b then 1 else 0) [].
Definition OkV (v : cval) : cval := CSum 1 [v].   (* success variant of sum_with_error *)
Definition ErrV : cval := CSum 0 [CErr].          (* error variant *)
Definition PairV (a b : cval) : cval := CSum 0 [a; b].

(** [w] is the bit pattern at width [lw] whose signed reading is [s]. *)
Definition repr_s (lw s w : Z) : Prop := in_u lw w /\ signed lw w = s.

(** Specification of the operations with two operands of one width.
    [spec2 op lw a b outs]: on operands with bit patterns [a], [b] the outputs are [outs]. *)
Definition spec2 (op : int_op) (lw a b : Z) (outs : list cval) : Prop :=
  let N := bits lw in
  let sa := signed lw a in let sb := signed lw b in
  match op with
  | ieq => outs = [BoolV (Z.eqb a b)]
  | ine => outs = [BoolV (negb (Z.eqb a b))]
  | ilt_u => exists r, outs = [BoolV r] /\ (r = true <-> a < b)
  | ilt_s => exists r, outs = [BoolV r] /\ (r = true <-> sa < sb)
  | igt_u => exists r, outs = [BoolV r] /\ (r = true <-> a > b)
  | igt_s => exists r, outs = [BoolV r] /\ (r = true <-> sa > sb)
  | ile_u => exists r, outs = [BoolV r] /\ (r = true <-> a <= b)
  | ile_s => exists r, outs = [BoolV r] /\ (r = true <-> sa <= sb)
  | ige_u => exists r, outs = [BoolV r] /\ (r = true <-> a >= b)
  | ige_s => exists r, outs = [BoolV r] /\ (r = true <-> sa >= sb)
  | imax_u => exists v, outs = [IntV lw v] /\ a <= v /\ b <= v /\ (v = a \/ v = b)
  | imin_u => exists v, outs = [IntV lw v] /\ v <= a /\ v <= b /\ (v = a \/ v = b)
  | imax_s => exists v, outs = [IntV lw v] /\ sa <= signed lw v /\ sb <= signed lw v
                        /\ (v = a \/ v = b)
  | imin_s => exists v, outs = [IntV lw v] /\ signed lw v <= sa /\ signed lw v <= sb
                        /\ (v = a \/ v = b)
  | iadd => outs = [IntV lw ((a + b) mod 2 ^ N)]
  | isub => outs = [IntV lw ((a - b) mod 2 ^ N)]
  | imul => outs = [IntV lw ((a * b) mod 2 ^ N)]
  | ipow => outs = [IntV lw ((a ^ b) mod 2 ^ N)]
  | iand => exists v, outs = [IntV lw v] /\ in_u lw v /\
              forall i, 0 <= i < N -> Z.testbit v i = Z.testbit a i && Z.testbit b i
  | ior => exists v, outs = [IntV lw v] /\ in_u lw v /\
              forall i, 0 <= i < N -> Z.testbit v i = Z.testbit a i || Z.testbit b i
  | ixor => exists v, outs = [IntV lw v] /\ in_u lw v /\
              forall i, 0 <= i < N -> Z.testbit v i = xorb (Z.testbit a i) (Z.testbit b i)
  | ishl => exists v, outs = [IntV lw v] /\ in_u lw v /\
              forall i, 0 <= i < N -> Z.testbit v i = (b <=? i) && Z.testbit a (i - b)
  | ishr => exists v, outs = [IntV lw v] /\ in_u lw v /\
              forall i, 0 <= i < N -> Z.testbit v i = (i + b <? N) && Z.testbit a (i + b)
  | irotl => exists v, outs = [IntV lw v] /\ in_u lw v /\
              forall i, 0 <= i < N -> Z.testbit v i = Z.testbit a ((i - b) mod N)
  | irotr => exists v, outs = [IntV lw v] /\ in_u lw v /\
              forall i, 0 <= i < N -> Z.testbit v i = Z.testbit a ((i + b) mod N)
  (* division: only for a non-zero divisor [b], which is always unsigned *)
  | idivmod_u => exists q r, outs = [IntV lw q; IntV lw r] /\ in_u lw q /\
                             q * b + r = a /\ 0 <= r < b
  | idiv_u => exists q r, outs = [IntV lw q] /\ in_u lw q /\ q * b + r = a /\ 0 <= r < b
  | imod_u => exists q r, outs = [IntV lw r] /\ q * b + r = a /\ 0 <= r < b
  | idivmod_s => exists qs q r, outs = [IntV lw q; IntV lw r] /\ repr_s lw qs q /\
                             qs * b + r = sa /\ 0 <= r < b
  | idiv_s => exists qs q r, outs = [IntV lw q] /\ repr_s lw qs q /\
                             qs * b + r = sa /\ 0 <= r < b
  | imod_s => exists qs r, outs = [IntV lw r] /\ qs * b + r = sa /\ 0 <= r < b
  | idivmod_checked_u =>
      if b =? 0 then outs = [ErrV]
      else exists q r, outs = [OkV (PairV (IntV lw q) (IntV lw r))] /\ in_u lw q /\
                       q * b + r = a /\ 0 <= r < b
  | idivmod_checked_s =>
      if b =? 0 then outs = [ErrV]
      else exists qs q r, outs = [OkV (PairV (IntV lw q) (IntV lw r))] /\ repr_s lw qs q /\
                       qs * b + r = sa /\ 0 <= r < b
  | idiv_checked_u =>
      if b =? 0 then outs = [ErrV]
      else exists q r, outs = [OkV (IntV lw q)] /\ in_u lw q /\ q * b + r = a /\ 0 <= r < b
  | imod_checked_u =>
      if b =? 0 then outs = [ErrV]
      else exists q r, outs = [OkV (IntV lw r)] /\ q * b + r = a /\ 0 <= r < b
  | idiv_checked_s =>
      if b =? 0 then outs = [ErrV]
      else exists qs q r, outs = [OkV (IntV lw q)] /\ repr_s lw qs q /\
                       qs * b + r = sa /\ 0 <= r < b
  | imod_checked_s =>
      if b =? 0 then outs = [ErrV]
      else exists qs r, outs = [OkV (IntV lw r)] /\ qs * b + r = sa /\ 0 <= r < b
  | _ => False
  end.

(** Operations with one operand. *)
Definition spec1 (op : int_op) (lw a : Z) (outs : list cval) : Prop :=
  let N := bits lw in
  match op with
  | ineg => outs = [IntV lw ((- a) mod 2 ^ N)]
  | inot => exists v, outs = [IntV lw v] /\ in_u lw v /\
              forall i, 0 <= i < N -> Z.testbit v i = negb (Z.testbit a i)
  | iabs => outs = [IntV lw (Z.abs (signed lw a))]
  (* sign conversions: specified for operands whose value is representable on both sides *)
  | is_to_u | iu_to_s => 0 <= signed lw a -> outs = [IntV lw a]
  | _ => False
  end.

(** Width conversions from [lw0] to [lw1]. *)
Definition spec_conv (op : int_op) (lw0 lw1 a : Z) (outs : list cval) : Prop :=
  match op with
  | iwiden_u => lw0 <= lw1 /\ outs = [IntV lw1 a]
  | iwiden_s => lw0 <= lw1 /\ exists v, outs = [IntV lw1 v] /\ repr_s lw1 (signed lw0 a) v
  | inarrow_u => lw1 <= lw0 /\
      ((in_u lw1 a /\ outs = [OkV (IntV lw1 a)]) \/ (~ in_u lw1 a /\ outs = [ErrV]))
  | inarrow_s => lw1 <= lw0 /\
      ((exists v, repr_s lw1 (signed lw0 a) v /\ outs = [OkV (IntV lw1 v)])
       \/ (~ in_s lw1 (signed lw0 a) /\ outs = [ErrV]))
  | _ => False
  end.

Definition arity (op : int_op) : nat :=
  match op with
  | ineg | inot | iabs | is_to_u | iu_to_s
  | iwiden_u | iwiden_s | inarrow_u | inarrow_s => 1
  | _ => 2
  end.

(** The outputs [outs] delivered on output ports 0, 1, ... *)
Definition on_ports (outs : list cval) : list (Z * cval) :=
  combine (map Z.of_nat (seq 0 (length outs))) outs.

(** The dividends/divisors on which the signed division code is right: everything except the
    most negative 64-bit dividend with a smaller divisor that does not divide it. *)
Definition divs_safe (n m : Z) : Prop := n = - 2 ^ 63 -> (m | 2 ^ 63) \/ 2 ^ 63 <= m.

(** The checked operation corresponding to a panicking one. *)
Definition checked_of (op : int_op) : option int_op :=
  match op with
  | idivmod_u => Some idivmod_checked_u | idivmod_s => Some idivmod_checked_s
  | idiv_u => Some idiv_checked_u | idiv_s => Some idiv_checked_s
  | imod_u => Some imod_checked_u | imod_s => Some imod_checked_s
  | _ => None
  end.

(** All integer constants inside a value are well formed. *)
Fixpoint wf_val (v : cval) : Prop :=
  match v with
  | CInt c => wf_ci c
  | CSum _ vs => (fix all l := match l with [] => True | x :: xs => wf_val x /\ all xs end) vs
  | CErr | COpaque => True
  end.
