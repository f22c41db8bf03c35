(** Specification of floats, of their conversion to and from integers, and of float operations, by
    the rational number a finite float stands for.  Independent of the definitions of the model: only
    the type of floats, the constants and the names of the operations are shared. *)
From Coq Require Import ZArith QArith Qabs List Bool String Ascii.
From Coq Require Import Floats.SpecFloat.
From Verif Require Import IntModel IntSpec FloatModel.
Import ListNotations.
Open Scope Q_scope.

(** A bit pattern of a 64-bit float (other than a NaN) or the NaN. *)
Definition valid (f : f64) : Prop := valid_binary 53 1024 f = true.
Definition finite (f : f64) : Prop :=
  match f with S754_zero _ | S754_finite _ _ _ => True | _ => False end.
(** The number a finite float stands for. *)
Definition value (f : f64) : Q :=
  match f with
  | S754_finite s m e => inject_Z (if s then Zneg m else Zpos m) * (2 # 1) ^ e
  | _ => 0
  end.

(** [n] is [x] rounded towards zero. *)
Definition toward_zero (x : Q) (n : Z) : Prop :=
  (0 <= x -> inject_Z n <= x /\ x < inject_Z n + 1) /\
  (x <= 0 -> inject_Z n - 1 < x /\ x <= inject_Z n).
Definition floor_of (x : Q) (n : Z) : Prop := inject_Z n <= x /\ x < inject_Z n + 1.
Definition ceil_of (x : Q) (n : Z) : Prop := inject_Z n - 1 < x /\ x <= inject_Z n.
(** Nearest integer, halves away from zero. *)
Definition round_of (x : Q) (n : Z) : Prop :=
  (0 <= x -> inject_Z n - (1 # 2) <= x /\ x < inject_Z n + (1 # 2)) /\
  (x <= 0 -> inject_Z n - (1 # 2) < x /\ x <= inject_Z n + (1 # 2)).

(** The float nearest to the integer [n]; of two nearest ones the one with even last digit. *)
Definition nearest_even (n : Z) (f : f64) : Prop :=
  valid f /\ finite f /\
  forall g, valid g -> finite g ->
    Qabs (value f - inject_Z n) <= Qabs (value g - inject_Z n) /\
    (Qabs (value f - inject_Z n) == Qabs (value g - inject_Z n) ->
       value f == value g \/
       match f with S754_finite _ m _ => Z.even (Zpos m) = true | _ => True end).

(** The integers of type [int<lw>], read as signed or as unsigned. *)
Definition in_type (sgn : bool) (lw n : Z) : Prop := if sgn then in_s lw n else in_u lw n.
(** [w] is the stored word of the integer [n] of type [int<lw>]. *)
Definition stored (sgn : bool) (lw n w : Z) : Prop := if sgn then repr_s lw n w else in_u lw n /\ w = n.

(** The specified result of [trunc_u] ([sgn = false]) and [trunc_s]: the value rounded towards zero if
    there is one and it is of the type, else an error. *)
Definition trunc_spec (sgn : bool) (lw : Z) (f : f64) (v : fval) : Prop :=
  (exists n w, finite f /\ toward_zero (value f) n /\ in_type sgn lw n /\
               stored sgn lw n w /\ v = FSum 1 [FInt (mk_ci lw w)]) \/
  ((~ exists n, finite f /\ toward_zero (value f) n /\ in_type sgn lw n) /\
   exists sig, v = FSum 0 [FErr sig]).

(** Decimal notation: the digits of a string from left to right, starting from [acc]. *)
Fixpoint read_digits (acc : Z) (s : string) : option Z :=
  match s with
  | EmptyString => Some acc
  | String c s =>
      let d := (Z.of_N (N_of_ascii c) - 48)%Z in
      if ((0 <=? d) && (d <=? 9))%Z then read_digits (10 * acc + d)%Z s else None
  end.
(** [s] is the decimal notation of [n] without leading zeros. *)
Definition decimal_nat (n : Z) (s : string) : Prop :=
  read_digits 0 s = Some n /\ s <> EmptyString /\
  (forall s', s = String "0" s' -> s' = EmptyString).
Definition decimal (n : Z) (s : string) : Prop :=
  if (n <? 0)%Z then exists s', s = String "-" s' /\ decimal_nat (- n) s' else decimal_nat n s.

(** Comparisons on numbers. *)
Definition cmp_spec (op : cmp_op) (x y : Q) : Prop :=
  match op with
  | feq => x == y
  | fne => ~ x == y
  | flt => x < y
  | fgt => y < x
  | fle => x <= y
  | fge => y <= x
  end.
