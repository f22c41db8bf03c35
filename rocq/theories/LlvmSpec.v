(** What is expected of the lowering of integer operations (specification/hugr.md l.1655-1735); the
    operations themselves are specified in [IntSpec]. *)
From Coq Require Import ZArith List Bool.
From Verif Require Import IntModel IntSpec LlvmModel.
Import ListNotations.
Open Scope Z_scope.

(** The integer types that have an LLVM type of their own width. *)
Definition exact_lw (lw : Z) : Prop := 3 <= lw <= 6.

(** Operations with two operands and outputs whose outcome is specified for every operand, a zero
    divisor of a panicking division excepted. *)
Definition panicking (op : int_op) : Prop :=
  match op with
  | idiv_s | idiv_u | imod_s | imod_u | idivmod_s | idivmod_u => True
  | _ => False
  end.
Definition checked (op : int_op) : Prop :=
  match op with
  | idiv_checked_s | idiv_checked_u | imod_checked_s | imod_checked_u | idivmod_checked_s
  | idivmod_checked_u => True
  | _ => False
  end.
Definition signed_div (op : int_op) : Prop :=
  match op with
  | idiv_s | imod_s | idivmod_s | idiv_checked_s | imod_checked_s | idivmod_checked_s => True
  | _ => False
  end.

(** The emitted code runs to its end and its outputs are as specified. *)
Definition computes (lw : Z) (spec : list cval -> Prop) (r : res (list lv)) : Prop :=
  exists vs outs, r = Ret vs /\ obs_all lw vs = Some outs /\ spec outs.

(** The operands on which the lowering is right. *)
Definition good2 (op : int_op) (lw a b : Z) : Prop :=
  match op with
  | irotl | irotr => False
  | ishl | ishr => b < bits lw
  | imax_s | imax_u | imin_s | imin_u => lw = 6
  | _ =>
    (panicking op \/ checked op -> b <> 0) /\
    (signed_div op -> ~ (a = 2 ^ (bits lw - 1) /\ b = 2 ^ bits lw - 1))
  end.
Definition good1 (op : int_op) (lw a : Z) : Prop :=
  match op with
  | iabs => lw = 6 /\ a <> 2 ^ 63
  | iu_to_s | is_to_u => a < 2 ^ (bits lw - 1)
  | _ => True
  end.
