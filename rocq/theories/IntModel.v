(** Model of integer constants and of constant folding of integer operations.

    Source: hugr-core/src/std_extensions/arithmetic/int_types.rs and
            hugr-core/src/std_extensions/arithmetic/int_ops/const_fold.rs.

    Machine words are modelled as [Z]; a [u64] is a [z] with [0 <= z < 2^64], an
    [i64] a [z] with [-2^63 <= z < 2^63], a [u8] a [z] with [0 <= z < 256].
    Every wrap-around and every overflow panic of the Rust code is written out.
    The parameter [chk] says whether the crate was compiled with overflow checks
    (debug profile, [chk = true]: overflowing arithmetic and over-long shifts
    panic) or without (release profile, [chk = false]: they wrap / mask). *)
From Coq Require Import ZArith List Bool.
Import ListNotations.
Open Scope Z_scope.

(** Result of running a fold closure: [Folded x] = [Some(x)], [NoFold] = [None],
    [Panic] = the closure unwinds. *)
Inductive outcome (A : Type) : Type :=
| Folded (x : A)
| NoFold
| Panic.
Arguments Folded {A} x.
Arguments NoFold {A}.
Arguments Panic {A}.

Definition obind {A B} (m : outcome A) (f : A -> outcome B) : outcome B :=
  match m with Folded x => f x | NoFold => NoFold | Panic => Panic end.
Notation "'do' x <- m ; k" := (obind m (fun x => k))
  (at level 200, x name, m at level 100, k at level 200, right associativity).

(** [Option::ok()?] / [Result::ok()?] inside a fold closure: failure becomes [None]. *)
Definition or_nofold {A} (o : option A) : outcome A :=
  match o with Some x => Folded x | None => NoFold end.
(** [.unwrap()] inside a fold closure: failure unwinds. *)
Definition or_panic {A} (o : option A) : outcome A :=
  match o with Some x => Folded x | None => Panic end.

Definition two64 : Z := 2 ^ 64.
Definition two63 : Z := 2 ^ 63.
Definition i64_min : Z := - 2 ^ 63.

(** [x as u64] for an integer [x]. *)
Definition to_u64 (x : Z) : Z := x mod two64.
(** [x as i64]: two's complement reinterpretation. *)
Definition to_i64 (x : Z) : Z :=
  let u := x mod two64 in if u <? two63 then u else u - two64.

(** Signed addition/subtraction/negation with overflow handling. *)
Definition i64_result (chk : bool) (x : Z) : outcome Z :=
  if (i64_min <=? x) && (x <? two63) then Folded x
  else if chk then Panic else Folded (to_i64 x).

(** [a << k] and [a >> k] on [u64]: shift amounts of 64 or more panic with overflow
    checks and are masked to 6 bits without. *)
Definition u64_shl (chk : bool) (a k : Z) : outcome Z :=
  if k <? 64 then Folded ((a * 2 ^ k) mod two64)
  else if chk then Panic else Folded ((a * 2 ^ (k mod 64)) mod two64).
Definition u64_shr (chk : bool) (a k : Z) : outcome Z :=
  if k <? 64 then Folded (a / 2 ^ k)
  else if chk then Panic else Folded (a / 2 ^ (k mod 64)).
(** [1i64 << k]. *)
Definition i64_one_shl (chk : bool) (k : Z) : outcome Z :=
  if k <? 64 then Folded (to_i64 (2 ^ k))
  else if chk then Panic else Folded (to_i64 (2 ^ (k mod 64))).

(** int_types.rs l.91-104: [struct ConstInt { log_width: u8, value: u64 }]. *)
Record const_int : Type := mk_ci { ci_lw : Z; ci_val : Z }.

(** int_types.rs l.64-67. *)
Definition LOG_WIDTH_MAX : Z := 6.
Definition LOG_WIDTH_BOUND : Z := LOG_WIDTH_MAX + 1.

(** int_types.rs l.59-61: [is_valid_log_width(n: u8)]. *)
Definition is_valid_log_width (n : Z) : bool := n <? LOG_WIDTH_BOUND.

(** Type arguments as far as integer operations inspect them. *)
Inductive targ : Type :=
| TBoundedNat (n : Z)      (* TypeArg::BoundedNat(n: u64) *)
| TOther.                  (* any other term *)

(** int_types.rs l.78-86: [get_log_width]; note the truncating cast [*n as u8]. *)
Definition get_log_width (a : targ) : option Z :=
  match a with
  | TBoundedNat n => if is_valid_log_width (n mod 256) then Some (n mod 256) else None
  | TOther => None
  end.

(** int_types.rs l.109-123: [ConstInt::new_u(log_width: u8, value: u64)].  The shift
    [1u64 << (1u8 << log_width)] is evaluated only when [log_width <= 5]. *)
Definition new_u (log_width value : Z) : option const_int :=
  if negb (is_valid_log_width log_width) then None
  else if (log_width <=? 5) && (2 ^ (2 ^ log_width) <=? value) then None
  else Some (mk_ci log_width value).

(** int_types.rs l.126-149: [ConstInt::new_s(log_width: u8, value: i64)].
    [width = 1u8 << log_width]. *)
Definition new_s (log_width value : Z) : option const_int :=
  if negb (is_valid_log_width log_width) then None
  else
    let width := 2 ^ log_width in
    if (log_width <=? 5) &&
       ((2 ^ (width - 1) <=? value) || (value <? - 2 ^ (width - 1))) then None
    else Some (mk_ci log_width
                 (to_u64 (if (0 <=? value) || (log_width =? LOG_WIDTH_MAX) then value
                          else value + 2 ^ width))).

(** int_types.rs l.159-161. *)
Definition value_u (c : const_int) : Z := ci_val c.

(** int_types.rs l.165-177: [value_s]; [(value << 1) >> width] on [u64]. *)
Definition value_s (c : const_int) : Z :=
  if ci_lw c =? LOG_WIDTH_MAX then to_i64 (ci_val c)
  else
    let width := 2 ^ (ci_lw c) in
    if (((ci_val c * 2) mod two64) / 2 ^ width) =? 0 then to_i64 (ci_val c)
    else to_i64 (ci_val c) - 2 ^ width.

(** Constant values flowing through the folder.  [CErr] stands for any [ConstError]
    custom constant (its signal and message are not modelled), [CSum tag vs] for
    [Value::Sum] (booleans are [CSum 0 []] / [CSum 1 []], tuples are [CSum 0 vs] of a
    one-variant sum; the declared sum type is not stored), [COpaque] for any other
    custom constant. *)
Inductive cval : Type :=
| CInt (c : const_int)
| CErr
| CSum (tag : Z) (vs : list cval)
| COpaque.

(** ops/constant.rs: [Value::from_bool] (false = tag 0, true = tag 1),
    [Value::tuple] (tag 0). *)
Definition from_bool (b : bool) : cval := CSum (if b then 1 else 0) [].
Definition tuple (vs : list cval) : cval := CSum 0 vs.

(** [Value::get_custom_value::<ConstInt>()]. *)
Definition as_int (v : cval) : option const_int :=
  match v with CInt c => Some c | _ => None end.

(** ops/constant/custom.rs l.345-350, l.354-361. The incoming port numbers are ignored
    by the code and left out of the model. *)
Definition single_input (consts : list cval) : option const_int :=
  match consts with [c] => as_int c | _ => None end.
Definition pair_input (consts : list cval) : option (const_int * const_int) :=
  match consts with
  | [c0; c1] =>
      match as_int c0, as_int c1 with
      | Some a, Some b => Some (a, b)
      | _, _ => None
      end
  | _ => None
  end.

(** const_fold.rs l.30-41. *)
Definition bitmask_from_width (width : Z) : Z :=
  if width =? 64 then two64 - 1 else 2 ^ width - 1.
Definition bitmask_from_logwidth (lw : Z) : Z := bitmask_from_width (2 ^ lw).

(** const_fold.rs l.43-72: [divmod_s(n: i64, m: u64) -> (i64, u64)].
    Rust's [/] and [%] on [i64] truncate towards zero ([Z.quot]/[Z.rem]).  The caller
    guarantees [m <> 0]; a zero [m] panics in every branch that divides. *)
Definition divmod_s (chk : bool) (n m : Z) : outcome (Z * Z) :=
  if m =? 0 then Panic else
  if 0 <=? n then Folded (to_i64 (n / m), n mod m)
  else if negb (n =? i64_min) then
    let n_u := - n in
    let q := to_i64 (n_u / m) in
    let r := n_u mod m in
    if r =? 0 then Folded (- q, 0) else Folded (- q - 1, m - r)
  else if m =? 1 then Folded (n, 0)
  else if m <? two63 then
    let m_s := m in
    let q := Z.quot n m_s in
    let r := Z.rem n m_s in
    if r =? 0 then Folded (q, 0)
    else do d <- i64_result chk (m_s - r); Folded (q - 1, to_u64 d)
  else Folded (-1, m - two63).

(** [u64::overflowing_pow(e: u32).0]: repeated squaring with wrapping multiplication
    (Rust standard library). *)
Fixpoint pow_pos_wrap (b : Z) (e : positive) : Z :=
  match e with
  | xH => b mod two64
  | xO e' => let h := pow_pos_wrap b e' in (h * h) mod two64
  | xI e' => let h := pow_pos_wrap b e' in (((h * h) mod two64) * b) mod two64
  end.
Definition overflowing_pow (b e : Z) : Z :=
  match e with Zpos p => pow_pos_wrap b p | _ => 1 end.

(** int_ops.rs l.52-99: [enum IntOpDef]. *)
Inductive int_op : Type :=
| iwiden_u | iwiden_s | inarrow_u | inarrow_s
| ieq | ine | ilt_u | ilt_s | igt_u | igt_s | ile_u | ile_s | ige_u | ige_s
| imax_u | imax_s | imin_u | imin_s
| iadd | isub | ineg | imul
| idivmod_checked_u | idivmod_u | idivmod_checked_s | idivmod_s
| idiv_checked_u | idiv_u | imod_checked_u | imod_u
| idiv_checked_s | idiv_s | imod_checked_s | imod_s
| ipow | iabs | iand | ior | ixor | inot
| ishl | ishr | irotl | irotr | iu_to_s | is_to_u.

(** The common prologue of the one-width binary closures, e.g. l.171-177: exactly one
    type argument with a valid log-width, exactly two integer constants of that width. *)
Definition bin_prologue (args : list targ) (consts : list cval)
  : outcome (Z * const_int * const_int) :=
  match args with
  | [arg] =>
      do lw <- or_nofold (get_log_width arg);
      do p <- or_nofold (pair_input consts);
      let (n0, n1) := p in
      if negb (ci_lw n0 =? lw) || negb (ci_lw n1 =? lw) then NoFold
      else Folded (lw, n0, n1)
  | _ => NoFold
  end.

(** The common prologue of the one-width unary closures, e.g. l.497-502. *)
Definition un_prologue (args : list targ) (consts : list cval)
  : outcome (Z * const_int) :=
  match args with
  | [arg] =>
      do lw <- or_nofold (get_log_width arg);
      do n0 <- or_nofold (single_input consts);
      if ci_lw n0 =? lw then Folded (lw, n0) else NoFold
  | _ => NoFold
  end.

(** The common prologue of the two-width closures, e.g. l.79-85 and l.115-121. [ge] says
    whether the first width must be at least the second (narrowing) or at most. *)
Definition conv_prologue (ge : bool) (args : list targ) (consts : list cval)
  : outcome (Z * Z * const_int) :=
  match args with
  | [arg0; arg1] =>
      do lw0 <- or_nofold (get_log_width arg0);
      do lw1 <- or_nofold (get_log_width arg1);
      do n0 <- or_nofold (single_input consts);
      if (if ge then lw1 <=? lw0 else lw0 <=? lw1) && (ci_lw n0 =? lw0)
      then Folded (lw0, lw1, n0) else NoFold
  | _ => NoFold
  end.

Definition out1 (v : cval) : outcome (list (Z * cval)) := Folded [(0, v)].
Definition out_u (lw v : Z) : outcome (list (Z * cval)) :=
  do c <- or_panic (new_u lw v); out1 (CInt c).
Definition out_s (lw v : Z) : outcome (list (Z * cval)) :=
  do c <- or_panic (new_s lw v); out1 (CInt c).

Definition cmp_u (f : Z -> Z -> bool) args consts :=
  do p <- bin_prologue args consts;
  match p with (_, n0, n1) => out1 (from_bool (f (value_u n0) (value_u n1))) end.
Definition cmp_s (f : Z -> Z -> bool) args consts :=
  do p <- bin_prologue args consts;
  match p with (_, n0, n1) => out1 (from_bool (f (value_s n0) (value_s n1))) end.
Definition bin_u (f : Z -> Z -> Z -> outcome Z) args consts :=
  do p <- bin_prologue args consts;
  match p with (lw, n0, n1) => do v <- f lw (value_u n0) (value_u n1); out_u lw v end.
Definition bin_s (f : Z -> Z -> Z -> outcome Z) args consts :=
  do p <- bin_prologue args consts;
  match p with (lw, n0, n1) => do v <- f lw (value_s n0) (value_s n1); out_s lw v end.

(** prelude.rs l.512-517 + [const_fail]: the error variant (tag 0) of [sum_with_error]. *)
Definition err_either : cval := CSum 0 [CErr].

(** const_fold.rs l.74-1174: [set_fold], one branch per operation. *)
Definition fold (chk : bool) (op : int_op) (args : list targ) (consts : list cval)
  : outcome (list (Z * cval)) :=
  match op with
  (* l.76-93 *)
  | iwiden_u =>
      do p <- conv_prologue false args consts;
      match p with (_, lw1, n0) =>
        do c <- or_nofold (new_u lw1 (value_u n0)); out1 (CInt c) end
  (* l.94-111 *)
  | iwiden_s =>
      do p <- conv_prologue false args consts;
      match p with (_, lw1, n0) =>
        do c <- or_nofold (new_s lw1 (value_s n0)); out1 (CInt c) end
  (* l.112-139; the assertion that the computed sum is well-typed cannot fail here *)
  | inarrow_u =>
      do p <- conv_prologue true args consts;
      match p with (_, lw1, n0) =>
        do hi <- u64_shr chk (value_u n0) (2 ^ lw1);
        if negb (hi =? 0) then out1 (CSum 0 [CErr])
        else do c <- or_panic (new_u lw1 (value_u n0)); out1 (CSum 1 [CInt c]) end
  (* l.140-167 *)
  | inarrow_s =>
      do p <- conv_prologue true args consts;
      match p with (_, lw1, n0) =>
        let v := value_s n0 in
        do ub <- i64_one_shl chk (2 ^ lw1 - 1);
        if ub <=? v then out1 (CSum 0 [CErr])
        else do nub <- i64_result chk (- ub);
             if v <? nub then out1 (CSum 0 [CErr])
             else do c <- or_panic (new_s lw1 v); out1 (CSum 1 [CInt c]) end
  (* l.168-357 *)
  | ieq => cmp_u Z.eqb args consts
  | ine => cmp_u (fun a b => negb (a =? b)) args consts
  | ilt_u => cmp_u Z.ltb args consts
  | ilt_s => cmp_s Z.ltb args consts
  | igt_u => cmp_u Z.gtb args consts
  | igt_s => cmp_s Z.gtb args consts
  | ile_u => cmp_u Z.leb args consts
  | ile_s => cmp_s Z.leb args consts
  | ige_u => cmp_u Z.geb args consts
  | ige_s => cmp_s Z.geb args consts
  (* l.358-441 *)
  | imax_u => bin_u (fun _ a b => Folded (Z.max a b)) args consts
  | imax_s => bin_s (fun _ a b => Folded (Z.max a b)) args consts
  | imin_u => bin_u (fun _ a b => Folded (Z.min a b)) args consts
  | imin_s => bin_s (fun _ a b => Folded (Z.min a b)) args consts
  (* l.442-467 *)
  | iadd => bin_u (fun lw a b => Folded (Z.land (to_u64 (a + b)) (bitmask_from_logwidth lw)))
                  args consts
  (* l.468-493 *)
  | isub => bin_u (fun lw a b => Folded (Z.land (to_u64 (a - b)) (bitmask_from_logwidth lw)))
                  args consts
  (* l.494-519 *)
  | ineg =>
      do p <- un_prologue args consts;
      match p with (lw, n0) =>
        out_u lw (Z.land (to_u64 (- value_u n0)) (bitmask_from_logwidth lw)) end
  (* l.520-545 *)
  | imul => bin_u (fun lw a b => Folded (Z.land (to_u64 (a * b)) (bitmask_from_logwidth lw)))
                  args consts
  (* l.546-575: the exponent is clamped to u32::MAX *)
  | ipow => bin_u (fun lw a b =>
                     Folded (Z.land (overflowing_pow a (if b <? 2 ^ 32 then b else 2 ^ 32 - 1))
                                    (bitmask_from_logwidth lw))) args consts
  (* l.576-613: the success value is a bare tuple, not wrapped in the sum *)
  | idivmod_checked_u =>
      do p <- bin_prologue args consts;
      match p with (lw, n, m) =>
        if value_u m =? 0 then out1 err_either
        else do q <- or_panic (new_u lw (value_u n / value_u m));
             do r <- or_panic (new_u lw (value_u n mod value_u m));
             out1 (tuple [CInt q; CInt r]) end
  (* l.614-635 *)
  | idivmod_u =>
      do p <- bin_prologue args consts;
      match p with (lw, n, m) =>
        if value_u m =? 0 then NoFold
        else do q <- or_panic (new_u lw (value_u n / value_u m));
             do r <- or_panic (new_u lw (value_u n mod value_u m));
             Folded [(0, CInt q); (1, CInt r)] end
  (* l.636-673 *)
  | idivmod_checked_s =>
      do p <- bin_prologue args consts;
      match p with (lw, n, m) =>
        if value_u m =? 0 then out1 err_either
        else do qr <- divmod_s chk (value_s n) (value_u m);
             do q <- or_panic (new_s lw (fst qr));
             do r <- or_panic (new_u lw (snd qr));
             out1 (tuple [CInt q; CInt r]) end
  (* l.674-695 *)
  | idivmod_s =>
      do p <- bin_prologue args consts;
      match p with (lw, n, m) =>
        if value_u m =? 0 then NoFold
        else do qr <- divmod_s chk (value_s n) (value_u m);
             do q <- or_panic (new_s lw (fst qr));
             do r <- or_panic (new_u lw (snd qr));
             Folded [(0, CInt q); (1, CInt r)] end
  (* l.696-727 *)
  | idiv_checked_u =>
      do p <- bin_prologue args consts;
      match p with (lw, n, m) =>
        if value_u m =? 0 then out1 err_either else out_u lw (value_u n / value_u m) end
  (* l.728-747 *)
  | idiv_u =>
      do p <- bin_prologue args consts;
      match p with (lw, n, m) =>
        if value_u m =? 0 then NoFold else out_u lw (value_u n / value_u m) end
  (* l.748-779 *)
  | imod_checked_u =>
      do p <- bin_prologue args consts;
      match p with (lw, n, m) =>
        if value_u m =? 0 then out1 err_either else out_u lw (value_u n mod value_u m) end
  (* l.780-799 *)
  | imod_u =>
      do p <- bin_prologue args consts;
      match p with (lw, n, m) =>
        if value_u m =? 0 then NoFold else out_u lw (value_u n mod value_u m) end
  (* l.800-832 *)
  | idiv_checked_s =>
      do p <- bin_prologue args consts;
      match p with (lw, n, m) =>
        if value_u m =? 0 then out1 err_either
        else do qr <- divmod_s chk (value_s n) (value_u m); out_s lw (fst qr) end
  (* l.833-853 *)
  | idiv_s =>
      do p <- bin_prologue args consts;
      match p with (lw, n, m) =>
        if value_u m =? 0 then NoFold
        else do qr <- divmod_s chk (value_s n) (value_u m); out_s lw (fst qr) end
  (* l.854-886 *)
  | imod_checked_s =>
      do p <- bin_prologue args consts;
      match p with (lw, n, m) =>
        if value_u m =? 0 then out1 err_either
        else do qr <- divmod_s chk (value_s n) (value_u m); out_u lw (snd qr) end
  (* l.887-907 *)
  | imod_s =>
      do p <- bin_prologue args consts;
      match p with (lw, n, m) =>
        if value_u m =? 0 then NoFold
        else do qr <- divmod_s chk (value_s n) (value_u m); out_u lw (snd qr) end
  (* l.908-935 *)
  | iabs =>
      do p <- un_prologue args consts;
      match p with (lw, n0) =>
        if value_s n0 =? i64_min then out_u 6 two63
        else out_s lw (Z.abs (value_s n0)) end
  (* l.936-998 *)
  | iand => bin_u (fun _ a b => Folded (Z.land a b)) args consts
  | ior => bin_u (fun _ a b => Folded (Z.lor a b)) args consts
  | ixor => bin_u (fun _ a b => Folded (Z.lxor a b)) args consts
  (* l.999-1023: [!x] on u64 is [2^64 - 1 - x] *)
  | inot =>
      do p <- un_prologue args consts;
      match p with (lw, n0) =>
        out_u lw (Z.land (bitmask_from_logwidth lw) (two64 - 1 - value_u n0)) end
  (* l.1024-1050 *)
  | ishl => bin_u (fun lw a b => do s <- u64_shl chk a b;
                                 Folded (Z.land s (bitmask_from_logwidth lw))) args consts
  (* l.1051-1072 *)
  | ishr => bin_u (fun _ a b => u64_shr chk a b) args consts
  (* l.1073-1101 *)
  | irotl => bin_u (fun lw n b =>
                      let w := 2 ^ lw in
                      let k := b mod w in
                      do x <- u64_shl chk n k;
                      do y <- u64_shr chk n (w - k);
                      Folded (Z.lor (Z.land x (bitmask_from_width w)) y)) args consts
  (* l.1102-1130 *)
  | irotr => bin_u (fun lw n b =>
                      let w := 2 ^ lw in
                      let k := b mod w in
                      do x <- u64_shl chk n (w - k);
                      do y <- u64_shr chk n k;
                      Folded (Z.lor (Z.land x (bitmask_from_width w)) y)) args consts
  (* l.1131-1151, l.1152-1172: the assertions panic in every profile *)
  | is_to_u | iu_to_s =>
      do p <- un_prologue args consts;
      match p with (_, n0) =>
        if 0 <=? value_s n0 then out1 (CInt n0) else Panic end
  end.
