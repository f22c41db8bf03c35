(** Model of 64-bit floats, of the constant folders of the conversions between integers and floats,
    of the constant folders of the float operations, and of the LLVM code emitted for the
    conversions and for the comparisons of floats.

    Source: hugr-core/src/std_extensions/arithmetic/conversions/const_fold.rs (folders of the
            conversions), hugr-core/src/std_extensions/arithmetic/float_ops/const_fold.rs (folders of
            the float operations), hugr-core/src/std_extensions/arithmetic/float_types.rs
            ([ConstF64]), hugr-llvm/src/extension/conversions.rs and
            hugr-llvm/src/extension/float.rs (lowering).

    An [f64] is a [spec_float] of the standard library ([Coq.Floats.SpecFloat]) that is valid for
    precision 53 and greatest exponent 1024; payloads of NaNs are left out.  The operations of Rust
    on floats that the code calls ([trunc], [floor], [as], comparisons) are written after the
    documentation of the Rust standard library. *)
From Coq Require Import ZArith List Bool String Ascii.
From Coq Require Import Floats.SpecFloat.
From Verif Require Import IntModel.
Import ListNotations.
Open Scope Z_scope.

Definition f64 := spec_float.

(** [f64::is_finite]. *)
Definition is_finite (f : f64) : bool :=
  match f with S754_zero _ | S754_finite _ _ _ => true | _ => false end.

(** * Integers to floats *)
(** The float nearest to [n >= 0], ties to even, with sign [s] ([n as f64] for an unsigned [n]). *)
Definition round_mag (s : bool) (n : Z) : f64 :=
  if n <=? 0 then S754_zero s
  else
    let d := Z.log2 n + 1 in
    if d <=? 53 then S754_finite s (Z.to_pos (n * 2 ^ (53 - d))) (d - 53)
    else
      let k := d - 53 in
      let q := n / 2 ^ k in
      let r := n mod 2 ^ k in
      let q' := if (2 ^ k <? 2 * r) || ((2 * r =? 2 ^ k) && Z.odd q) then q + 1 else q in
      if q' =? 2 ^ 53 then S754_finite s (Z.to_pos (2 ^ 52)) (k + 1)
      else S754_finite s (Z.to_pos q') k.
(** [n as f64] for [n : u64]. *)
Definition u64_to_f64 (n : Z) : f64 := round_mag false n.
(** [n as f64] for [n : i64]. *)
Definition i64_to_f64 (n : Z) : f64 := if n <? 0 then round_mag true (- n) else round_mag false n.

(** * Floats to integers *)
(** The four roundings to an integer: [f64::trunc], [f64::floor], [f64::ceil], [f64::round] (half
    away from zero).  The sign is kept, also of a zero. *)
Inductive rmode := Trunc | Floor | Ceil | Round.
Definition carry (mo : rmode) (s : bool) (r k : Z) : bool :=
  match mo with
  | Trunc => false
  | Floor => s && negb (r =? 0)
  | Ceil => negb s && negb (r =? 0)
  | Round => 2 ^ k <=? 2 * r
  end.
Definition round_int (mo : rmode) (f : f64) : f64 :=
  match f with
  | S754_finite s m e =>
      if 0 <=? e then f
      else
        let k := - e in
        let q := Zpos m / 2 ^ k in
        let r := Zpos m mod 2 ^ k in
        round_mag s (if carry mo s r k then q + 1 else q)
  | _ => f
  end.
(** The absolute value, rounded towards zero, of a finite float. *)
Definition mag (m : positive) (e : Z) : Z := if 0 <=? e then Zpos m * 2 ^ e else Zpos m / 2 ^ (- e).
(** [f as u64]: towards zero, saturating, NaN to 0. *)
Definition as_u64 (f : f64) : Z :=
  match f with
  | S754_zero _ | S754_nan => 0
  | S754_infinity s => if s then 0 else two64 - 1
  | S754_finite s m e => if s then 0 else Z.min (mag m e) (two64 - 1)
  end.
(** [f as i64]. *)
Definition as_i64 (f : f64) : Z :=
  match f with
  | S754_zero _ | S754_nan => 0
  | S754_infinity s => if s then i64_min else two63 - 1
  | S754_finite s m e => if s then Z.max (- mag m e) i64_min else Z.min (mag m e) (two63 - 1)
  end.

(** * Constants *)
(** Constants that flow through the folders.  [FErr] is a [ConstError] with its signal (the message
    is left out), [FSum] a [Value::Sum] without its declared type, [FOther] any other constant. *)
Inductive fval : Type :=
| FInt (c : const_int)
| FF64 (f : f64)
| FUsize (n : Z)
| FStr (s : string)
| FErr (signal : Z)
| FSum (tag : Z) (vs : list fval)
| FOther.
Definition fbool (b : bool) : fval := FSum (if b then 1 else 0) [].
(** Inputs of a folder: incoming port and constant. *)
Definition consts := list (Z * fval).
(** Result of a folder: outgoing port and constant. *)
Definition folded := outcome (list (Z * fval)).
Definition out (v : fval) : folded := Folded [(0, v)].

(** [get_single_input_value] (custom.rs:345-350). *)
Definition single (cs : consts) : option fval := match cs with [(_, c)] => Some c | _ => None end.
Definition single_f64 (cs : consts) : option f64 :=
  match single cs with Some (FF64 f) => Some f | _ => None end.
Definition single_ci (cs : consts) : option const_int :=
  match single cs with Some (FInt c) => Some c | _ => None end.
Definition single_usize (cs : consts) : option Z :=
  match single cs with Some (FUsize n) => Some n | _ => None end.
(** [ConstF64::new] (float_types.rs:74-78): asserts that the value is finite. *)
Definition new_f64 (f : f64) : outcome fval := if is_finite f then Folded (FF64 f) else Panic.

(** [fold_trunc] (conversions/const_fold.rs:39-70). *)
Definition fold_trunc (args : list targ) (cs : consts) (convert : f64 -> Z -> option const_int)
  : folded :=
  match single_f64 cs, args with
  | Some f, [a] =>
      do lw <- or_nofold (get_log_width a);
      let err := FSum 0 [FErr 0] in
      out (if is_finite f then
             match convert f lw with Some c => FSum 1 [FInt c] | None => err end
           else err)
  | _, _ => NoFold
  end.
(** [TruncU] and [TruncS] (conversions/const_fold.rs:75-83, 89-97). *)
Definition fold_trunc_u (args : list targ) (cs : consts) : folded :=
  fold_trunc args cs (fun f lw => new_u lw (as_u64 (round_int Trunc f))).
Definition fold_trunc_s (args : list targ) (cs : consts) : folded :=
  fold_trunc args cs (fun f lw => new_s lw (as_i64 (round_int Trunc f))).
(** [ConvertU] and [ConvertS] (conversions/const_fold.rs:103-111, 117-125). *)
Definition fold_convert_u (cs : consts) : folded :=
  match single_ci cs with
  | Some c => do v <- new_f64 (u64_to_f64 (value_u c)); out v
  | None => NoFold
  end.
Definition fold_convert_s (cs : consts) : folded :=
  match single_ci cs with
  | Some c => do v <- new_f64 (i64_to_f64 (value_s c)); out v
  | None => NoFold
  end.
(** [IToBool] (conversions/const_fold.rs:131-145). *)
Definition fold_itobool (args : list targ) (cs : consts) : folded :=
  match args, single_ci cs with
  | [], Some c => if ci_lw c =? 0 then out (fbool (value_u c =? 1)) else NoFold
  | _, _ => NoFold
  end.
(** [IFromBool] (conversions/const_fold.rs:151-168); [is_true v] is [v == Value::true_val()]. *)
Definition is_true (v : fval) : bool :=
  match v with FSum t [] => t =? 1 | _ => false end.
Definition fold_ifrombool (args : list targ) (cs : consts) : folded :=
  match args, single cs with
  | [], Some v => do c <- or_panic (new_u 0 (if is_true v then 1 else 0)); out (FInt c)
  | _, _ => NoFold
  end.

(** [u64::to_string] and [i64::to_string]: decimal digits, most significant first. *)
Definition digit (n : Z) : ascii := ascii_of_N (Z.to_N (48 + n)).
Fixpoint dec (fuel : nat) (n : Z) (acc : string) : string :=
  match fuel with
  | O => acc
  | S fuel =>
      let acc := String (digit (n mod 10)) acc in
      if n / 10 =? 0 then acc else dec fuel (n / 10) acc
  end.
Definition u64_to_string (n : Z) : string := dec 20 n EmptyString.
Definition i64_to_string (n : Z) : string :=
  if n <? 0 then String "-" (u64_to_string (- n)) else u64_to_string n.
(** [IToStringU] and [IToStringS] (conversions/const_fold.rs:174-192, 198-216). *)
Definition fold_itostring (render : const_int -> string) (args : list targ) (cs : consts) : folded :=
  match args with
  | [a] =>
      do lw <- or_nofold (get_log_width a);
      do c <- or_nofold (single_ci cs);
      if ci_lw c =? lw then out (FStr (render c)) else NoFold
  | _ => NoFold
  end.
Definition fold_itostring_u := fold_itostring (fun c => u64_to_string (value_u c)).
Definition fold_itostring_s := fold_itostring (fun c => i64_to_string (value_s c)).
(** [IToUsize] and [IFromUsize] (conversions/const_fold.rs:222-239, 245-258). *)
Definition fold_itousize (args : list targ) (cs : consts) : folded :=
  match args, single_ci cs with
  | [], Some c => if ci_lw c =? 6 then out (FUsize (value_u c)) else NoFold
  | _, _ => NoFold
  end.
Definition fold_ifromusize (args : list targ) (cs : consts) : folded :=
  match args, single_usize cs with
  | [], Some n => do c <- or_panic (new_u 6 n); out (FInt c)
  | _, _ => NoFold
  end.

(** * Float operations *)
(** [sort_by_in_port] and [sorted_consts] (utils.rs:250-254, 258-263): stable sort by port. *)
Fixpoint insert_port {A} (x : Z * A) (l : list (Z * A)) : list (Z * A) :=
  match l with
  | [] => [x]
  | y :: l => if fst x <=? fst y then x :: y :: l else y :: insert_port x l
  end.
Definition sort_ports {A} (l : list (Z * A)) : list (Z * A) := fold_right insert_port [] l.
Definition sorted_consts {A} (l : list (Z * A)) : list A := map snd (sort_ports l).

(** [get_floats] (float_ops/const_fold.rs:25-34): [None] if the number of constants is not [n],
    unwinds if one of them is no float. *)
Fixpoint floats (l : list fval) : outcome (list f64) :=
  match l with
  | [] => Folded []
  | FF64 f :: l => do fs <- floats l; Folded (f :: fs)
  | _ :: _ => Panic
  end.
Definition get_floats (n : nat) (cs : consts) : outcome (list f64) :=
  let l := sorted_consts cs in
  if Nat.eqb (List.length l) n then floats l else NoFold.

(** The operations (float_ops.rs:30-50); [fpow], [fadd], [fsub], [fmul], [fdiv] are calls of the
    floating-point unit (or of the mathematical library), and are a parameter of the model. *)
Inductive arith_op := fadd | fsub | fmul | fdiv | fpow.
Inductive cmp_op := feq | fne | flt | fgt | fle | fge.
Inductive un_op := fneg | fabs | ffloor | fceil | fround.

(** The comparisons of [f64] (IEEE 754: with a NaN all but [ne] are false). *)
Definition cmp_f64 (op : cmp_op) (x y : f64) : bool :=
  match op with
  | feq => SFeqb x y
  | fne => negb (SFeqb x y)
  | flt => SFltb x y
  | fgt => SFltb y x
  | fle => SFleb x y
  | fge => SFleb y x
  end.
Definition un_f64 (op : un_op) (x : f64) : f64 :=
  match op with
  | fneg => SFopp x
  | fabs => SFabs x
  | ffloor => round_int Floor x
  | fceil => round_int Ceil x
  | fround => round_int Round x
  end.
(** [f64::max], [f64::min]: the other operand if one is a NaN; for zeros of different signs either
    may be returned ([tie]). *)
Definition max_f64 (tie : bool) (x y : f64) : f64 :=
  match SFcompare x y with
  | Some Lt => y
  | Some Gt => x
  | Some Eq => if tie then x else y
  | None => match x with S754_nan => y | _ => x end
  end.
Definition min_f64 (tie : bool) (x y : f64) : f64 :=
  match SFcompare x y with
  | Some Lt => x
  | Some Gt => y
  | Some Eq => if tie then x else y
  | None => match x with S754_nan => y | _ => x end
  end.
(** [BinaryFold] (float_ops/const_fold.rs:53-67). *)
Definition fold_binary (f : f64 -> f64 -> f64) (cs : consts) : folded :=
  do fs <- get_floats 2 cs;
  match fs with
  | [x; y] =>
      let r := f x y in
      if is_finite r then (do v <- new_f64 r; out v) else NoFold
  | _ => NoFold
  end.
(** [CmpFold] (float_ops/const_fold.rs:87-99). *)
Definition fold_cmp (op : cmp_op) (cs : consts) : folded :=
  do fs <- get_floats 2 cs;
  match fs with
  | [x; y] => out (fbool (cmp_f64 op x y))
  | _ => NoFold
  end.
(** [UnaryFold] (float_ops/const_fold.rs:117-131). *)
Definition fold_unary (op : un_op) (cs : consts) : folded :=
  do fs <- get_floats 1 cs;
  match fs with
  | [x] =>
      let r := un_f64 op x in
      if is_finite r then (do v <- new_f64 r; out v) else NoFold
  | _ => NoFold
  end.

(** * Lowering *)
(** The predicates of [fcmp] that are used: ordered comparisons, false on NaNs. *)
Inductive fpred := OEQ | ONE | OLT | OGT | OLE | OGE.
Definition fcmp (p : fpred) (x y : f64) : bool :=
  match SFcompare x y with
  | None => false
  | Some c =>
      match p, c with
      | OEQ, Eq | OLT, Lt | OGT, Gt | OLE, Lt | OLE, Eq | OGE, Gt | OGE, Eq
      | ONE, Lt | ONE, Gt => true
      | _, _ => false
      end
  end.
(** [emit_float_op] on comparisons (float.rs:45-112). *)
Definition emit_fcmp (op : cmp_op) (x y : f64) : bool :=
  fcmp match op with feq => OEQ | fne => ONE | flt => OLT | fgt => OGT | fle => OLE | fge => OGE end
       x y.

(** [fptoui] and [fptosi] to an integer type of [w] bits: the bits of the value rounded towards zero,
    poison ([None]) if it does not fit. *)
Definition fptoi (signed : bool) (w : Z) (f : f64) : option Z :=
  let fit v :=
    if signed then
      if (- 2 ^ (w - 1) <=? v) && (v <? 2 ^ (w - 1)) then Some (v mod 2 ^ w) else None
    else if (0 <=? v) && (v <? 2 ^ w) then Some v else None in
  match f with
  | S754_zero _ => Some 0
  | S754_finite s m e => fit (if s then - mag m e else mag m e)
  | _ => None
  end.
(** The result of [build_trunc_op]: the sum with an error or with an integer (poison is [None]). *)
Inductive trunc_result := TErr (signal : Z) | TOk (bits : option Z).
(** [int_type_bounds] (conversions.rs:36-43). *)
Definition int_type_bounds (width : Z) : Z * Z * Z :=
  (- 2 ^ (width - 1), 2 ^ (width - 1) - 1, 2 ^ width - 1).
(** [build_trunc_op] (conversions.rs:45-145): [w] is the width of the LLVM type of [int<lw>]. *)
Definition emit_trunc (signed : bool) (lw w : Z) (arg : f64) : trunc_result :=
  let '(min_s, max_s, max_u) := int_type_bounds (2 ^ lw) in
  let flt_max := if signed then i64_to_f64 max_s else u64_to_f64 max_u in
  let within_upper := fcmp OLT arg flt_max in
  let flt_min := if signed then i64_to_f64 min_s else S754_zero false in
  let within_lower := fcmp OLE flt_min arg in
  if within_upper && within_lower then TOk (fptoi signed w arg) else TErr 2.
(** [convert_u] and [convert_s] (conversions.rs:147-246): [uitofp] and [sitofp] of the [w]-bit value
    [a], rounding to nearest, ties to even. *)
Definition emit_convert (signed : bool) (w a : Z) : f64 :=
  if signed then i64_to_f64 (if a <? 2 ^ (w - 1) then a else a - 2 ^ w) else u64_to_f64 a.
