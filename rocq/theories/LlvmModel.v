(** Model of the lowering of integer operations to LLVM:
    hugr-llvm/src/extension/int.rs.

    The model of an operation is the evaluation of the instructions that are emitted for it.  The
    meaning of the instructions is that of the LLVM language reference: an integer of width [w] is a
    number below [2^w] or poison ([None]); division by zero, signed division that overflows and a
    [switch] over poison are undefined behaviour ([Undefined]).  inkwell's [build_int_add] etc.
    set no [nsw]/[nuw] flags. *)
From Coq Require Import ZArith List Bool.
From Verif Require Import IntModel.
Import ListNotations.
Open Scope Z_scope.

(** What running the emitted code does.  [EmitError]: nothing is emitted, the lowering returns an
    error. *)
Inductive res (A : Type) := Ret (a : A) | Aborts | Undefined | EmitError.
Arguments Ret {A}. Arguments Aborts {A}. Arguments Undefined {A}. Arguments EmitError {A}.
Definition rbind {A B} (m : res A) (f : A -> res B) : res B :=
  match m with Ret a => f a | Aborts => Aborts | Undefined => Undefined | EmitError => EmitError end.

(** * Instructions *)
Definition lint := option Z.
Definition lmap2 (f : Z -> Z -> Z) (a b : lint) : lint :=
  match a, b with Some x, Some y => Some (f x y) | _, _ => None end.
Definition wrap (w v : Z) : Z := v mod 2 ^ w.
(** The signed reading of a bit pattern. *)
Definition sgn (w v : Z) : Z := if v <? 2 ^ (w - 1) then v else v - 2 ^ w.

Definition ladd (w : Z) := lmap2 (fun x y => wrap w (x + y)).
Definition lsub (w : Z) := lmap2 (fun x y => wrap w (x - y)).
Definition lmul (w : Z) := lmap2 (fun x y => wrap w (x * y)).
Definition land := lmap2 Z.land.
Definition lor := lmap2 Z.lor.
Definition lxor := lmap2 Z.lxor.
(** Shifts by the width or more give poison. *)
Definition lshl (w : Z) (a b : lint) : lint :=
  match a, b with Some x, Some y => if y <? w then Some (wrap w (x * 2 ^ y)) else None | _, _ => None end.
Definition llshr (w : Z) (a b : lint) : lint :=
  match a, b with Some x, Some y => if y <? w then Some (x / 2 ^ y) else None | _, _ => None end.
Definition ludiv (a b : lint) : res lint :=
  match b with
  | None => Undefined
  | Some y => if y =? 0 then Undefined else Ret (option_map (fun x => x / y) a)
  end.
Definition lurem (a b : lint) : res lint :=
  match b with
  | None => Undefined
  | Some y => if y =? 0 then Undefined else Ret (option_map (fun x => x mod y) a)
  end.
(** Signed division truncates; the quotient of the least number by -1 is undefined behaviour, for
    [srem] as well. *)
Definition lsdiv_by (f : Z -> Z -> Z) (w : Z) (a b : lint) : res lint :=
  match b with
  | None => Undefined
  | Some y =>
    if y =? 0 then Undefined
    else match a with
         | None => if y =? 2 ^ w - 1 then Undefined else Ret None
         | Some x => if (x =? 2 ^ (w - 1)) && (y =? 2 ^ w - 1) then Undefined
                     else Ret (Some (wrap w (f (sgn w x) (sgn w y))))
         end
  end.
Definition lsdiv := lsdiv_by Z.quot.
Definition lsrem := lsdiv_by Z.rem.

Inductive pred := EQ | NE | ULT | UGT | ULE | UGE | SLT | SGT | SLE | SGE.
Definition cmp (p : pred) (w x y : Z) : bool :=
  match p with
  | EQ => x =? y | NE => negb (x =? y)
  | ULT => x <? y | UGT => y <? x | ULE => x <=? y | UGE => y <=? x
  | SLT => sgn w x <? sgn w y | SGT => sgn w y <? sgn w x
  | SLE => sgn w x <=? sgn w y | SGE => sgn w y <=? sgn w x
  end.
(** [icmp]; an [i1] is [Some 1] or [Some 0]. *)
Definition b2z (b : bool) : Z := if b then 1 else 0.
Definition licmp (p : pred) (w : Z) := lmap2 (fun x y => b2z (cmp p w x y)).
(** [const_int(v, _)] of inkwell at width [w]: the low bits. *)
Definition lconst (w v : Z) : lint := Some (wrap w v).
(** [build_int_cast_sign_flag]: truncation, extension, or nothing. *)
Definition lcast (signed : bool) (w0 w1 : Z) (a : lint) : lint :=
  option_map (fun x => if w1 <=? w0 then wrap w1 x else if signed then wrap w1 (sgn w0 x) else x) a.
(** [switch]: the first matching case. *)
Fixpoint lswitch {A} (a : lint) (default : res A) (cases : list (Z * res A)) : res A :=
  match a with
  | None => Undefined
  | Some x =>
    match cases with
    | [] => default
    | (k, r) :: cases => if x =? k then r else lswitch a default cases
    end
  end.

(** * Values *)
(** Sums through the interface of hugr-llvm/src/sum.rs: a tag and the fields of that variant.  The
    fields of another variant are not set, reading them gives poison.  [VErr] is a constant error
    value. *)
Inductive lv := VInt (w : Z) (v : lint) | VErr | VSum (tag : lint) (vs : list lv) | VPoison.
Definition build_tag (tag : Z) (vs : list lv) : lv := VSum (Some tag) vs.
(** [build_untag] of variant [i], which has [k] fields. *)
Definition build_untag (i : Z) (k : nat) (v : lv) : list lv :=
  match v with
  | VSum (Some t) vs => if t =? i then vs else repeat VPoison k
  | _ => repeat VPoison k
  end.
Definition build_get_tag (v : lv) : lint := match v with VSum t _ => t | _ => None end.
(** [select]: poison if the condition is poison. *)
Definition lselect (c : lint) (a b : lv) : lv :=
  match c with None => VPoison | Some c => if c =? 0 then b else a end.
Definition to_int (v : lv) : lint := match v with VInt _ x => x | _ => None end.

(** [llvm_type] (int.rs:1091-1115): the width of the LLVM type of [int<lw>]. *)
Definition llvm_width (lw : Z) : Z :=
  if lw <=? 3 then 8 else if lw =? 4 then 16 else if lw =? 5 then 32 else 64.

(** * The operations *)

(** [val_or_panic] (int.rs:1044-1072): the code after the check runs in the block [exit]; the block
    that panics aborts the program. *)
Definition val_or_panic {A} (dont_panic : lint) (go : res A) : res A :=
  lswitch dont_panic Aborts [(1, go)].
(** [val_or_error] (int.rs:1074-1087). *)
Definition val_or_error (should_succeed : lint) (val : lv) : lv :=
  lselect should_succeed (build_tag 1 [val]) (build_tag 0 [VErr]).

(** The closure [build_divmod] of [make_divmod] (int.rs:778-950). *)
Definition build_divmod (signed : bool) (lw : Z) (n d : lint) : res lv :=
  let w := llvm_width lw in
  let pair a b := build_tag 0 [VInt w a; VInt w b] in
  if signed then
    let max_signed := lconst w (2 ^ (2 ^ lw - 1) - 1) in
    let large := licmp UGT w d max_signed in
    let negative := licmp SLT w n (lconst w 0) in
    let tag := lor (lshl w large (lconst w 1)) negative in
    rbind (lsdiv w n d) (fun quot =>
    rbind (lsrem w n d) (fun rem =>
    lswitch tag (Ret (pair quot rem))
      [(1, Ret (lselect (licmp EQ w rem (lconst w 0))
                  (pair quot (lconst w 0))
                  (pair (lsub w quot (lconst w 1)) (ladd w d rem))));
       (2, Ret (pair (lconst w 0) n));
       (3, Ret (pair (lconst w (2 ^ w - 1)) (ladd w n d)))]))
  else
    rbind (ludiv n d) (fun quot =>
    rbind (lurem n d) (fun rem => Ret (pair quot rem))).

(** [make_divmod] (int.rs:775-985). *)
Definition make_divmod (panic signed : bool) (lw : Z) (n d : lint) : res lv :=
  let w := llvm_width lw in
  let valid := licmp NE w d (lconst w 0) in
  if panic then val_or_panic valid (build_divmod signed lw n d)
  else rbind (build_divmod signed lw n d) (fun result => Ret (val_or_error valid result)).

(** [DivModOp::emit] (int.rs:100-191). *)
Inductive div_or_mod := Div | Mod | DivMod.
Definition nth_v (i : nat) (l : list lv) : lv := nth i l VPoison.
Definition emit_divmod (op : div_or_mod) (signed panic : bool) (lw : Z) (n d : lint) : res (list lv) :=
  rbind (make_divmod panic signed lw n d) (fun quotrem =>
  match op with
  | DivMod => Ret (if panic then build_untag 0 2 quotrem else [quotrem])
  | _ =>
    let index := match op with Mod => 1%nat | _ => 0%nat end in
    if panic then Ret [nth_v index (build_untag 0 2 quotrem)]
    else
      let tuple := nth_v 0 (build_untag 1 1 quotrem) in
      let data_val := nth_v index (build_untag 0 2 tuple) in
      let err_val := nth_v 0 (build_untag 0 1 quotrem) in
      Ret [lselect (build_get_tag quotrem) (build_tag 1 [data_val]) (build_tag 0 [err_val])]
  end).

(** [emit_icmp] (int.rs:194-216). *)
Definition emit_icmp (p : pred) (w : Z) (a b : lint) : res (list lv) :=
  Ret [lselect (licmp p w a b) (build_tag 1 []) (build_tag 0 [])].

(** [emit_ipow] (int.rs:221-273): the blocks [pow], [power_of_zero], [pow_body] and [done].  The
    argument [fuel] bounds the rounds; it is the exponent. *)
Fixpoint pow_loop (fuel : nat) (w : Z) (lhs acc exp : lint) : res lint :=
  lswitch exp
    (match fuel with
     | O => Undefined
     | S fuel => pow_loop fuel w lhs (lmul w acc lhs) (lsub w exp (lconst w 1))
     end)
    [(1, Ret acc); (0, Ret (lconst w 1))].
Definition emit_ipow (w : Z) (lhs rhs : lint) : res (list lv) :=
  rbind (pow_loop (match rhs with Some k => Z.to_nat k | None => O end) w lhs lhs rhs) (fun r =>
  Ret [VInt w r]).

(** The intrinsics are always those for [i64]; at other widths the type of the result is wrong, which
    [emit_custom_binary_op] (emit/ops.rs:466-472) reports as an error. *)
Definition intrinsic64 (w : Z) (v : lint) : res (list lv) := if w =? 64 then Ret [VInt 64 v] else EmitError.
Definition labs64 (a : lint) : lint :=
  match a with Some x => if x =? 2 ^ 63 then None else Some (Z.abs (sgn 64 x)) | None => None end.

(** [emit_int_op] (int.rs:275-760), operations with two operands. *)
Definition emit2 (op : int_op) (lw : Z) (a b : lint) : res (list lv) :=
  let w := llvm_width lw in
  let int v := Ret [VInt w v] in
  match op with
  | iadd => int (ladd w a b)
  | imul => int (lmul w a b)
  | isub => int (lsub w a b)
  | idiv_s => emit_divmod Div true true lw a b
  | idiv_u => emit_divmod Div false true lw a b
  | imod_s => emit_divmod Mod true true lw a b
  | imod_u => emit_divmod Mod false true lw a b
  | idivmod_u => emit_divmod DivMod false true lw a b
  | idivmod_s => emit_divmod DivMod true true lw a b
  | idiv_checked_s => emit_divmod Div true false lw a b
  | idiv_checked_u => emit_divmod Div false false lw a b
  | imod_checked_s => emit_divmod Mod true false lw a b
  | imod_checked_u => emit_divmod Mod false false lw a b
  | idivmod_checked_u => emit_divmod DivMod false false lw a b
  | idivmod_checked_s => emit_divmod DivMod true false lw a b
  | imax_s => intrinsic64 w (lmap2 (fun x y => if sgn 64 x <? sgn 64 y then y else x) a b)
  | imax_u => intrinsic64 w (lmap2 Z.max a b)
  | imin_s => intrinsic64 w (lmap2 (fun x y => if sgn 64 x <? sgn 64 y then x else y) a b)
  | imin_u => intrinsic64 w (lmap2 Z.min a b)
  | ishl => int (lshl w a b)
  | ishr => int (llshr w a b)
  | ieq => emit_icmp EQ w a b | ine => emit_icmp NE w a b
  | ilt_s => emit_icmp SLT w a b | igt_s => emit_icmp SGT w a b
  | ile_s => emit_icmp SLE w a b | ige_s => emit_icmp SGE w a b
  | ilt_u => emit_icmp ULT w a b | igt_u => emit_icmp UGT w a b
  | ile_u => emit_icmp ULE w a b | ige_u => emit_icmp UGE w a b
  | ixor => int (lxor a b)
  | ior => int (lor a b)
  | iand => int (land a b)
  | ipow => emit_ipow w a b
  | _ => EmitError
  end.

(** [int_type_bounds] (conversions.rs:36-43). *)
Definition int_type_bounds (width : Z) : Z * Z * Z := (- 2 ^ (width - 1), 2 ^ (width - 1) - 1, 2 ^ width - 1).

(** Operations with one operand. *)
Definition emit1 (op : int_op) (lw : Z) (a : lint) : res (list lv) :=
  let w := llvm_width lw in
  match op with
  | ineg => Ret [VInt w (lsub w (lconst w 0) a)]
  | inot => Ret [VInt w (lxor a (lconst w (-1)))]
  | iabs => intrinsic64 w (labs64 a)
  | iu_to_s =>
      let '(_, max_val, _) := int_type_bounds (2 ^ lw) in
      val_or_panic (licmp ULE w a (lconst w max_val)) (Ret [VInt w a])
  | is_to_u => val_or_panic (licmp SGE w a (lconst w 0)) (Ret [VInt w a])
  | _ => EmitError
  end.

(** [make_narrow] (int.rs:989-1042). *)
Definition make_narrow (signed : bool) (lw0 lw1 : Z) (a : lint) : lv :=
  let w := llvm_width lw0 in
  let '(mins, maxs, maxu) := int_type_bounds (2 ^ lw1) in
  let outside :=
    if signed then lor (licmp SGT w a (lconst w maxs)) (licmp SLT w a (lconst w mins))
    else licmp UGT w a (lconst w maxu) in
  let inbounds := lxor outside (Some 1) in
  val_or_error inbounds (VInt (llvm_width lw1) (lcast signed w (llvm_width lw1) a)).

(** Width conversions from [lw0] to [lw1]. *)
Definition emit_conv (op : int_op) (lw0 lw1 : Z) (a : lint) : res (list lv) :=
  let w0 := llvm_width lw0 in let w1 := llvm_width lw1 in
  match op with
  | iwiden_u => Ret [VInt w1 (lcast false w0 w1 a)]
  | iwiden_s => Ret [VInt w1 (lcast true w0 w1 a)]
  | inarrow_s => Ret [make_narrow true lw0 lw1 a]
  | inarrow_u => Ret [make_narrow false lw0 lw1 a]
  | _ => EmitError
  end.

(** * Reading back the results *)
(** The constant that a run-time value of integer type [int<lw>] (or a sum of such) stands for;
    [None] if a part of it that matters is poison, or is no bit pattern of the LLVM type. *)
Fixpoint obs (lw : Z) (v : lv) : option cval :=
  match v with
  | VInt w (Some x) => if w =? llvm_width lw then Some (CInt (mk_ci lw x)) else None
  | VErr => Some CErr
  | VSum (Some t) vs =>
      option_map (CSum t)
        ((fix all (l : list lv) : option (list cval) :=
            match l with
            | [] => Some []
            | x :: l => match obs lw x, all l with Some c, Some cs => Some (c :: cs) | _, _ => None end
            end) vs)
  | _ => None
  end.
Fixpoint obs_all (lw : Z) (l : list lv) : option (list cval) :=
  match l with
  | [] => Some []
  | x :: l => match obs lw x, obs_all lw l with Some c, Some cs => Some (c :: cs) | _, _ => None end
  end.
