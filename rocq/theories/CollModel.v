(** Model of constant values, of the constant folders of lists, tuples, [Noop] and [load_nat], and of the LLVM
    code emitted for list operations.

    Source: hugr-core/src/std_extensions/collections/list.rs, list/list_fold.rs, extension/prelude.rs,
    extension/prelude/generic.rs, ops/constant.rs, types/check.rs, utils.rs;
    hugr-llvm/src/extension/collections/list.rs, emit/func.rs.

    Simplifications.  Types are those of [TypesModel].  Of the custom constants, [ConstUsize] and [ListValue] are
    modelled; all others, among them [ConstExternalSymbol], and function constants are [VOther] with their type.
    [usize] has 64 bits.  Ports are integers. *)
From Coq Require Import ZArith NArith List Bool.
From Verif Require Import TypesModel FloatModel.
Import ListNotations.

(** ops/constant.rs:160-177 [Value], :112-126 [Sum]; list.rs:47 [ListValue] *)
Inductive value :=
| VUsize (n : N)
| VList (vs : list value) (t : ty)
| VSum (tag : nat) (vs : list value) (rows : list (list ty))
| VOther (k : N) (t : ty).

(** The types of the prelude and of lists (prelude.rs, list.rs:317-333); the bound of a list type is that of its elements *)
Definition usize_t : ty := TExt 0 0 [] Copyable.
Definition list_type (t : ty) : ty := TExt 1 0 [MType t] (lub t).
(** types.rs, prelude.rs:322-333 [option_type], [either_type] *)
Definition unit_t : ty := new_sum [[]].
Definition either_type (l r : list ty) : ty := new_sum [l; r].
Definition option_type (r : list ty) : ty := either_type [] r.

(** ops/constant.rs:335-344 [get_type] *)
Definition get_type (v : value) : ty :=
  match v with
  | VUsize _ => usize_t
  | VList _ t => list_type t
  | VSum _ _ rows => new_sum rows
  | VOther _ t => t
  end.

Definition is_row_var (t : ty) : bool := match t with TRow _ _ => true | _ => false end.
(** types/check.rs:64-97 [check_type] *)
Definition check_type (tag : nat) (vs : list value) (rows : list (list ty)) : bool :=
  match nth_error rows tag with
  | None => false
  | Some row => negb (existsb is_row_var row) && list_eqb ty_eqb (map get_type vs) row
  end.
(** ops/constant.rs:349-361 [Value::sum] *)
Definition value_sum (tag : nat) (vs : list value) (rows : list (list ty)) : option value :=
  if check_type tag vs rows then Some (VSum tag vs rows) else None.
(** ops/constant.rs:487-503 [validate]; list.rs:100-126 [ListValue::validate] (the type of the list is an instance of its
    definition by construction).  What the other custom constants check of themselves is a parameter. *)
Definition validate (other : N -> ty -> bool) (v : value) : bool :=
  match v with
  | VUsize _ => true
  | VList vs t => forallb (fun v => ty_eqb (get_type v) t) vs
  | VSum tag vs rows => check_type tag vs rows
  | VOther k t => other k t
  end.
(** ops/constant.rs:507-513, 131-134 [as_tuple]; types.rs:275-281 *)
Definition as_tuple (v : value) : option (list value) :=
  match v with VSum _ vs [_] => Some vs | _ => None end.

(** A folder gives values for output ports, gives up, or panics. *)
Inductive folded := Outs (l : list (Z * value)) | NoFold | Panic.
(** extension/const_fold.rs:19-26 [fold_out_row] *)
Fixpoint enumerate (i : Z) (vs : list value) : list (Z * value) :=
  match vs with [] => [] | v :: vs => (i, v) :: enumerate (i + 1) vs end.
Definition fold_out_row (vs : list value) : folded := Outs (enumerate 0 vs).
(** [unwrap] *)
Definition unwrap (o : option value) (k : value -> folded) : folded := match o with Some v => k v | None => Panic end.

(** prelude.rs:373-385 [const_left_tuple], :401-413 [const_right_tuple] *)
Definition const_left_tuple (vs : list value) (right : list ty) : option value := value_sum 0 vs [map get_type vs; right].
Definition const_right_tuple (left : list ty) (vs : list value) : option value := value_sum 1 vs [left; map get_type vs].
(** prelude.rs:339-357 [const_some], [const_none], :418-437 [const_ok], [const_ok_tuple], [const_fail] *)
Definition const_some (v : value) := const_right_tuple [] [v].
Definition const_none (t : ty) := const_left_tuple [] [t].
Definition const_ok (v : value) (fail : ty) := const_right_tuple [fail] [v].
Definition const_ok_tuple (vs : list value) (fail : ty) := const_right_tuple [fail] vs.
Definition const_fail (v : value) (ok : ty) := const_left_tuple [v] [ok].

(** list.rs:147-165 [ListOp] *)
Inductive list_op := Pop | Push | Get | Set_ | Insert | Length.
(** list.rs:181-209 [compute_signature], for elements of type [e] *)
Definition list_signature (op : list_op) (e : ty) : list ty * list ty :=
  let l := list_type e in
  match op with
  | Pop => ([l], [l; option_type [e]])
  | Push => ([l; e], [l])
  | Get => ([l; usize_t], [option_type [e]])
  | Set_ => ([l; usize_t; e], [l; either_type [e] [e]])
  | Insert => ([l; usize_t; e], [l; either_type [e] [unit_t]])
  | Length => ([l], [l; usize_t])
  end.

(** [Vec::insert], and replacing an element *)
Definition insert_at (i : nat) (x : value) (l : list value) : list value := firstn i l ++ x :: skipn i l.
Definition replace_at (i : nat) (x : value) (l : list value) : list value := firstn i l ++ x :: skipn (S i) l.

(** list_fold.rs:26-47 [PopFold], :50-64 [PushFold], :67-80 [GetFold], :83-103 [SetFold], :106-125 [InsertFold],
    :128-137 [LengthFold]; the [expect]s panic on constants of another kind *)
Definition list_fold (op : list_op) (consts : list (Z * value)) : folded :=
  match op, sorted_consts consts with
  | Pop, [l] =>
      match l with
      | VList vs t =>
          match rev vs with
          | x :: r => unwrap (const_some x) (fun y => Outs [(0, VList (rev r) t); (1, y)]%Z)
          | [] => unwrap (const_none t) (fun y => Outs [(0, VList vs t); (1, y)]%Z)
          end
      | _ => Panic
      end
  | Push, [l; x] =>
      match l with VList vs t => Outs [(0, VList (vs ++ [x]) t)]%Z | _ => Panic end
  | Get, [l; i] =>
      match l, i with
      | VList vs t, VUsize i =>
          match nth_error vs (N.to_nat i) with
          | Some x => unwrap (const_some x) (fun y => Outs [(0, y)]%Z)
          | None => unwrap (const_none t) (fun y => Outs [(0, y)]%Z)
          end
      | _, _ => Panic
      end
  | Set_, [l; i; x] =>
      match l, i with
      | VList vs t, VUsize i =>
          match nth_error vs (N.to_nat i) with
          | Some old => unwrap (const_ok old t) (fun y => Outs [(0, VList (replace_at (N.to_nat i) x vs) t); (1, y)]%Z)
          | None => unwrap (const_fail x t) (fun y => Outs [(0, VList vs t); (1, y)]%Z)
          end
      | _, _ => Panic
      end
  | Insert, [l; i; x] =>
      match l, i with
      | VList vs t, VUsize i =>
          if (i <? N.of_nat (length vs))%N
          then unwrap (const_ok_tuple [] t) (fun y => Outs [(0, VList (insert_at (N.to_nat i) x vs) t); (1, y)]%Z)
          else unwrap (const_fail x unit_t) (fun y => Outs [(0, VList vs t); (1, y)]%Z)
      | _, _ => Panic
      end
  | Length, [l] =>
      match l with VList vs _ => Outs [(0, VUsize (N.of_nat (length vs)))]%Z | _ => Panic end
  | _, _ => NoFold
  end.

(** prelude.rs:618-640 [TupleOpDef::fold], ops/constant.rs:364-369 [Value::tuple] *)
Definition make_tuple_fold (consts : list (Z * value)) : folded :=
  let vs := sorted_consts consts in
  unwrap (value_sum 0 vs [map get_type vs]) (fun v => fold_out_row [v]).
Definition unpack_tuple_fold (consts : list (Z * value)) : folded :=
  match consts with
  | [] => NoFold
  | (_, c) :: _ => match as_tuple c with Some vs => fold_out_row vs | None => Panic end
  end.
(** prelude.rs:844-852 [NoopDef::fold] *)
Definition noop_fold (consts : list (Z * value)) : folded :=
  match consts with [] => NoFold | (_, c) :: _ => fold_out_row [c] end.
(** prelude/generic.rs:44-61 [LoadNatDef::fold] *)
Definition load_nat_fold (type_args : list term) (consts : list (Z * value)) : folded :=
  match type_args with [MNat n] => Outs [(0%Z, VUsize n)] | _ => NoFold end.

(** * Emitted code *)
Section Emit.
  (** Lists in memory, and elements. *)
  Variables L E : Type.
  (** The runtime functions (hugr-llvm list.rs:22-78): a list is mutated in place, elements are passed in a buffer;
      the result is a flag, the list and the buffer afterwards. *)
  Record runtime := {
    rt_push : L -> E -> L;
    rt_pop : L -> E -> bool * L * E;
    rt_get : L -> N -> E -> bool * L * E;
    rt_set : L -> N -> E -> bool * L * E;
    rt_insert : L -> N -> E -> bool * L * E;
    rt_length : L -> N
  }.
  Inductive rval := RList (l : L) | RElem (e : E) | RNat (n : N) | RUnit | RTag (tag : nat) (vs : list rval).
  (** emit/func.rs:326-341 [build_option], :345-359 [build_ok_or_else] *)
  Definition build_option (is_some : bool) (x : rval) : rval := if is_some then RTag 1 [x] else RTag 0 [].
  Definition build_ok_or_else (is_ok : bool) (ok else_ : rval) : rval := if is_ok then RTag 1 [ok] else RTag 0 [else_].
  Variable rt : runtime.
  (** [junk]: what is in a new buffer.  hugr-llvm list.rs:199-290 [emit_list_op]; the pattern on the inputs panics if their
      number is wrong *)
  Definition emit_list_op (op : list_op) (junk : E) (ins : list rval) : option (list rval) :=
    match op, ins with
    | Push, [RList l; RElem e] => Some [RList (rt_push rt l e)]
    | Pop, [RList l] => let '(ok, l, e) := rt_pop rt l junk in Some [RList l; build_option ok (RElem e)]
    | Get, [RList l; RNat i] => let '(ok, l, e) := rt_get rt l i junk in Some [build_option ok (RElem e)]
    | Set_, [RList l; RNat i; RElem e] =>
        let '(ok, l, old) := rt_set rt l i e in Some [RList l; build_ok_or_else ok (RElem e) (RElem old)]
    | Insert, [RList l; RNat i; RElem e] =>
        let '(ok, l, _) := rt_insert rt l i e in Some [RList l; build_ok_or_else ok RUnit (RElem e)]
    | Length, [RList l] => Some [RList l; RNat (rt_length rt l)]
    | _, _ => None
    end.
End Emit.
Arguments RList {L E} l. Arguments RElem {L E} e. Arguments RNat {L E} n. Arguments RUnit {L E}. Arguments RTag {L E} tag vs.
