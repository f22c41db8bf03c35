(** Model of the constant folders of the boolean operations and of the LLVM code emitted for them.

    Source: hugr-core/src/std_extensions/logic.rs ([LogicOp::fold], [read_inputs]),
            hugr-llvm/src/extension/logic.rs ([emit_logic_op]).

    A constant is a boolean or something else; equality of values with [true_val] and [false_val] is
    equality of booleans. *)
From Coq Require Import ZArith List Bool.
From Verif Require Import FloatModel.
Import ListNotations.
Open Scope Z_scope.

(** logic.rs:71-77. *)
Inductive logic_op := And | Or | Eq | Not | Xor.
Inductive lconst := LBool (b : bool) | LOther.
(** Inputs: port and constant. *)
Definition linputs := list (Z * lconst).

(** [read_inputs] (logic.rs:146-162): the constants in port order; [None] if one is no boolean. *)
Fixpoint bools (l : list lconst) : option (list bool) :=
  match l with
  | [] => Some []
  | LBool b :: l => option_map (cons b) (bools l)
  | LOther :: _ => None
  end.
Definition read_inputs (cs : linputs) : option (list bool) := bools (sorted_consts cs).

(** [Iterator::reduce]. *)
Definition reduce (f : bool -> bool -> bool) (l : list bool) : option bool :=
  match l with [] => None | x :: l => Some (fold_left f l x) end.
Definition then_some (c : bool) (res : bool) : option (list (Z * bool)) :=
  if c then Some [(0, res)] else None.
(** [LogicOp::fold] (logic.rs:28-65). *)
Definition logic_fold (op : logic_op) (cs : linputs) : option (list (Z * bool)) :=
  match read_inputs cs with
  | None => None
  | Some inps =>
      let n := length inps in
      match op with
      | And => let res := forallb (fun x => x) inps in then_some (negb res || Nat.eqb n 2) res
      | Or => let res := existsb (fun x => x) inps in then_some (res || Nat.eqb n 2) res
      | Eq =>
          match reduce Bool.eqb inps with
          | None => None
          | Some res => then_some (negb res || Nat.eqb n 2) res
          end
      | Not => let res := forallb negb inps in then_some (negb res || Nat.eqb n 1) res
      | Xor => let res := fold_left xorb inps false in then_some (Nat.eqb n 2) res
      end
  end.

(** [emit_logic_op] (hugr-llvm/src/extension/logic.rs:18-54): the inputs are the tags of the sums, as
    1-bit integers; a missing input makes the emission panic ([inputs[1]]). *)
Definition emit_logic (op : logic_op) (inputs : list Z) : option bool :=
  let bit (z : Z) := z mod 2 in
  let res :=
    match op, inputs with
    | And, a :: b :: _ => Some (Z.land a b)
    | Or, a :: b :: _ => Some (Z.lor a b)
    | Xor, a :: b :: _ => Some (Z.lxor a b)
    | Eq, a :: b :: _ => Some (if a =? b then 1 else 0)
    | Not, a :: _ => Some (bit (Z.lnot a))
    | _, _ => None
    end in
  option_map (fun r => negb (r =? 0)) res.
