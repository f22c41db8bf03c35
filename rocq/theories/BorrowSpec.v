(** * What arrays and borrow arrays mean

    Independent of the lowering: an array is a list with, at every index,
    either an element or a hole where the element has been borrowed.  The
    meaning of the operations is taken from their descriptions
    (hugr-core/src/std_extensions/collections/array/array_op.rs:226-239;
    hugr-core/src/std_extensions/collections/borrow_array.rs:210-225). *)

From Coq Require Import List Arith Lia NArith Bool.
From Verif Require Import BorrowModel.
Import ListNotations.
Open Scope N_scope.

Section Meaning.
Context {V : Type}.

Definition cells : Type := list (option V).

(** The element at an index: nothing out of bounds, [Some None] for a hole. *)
Definition at_index (l : cells) (i : N) : option (option V) :=
  nth_error l (N.to_nat i).

Fixpoint replace_nth {A} (l : list A) (k : nat) (x : A) : list A :=
  match l, k with
  | [], _ => []
  | _ :: r, O => x :: r
  | y :: r, S k => y :: replace_nth r k x
  end.

Definition replace_at (l : cells) (i : N) (x : option V) : cells :=
  replace_nth l (N.to_nat i) x.

(** All the elements, if there is no hole. *)
Fixpoint full (l : cells) : option (list V) :=
  match l with
  | [] => Some []
  | None :: _ => None
  | Some v :: r => match full r with Some vs => Some (v :: vs) | None => None end
  end.

Definition is_hole (x : option V) : bool :=
  match x with None => true | Some _ => false end.

(** A scan: the function is called on the elements in order and passes on
    the accumulators. *)
Fixpoint scan_list (f : N -> V -> list V -> V * list V) (i : N)
    (vs : list V) (accs : list V) : list V * list V :=
  match vs with
  | [] => ([], accs)
  | v :: r =>
      let (v', accs1) := f i v accs in
      let (r', accs2) := scan_list f (i + 1) r accs1 in
      (v' :: r', accs2)
  end.

(** The results of [n] calls. *)
Definition calls (gen : N -> V) (n : N) : list V :=
  map (fun i => gen (N.of_nat i)) (seq 0 (N.to_nat n)).

Definition array : Type := (kind * cells)%type.
Definition arrays : Type := list (option array).

Definition with_array {A} (s : arrays) (w : nat) (k : kind -> cells -> res A)
    : res A :=
  match nth_error s w with Some (Some (kd, l)) => k kd l | _ => Stuck end.

Definition with_borrowable {A} (s : arrays) (w : nat) (k : cells -> res A)
    : res A :=
  with_array s w (fun kd l => match kd with Borrowable => k l | Plain => Stuck end).

Definition out (s : arrays) (w : nat) (a : option array) : arrays :=
  replace_nth s w a.

Definition spec_step (i : @instr V) (s : arrays)
    : res (arrays * (list bool * list V)) :=
  match i with
  | INew kd _ vs | IConst kd _ vs =>
      Ok (s ++ [Some (kd, map Some vs)], ([], []))
  | INewAllBorrowed _ n =>
      Ok (s ++ [Some (Borrowable, repeat None (N.to_nat n))], ([], []))
  | IRepeat kd _ n gen =>
      Ok (s ++ [Some (kd, map Some (calls gen n))], ([], []))
  | IUnpack w =>
      with_array s w (fun _ l =>
        match full l with
        | Some vs => Ok (out s w None, ([], vs))
        | None => Panic AlreadyBorrowed
        end)
  | IGet w i =>
      with_array s w (fun _ l =>
        match at_index l i with
        | None => Ok (s, ([false], []))
        | Some None => Panic AlreadyBorrowed
        | Some (Some v) => Ok (s, ([true], [v]))
        end)
  | ISet w i x =>
      with_array s w (fun kd l =>
        match at_index l i with
        | None => Ok (s, ([false], [x]))
        | Some None => Panic AlreadyBorrowed
        | Some (Some v) =>
            Ok (out s w (Some (kd, replace_at l i (Some x))), ([true], [v]))
        end)
  | ISwap w i j =>
      with_array s w (fun kd l =>
        match at_index l i, at_index l j with
        | Some (Some x), Some (Some y) =>
            Ok (out s w (Some (kd, replace_at (replace_at l i (Some y))
                                     j (Some x))), ([true], []))
        | Some _, Some _ => Panic AlreadyBorrowed
        | _, _ => Ok (s, ([false], []))
        end)
  | IPop w true =>
      with_array s w (fun kd l =>
        match l with
        | [] => Ok (out s w None, ([false], []))
        | None :: _ => Panic AlreadyBorrowed
        | Some v :: r => Ok (out s w (Some (kd, r)), ([true], [v]))
        end)
  | IPop w false =>
      with_array s w (fun kd l =>
        match rev l with
        | [] => Ok (out s w None, ([false], []))
        | None :: _ => Panic AlreadyBorrowed
        | Some v :: r => Ok (out s w (Some (kd, rev r)), ([true], [v]))
        end)
  | IDiscardEmpty w =>
      with_array s w (fun _ l =>
        match l with
        | [] => Ok (out s w None, ([], []))
        | _ :: _ => Stuck
        end)
  | IClone w =>
      with_array s w (fun kd l =>
        match full l with
        | Some _ => Ok (s ++ [Some (kd, l)], ([], []))
        | None => Panic SomeBorrowed
        end)
  | IDiscard w => with_array s w (fun _ _ => Ok (out s w None, ([], [])))
  | IScan w _ f accs =>
      with_array s w (fun kd l =>
        match full l with
        | Some vs =>
            let (vs', accs') := scan_list f 0 vs accs in
            Ok (out s w (Some (kd, map Some vs')), ([], accs'))
        | None => Panic SomeBorrowed
        end)
  | IBorrow w i =>
      with_borrowable s w (fun l =>
        match at_index l i with
        | None => Panic OutOfBounds
        | Some None => Panic AlreadyBorrowed
        | Some (Some v) =>
            Ok (out s w (Some (Borrowable, replace_at l i None)), ([], [v]))
        end)
  | IReturn w i x =>
      with_borrowable s w (fun l =>
        match at_index l i with
        | None => Panic OutOfBounds
        | Some (Some _) => Panic NotBorrowed
        | Some None =>
            Ok (out s w (Some (Borrowable, replace_at l i (Some x))), ([], []))
        end)
  | IDiscardAllBorrowed w =>
      with_borrowable s w (fun l =>
        if forallb is_hole l then Ok (out s w None, ([], []))
        else Panic NotAllBorrowed)
  | IIsBorrowed w i =>
      with_borrowable s w (fun l =>
        match at_index l i with
        | None => Panic OutOfBounds
        | Some x => Ok (s, ([is_hole x], []))
        end)
  | IToArray w =>
      with_borrowable s w (fun l =>
        match full l with
        | Some _ => Ok (out s w (Some (Plain, l)), ([], []))
        | None => Panic SomeBorrowed
        end)
  | IFromArray w =>
      with_array s w (fun kd l =>
        match kd with
        | Plain => Ok (out s w (Some (Borrowable, l)), ([], []))
        | Borrowable => Stuck
        end)
  end.

Fixpoint spec_run (p : @prog V) (s : arrays)
    : list (list bool * list V) * res arrays :=
  match p with
  | Halt => ([], Ok s)
  | Do i k =>
      match spec_step i s with
      | Ok (s', o) => let (t, r) := spec_run (k o) s' in (o :: t, r)
      | Panic e => ([], Panic e)
      | UB => ([], UB)
      | Stuck => ([], Stuck)
      end
  end.

(** ** Programs that fit in the address space

    [usize] has [8 * B] bits.  The elements of an array take less than
    [2 ^ (8 * B)] bytes, and there are at least as many numbers above the
    number of elements as there are bits in a word. *)
Definition fits_size (B n esz : N) : Prop :=
  n + 8 * B < 2 ^ (8 * B) /\ n * esz < 2 ^ (8 * B).

(** Indices are values of type [usize].  A constant has at most [2 ^ 31]
    elements.  The function of a scan returns as many accumulators as it
    takes. *)
Definition fits_instr (B : N) (i : @instr V) (s : arrays) : Prop :=
  match i with
  | INew _ esz vs => fits_size B (N.of_nat (length vs)) esz
  | IConst _ esz vs =>
      fits_size B (N.of_nat (length vs)) esz /\
      N.of_nat (length vs) <= 2 ^ 31
  | INewAllBorrowed esz n => fits_size B n esz
  | IRepeat _ esz n _ => fits_size B n esz
  | IGet _ i | ISet _ i _ | IBorrow _ i | IReturn _ i _ | IIsBorrowed _ i =>
      i < 2 ^ (8 * B)
  | ISwap _ i j => i < 2 ^ (8 * B) /\ j < 2 ^ (8 * B)
  | IScan w esz f accs =>
      (forall kd l, nth_error s w = Some (Some (kd, l)) ->
         N.of_nat (length l) * esz < 2 ^ (8 * B)) /\
      (forall i v l, length l = length accs ->
         length (snd (f i v l)) = length accs)
  | _ => True
  end.

Fixpoint fits (B : N) (p : @prog V) (s : arrays) : Prop :=
  match p with
  | Halt => True
  | Do i k =>
      fits_instr B i s /\
      match spec_step i s with
      | Ok (s', o) => fits B (k o) s'
      | _ => True
      end
  end.

(** The operations that consume an array but do not free all of its memory:
    the programs whose memory is all accounted for avoid them. *)
Definition frees_all (i : @instr V) (s : arrays) : Prop :=
  match i with
  | IUnpack _ | IToArray _ => False
  | IDiscard w =>
      forall l, nth_error s w = Some (Some (Borrowable, l)) -> False
  | IPop w _ => forall kd, nth_error s w = Some (Some (kd, [])) -> False
  | _ => True
  end.

Fixpoint all_free (p : @prog V) (s : arrays) : Prop :=
  match p with
  | Halt => True
  | Do i k =>
      frees_all i s /\
      match spec_step i s with
      | Ok (s', o) => all_free (k o) s'
      | _ => True
      end
  end.

End Meaning.

(** Every live block of memory belongs to an array on a wire. *)
Definition no_leak {V} (s : @state V) : Prop :=
  forall p, cell (mem s) p <> None ->
    exists w hd, nth_error (wires s) w = Some (Some hd) /\
      (elems_ptr hd = p \/ mask_ptr hd = Some p).
