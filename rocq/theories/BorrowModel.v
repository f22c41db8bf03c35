(** * The lowering of arrays and borrow arrays to memory operations

    Model of [hugr-llvm/src/extension/collections/borrow_array.rs] and of
    [hugr-llvm/src/extension/collections/array.rs] (the default code
    generators).  What is modelled is the behaviour of the instructions that
    the functions emit, on a heap of allocated blocks.

    Simplifications.
    - The type [usize] has [8 * B] bits for a number of bytes [B >= 1]; the
      default is [B = 8] (extension/prelude.rs:42-44).
    - A block of memory holds either elements or words of a mask; a byte
      allocation of [k] bytes gives as many whole cells as fit.  The
      allocation itself never fails.
    - Reading a cell that was never written, any access out of bounds or after
      a free, a free of a block that is not live, a shift by at least the
      width whose result is used: all these are [UB].
    - A call to the panic function ends the run with the error.
    - The function given to [repeat] or [scan] may have any effects outside
      of the arrays: the model takes the result of its [i]-th call.
    - The fat pointer of a borrow array is [{ptr, mask_ptr, usize}] and that
      of an array is [{ptr, usize}]: the record [handle] has both, with no
      mask pointer for an array.  The size and the size in bytes of an element
      come from the type of the array. *)

From Coq Require Import List Arith Lia NArith Bool.
Import ListNotations.
Open Scope N_scope.

(** The two kinds of array: [collections.borrow_arr] and [collections.array]
    (hugr-core/src/std_extensions/collections/borrow_array.rs:51-60;
    hugr-core/src/std_extensions/collections/array.rs:50-60). *)
Inductive kind := Borrowable | Plain.

(** The error values of the emitted panics (extension/collections/borrow_array.rs:55-80). *)
Inductive err :=
  AlreadyBorrowed | NotBorrowed | OutOfBounds | NotAllBorrowed | SomeBorrowed.

(** The outcome of a run of emitted instructions.  [Stuck] is used for code
    that is not well typed and for nothing else. *)
Inductive res (A : Type) := Ok (a : A) | Panic (e : err) | UB | Stuck.
Arguments Ok {A}. Arguments Panic {A}. Arguments UB {A}. Arguments Stuck {A}.

Definition bind {A C} (r : res A) (k : A -> res C) : res C :=
  match r with Ok a => k a | Panic e => Panic e | UB => UB | Stuck => Stuck end.

Notation "'do' x <- r ; k" := (bind r (fun x => k))
  (at level 200, x pattern, r at level 100, k at level 200).

Section Lowering.
Context {V : Type}.
Variable B : N.

(** The width of [usize] in bits: the size of a block of the mask
    (extension/collections/borrow_array.rs:665). *)
Definition W : N := 8 * B.

(** Integers of type [usize] wrap around. *)
Definition wrap (x : N) : N := x mod 2 ^ W.

(** [const_int(x, false)] of the type [usize]: the low bits of [x]. *)
Definition const_int (x : N) : N := wrap x.

Definition all_ones : N := 2 ^ W - 1.

(** [shl] and [lshr]: shifting by the width or more gives poison. *)
Definition shl (a k : N) : option N :=
  if k <? W then Some (wrap (N.shiftl a k)) else None.
Definition lshr (a k : N) : option N :=
  if k <? W then Some (N.shiftr a k) else None.

(** Using a poison value. *)
Definition use (o : option N) : res N :=
  match o with Some x => Ok x | None => UB end.

(** ** Memory *)

Inductive block :=
| Elems (len : N) (cells : N -> option V)
| Mask (len : N) (words : N -> N).

Record heap := { next : nat; cell : nat -> option block }.

Definition set_block (h : heap) (p : nat) (b : option block) : heap :=
  {| next := next h; cell := fun q => if Nat.eqb q p then b else cell h q |}.

(** A fresh block. *)
Definition alloc (h : heap) (b : block) : heap * nat :=
  ({| next := S (next h);
      cell := fun q => if Nat.eqb q (next h) then Some b else cell h q |},
   next h).

(** [emit_free_array] (extension/collections/borrow_array.rs:131-137). *)
Definition free (h : heap) (p : nat) : res heap :=
  match cell h p with Some _ => Ok (set_block h p None) | None => UB end.

Definition load_elem (h : heap) (p : nat) (i : N) : res V :=
  match cell h p with
  | Some (Elems len cells) =>
      if i <? len then match cells i with Some v => Ok v | None => UB end
      else UB
  | _ => UB
  end.

Definition store_elem (h : heap) (p : nat) (i : N) (v : V) : res heap :=
  match cell h p with
  | Some (Elems len cells) =>
      if i <? len then
        Ok (set_block h p
              (Some (Elems len (fun j => if j =? i then Some v else cells j))))
      else UB
  | _ => UB
  end.

Definition load_word (h : heap) (p : nat) (i : N) : res N :=
  match cell h p with
  | Some (Mask len words) => if i <? len then Ok (words i) else UB
  | _ => UB
  end.

Definition store_word (h : heap) (p : nat) (i : N) (w : N) : res heap :=
  match cell h p with
  | Some (Mask len words) =>
      if i <? len then
        Ok (set_block h p
              (Some (Mask len (fun j => if j =? i then w else words j))))
      else UB
  | _ => UB
  end.

(** The number of cells of [esz] bytes in an allocation for [n] cells that
    has [bytes] bytes. *)
Definition cells_in (bytes esz n : N) : N :=
  if esz =? 0 then n else bytes / esz.

(** ** Allocation *)

(** [alloc_typed_array] for elements (extension/collections/borrow_array.rs:486-502); the same multiplication is in [build_array_alloc] (extension/collections/array.rs:343-362). *)
Definition alloc_elems (h : heap) (esz num : N) : heap * nat :=
  let size := wrap (num * esz) in
  alloc h (Elems (cells_in size esz num) (fun _ => None)).

(** A word whose bytes are all [byte]. *)
Definition word_of_bytes (byte : N) : N := byte * ((256 ^ B - 1) / 255).

(** [alloc_typed_array] for the mask followed by [fill_mask] (extension/collections/borrow_array.rs:486-502 and :538-564): [memset] over all the bytes
    of the allocation. *)
Definition alloc_mask (h : heap) (num : N) (value : bool) : heap * nat :=
  let size := wrap (num * B) in
  alloc h (Mask (cells_in size B num)
             (fun _ => word_of_bytes (if value then 255 else 0))).

(** A fat pointer with the type arguments of its type (extension/collections/borrow_array.rs:409-460; extension/collections/array.rs:305-336). *)
Record handle := {
  elems_ptr : nat;
  mask_ptr : option nat;
  offset : N;
  asize : N;
  esize : N
}.

(** [size.div_ceil(width)], in 64 bit arithmetic without overflow. *)
Definition div_ceil (a b : N) : N := (a + b - 1) / b.

(** [build_barray_alloc] (extension/collections/borrow_array.rs:509-535) and
    [build_array_alloc] (extension/collections/array.rs:343-362). *)
Definition build_alloc (h : heap) (kd : kind) (esz size : N)
    (set_borrowed : bool) : heap * handle :=
  let length := const_int size in
  let (h1, ep) := alloc_elems h esz length in
  match kd with
  | Borrowable =>
      let mask_length := const_int (div_ceil size W) in
      let (h2, mp) := alloc_mask h1 mask_length set_borrowed in
      (h2, {| elems_ptr := ep; mask_ptr := Some mp; offset := 0;
              asize := size; esize := esz |})
  | Plain =>
      (h1, {| elems_ptr := ep; mask_ptr := None; offset := 0;
              asize := size; esize := esz |})
  end.

(** ** The mask *)

(** [inspect_mask_idx_bit] (extension/collections/borrow_array.rs:656-680): the
    index of the block, the block, the index in the block and the bit. *)
Definition inspect_mask_idx_bit (h : heap) (mp : nat) (idx : N)
    : res (N * N * N * bool) :=
  let block_idx := idx / W in
  do block <- load_word h mp block_idx;
  let idx_in_block := idx mod W in
  do shifted <- use (lshr block idx_in_block);
  Ok (block_idx, block, idx_in_block, N.odd shifted).

(** [MaskCheck] (extension/collections/borrow_array.rs:566-575). *)
Inductive mask_check := CReturn | CCheckNotBorrowed | CBorrow.

(** [MaskCheck::emit] (extension/collections/borrow_array.rs:588-647). *)
Definition mask_check_emit (c : mask_check) (h : heap) (mp : nat) (idx : N)
    : res heap :=
  do (block_idx, block, idx_in_block, bit) <- inspect_mask_idx_bit h mp idx;
  let ok :=
    match c with
    | CReturn | CBorrow =>
        do update <- use (shl 1 idx_in_block);
        store_word h mp block_idx (N.lxor block update)
    | CCheckNotBorrowed => Ok h
    end in
  match c with
  | CCheckNotBorrowed | CBorrow => if bit then Panic AlreadyBorrowed else ok
  | CReturn => if bit then ok else Panic NotBorrowed
  end.

(** [BitsToPad] (extension/collections/borrow_array.rs:752-756). *)
Inductive bits_to_pad := Before | After.

(** [build_mask_padding1d] (extension/collections/borrow_array.rs:759-816). *)
Definition build_mask_padding1d (h : heap) (mp : nat) (idx : N)
    (e : bits_to_pad) (value : bool) : res heap :=
  let block_idx := idx / W in
  do block <- load_word h mp block_idx;
  let idx_in_block := idx mod W in
  do new_block <-
    (if value then
       let '(num_used, shifted) :=
         match e with
         | Before =>
             let pop_leftblock_used := wrap (W + 2 ^ W - idx_in_block) in
             (pop_leftblock_used, lshr all_ones pop_leftblock_used)
         | After =>
             let lst_block_used := wrap (idx_in_block + 1) in
             (lst_block_used, shl all_ones lst_block_used)
         end in
       do pad <- use (if num_used =? W then Some 0 else shifted);
       Ok (N.lor block pad)
     else
       do pad <-
         match e with
         | Before => use (shl all_ones idx_in_block)
         | After =>
             let lst_block_used := wrap (idx_in_block + 1) in
             let lst_block_unused := wrap (W + 2 ^ W - lst_block_used) in
             use (lshr all_ones lst_block_unused)
         end;
       Ok (N.land block pad));
  store_word h mp block_idx new_block.

(** [build_loop] (extension/collections/borrow_array.rs:955-992; extension/collections/array.rs:368-404): the head compares the counter with the number of
    iterations.  The fuel is the number of iterations. *)
Fixpoint loop_from {S : Type} (fuel : nat) (iters idx : N)
    (go : N -> S -> res S) (s : S) : res S :=
  if idx <? iters then
    match fuel with
    | O => Stuck
    | Datatypes.S f =>
        do s' <- go idx s;
        loop_from f iters (wrap (idx + 1)) go s'
    end
  else Ok s.

Definition build_loop {S : Type} (iters : N) (go : N -> S -> res S) (s : S)
    : res S :=
  loop_from (N.to_nat iters) iters 0 go s.

(** [check_all_mask_eq] (extension/collections/borrow_array.rs:690-750). *)
Definition check_all_mask_eq (h : heap) (mp : nat) (off size : N)
    (expected : bool) (e : err) : res heap :=
  do h <- build_mask_padding1d h mp off Before expected;
  let last_idx := wrap (wrap (off + size) + 2 ^ W - 1) in
  do h <- build_mask_padding1d h mp last_idx After expected;
  let expected_val := if expected then all_ones else 0 in
  let start_block := off / W in
  let end_block := last_idx / W in
  let iters := wrap (wrap (end_block + 2 ^ W - start_block) + 1) in
  build_loop iters
    (fun idx h =>
       let block_idx := wrap (idx + start_block) in
       do block <- load_word h mp block_idx;
       if block =? expected_val then Ok h else Panic e) h.

(** [build_is_borrowed_bit] (extension/collections/borrow_array.rs:819-837). *)
Definition build_is_borrowed_bit (h : heap) (mp : nat) (idx : N) : res bool :=
  do (_, _, _, bit) <- inspect_mask_idx_bit h mp idx;
  Ok bit.

(** [build_none_borrowed_check] (extension/collections/borrow_array.rs:840-874). *)
Definition build_none_borrowed_check (h : heap) (mp : nat) (off size : N)
    : res heap :=
  if size =? 0 then Ok h
  else check_all_mask_eq h mp off (const_int size) false SomeBorrowed.

(** [build_all_borrowed_check] (extension/collections/borrow_array.rs:877-911). *)
Definition build_all_borrowed_check (h : heap) (mp : nat) (off size : N)
    : res heap :=
  if size =? 0 then Ok h
  else check_all_mask_eq h mp off (const_int size) true NotAllBorrowed.

(** [build_bounds_check] (extension/collections/borrow_array.rs:914-949). *)
Definition build_bounds_check (size idx : N) : res unit :=
  if idx <? const_int size then Ok tt else Panic OutOfBounds.

(** The check of one element that the operations of both kinds make: only
    borrow arrays have it. *)
Definition check_present (h : heap) (hd : handle) (idx : N) : res heap :=
  match mask_ptr hd with
  | Some mp => mask_check_emit CCheckNotBorrowed h mp idx
  | None => Ok h
  end.

(** The check of all the elements, likewise. *)
Definition check_all_present (h : heap) (hd : handle) : res heap :=
  match mask_ptr hd with
  | Some mp => build_none_borrowed_check h mp (offset hd) (asize hd)
  | None => Ok h
  end.

(** The mask pointer is freed, where there is one. *)
Definition free_mask (h : heap) (hd : handle) : res heap :=
  match mask_ptr hd with Some mp => free h mp | None => Ok h end.

(** ** The operations *)

(** The stores of [new_array] (extension/collections/borrow_array.rs:1036-1045;
    extension/collections/array.rs:448-457). *)
Fixpoint store_inputs (h : heap) (p : nat) (i : N) (vs : list V) : res heap :=
  match vs with
  | [] => Ok h
  | v :: r =>
      do h <- store_elem h p (const_int i) v;
      store_inputs h p (i + 1) r
  end.

Definition emit_new_array (h : heap) (kd : kind) (esz : N) (vs : list V)
    : res (heap * handle) :=
  let (h, hd) := build_alloc h kd esz (N.of_nat (length vs)) false in
  do h <- store_inputs h (elems_ptr hd) 0 vs;
  Ok (h, hd).

(** The index of a constant is an [i32] (extension/collections/borrow_array.rs:1006;
    extension/collections/array.rs:418): the low 32 bits, taken as a signed number.
    A negative index is out of bounds. *)
Definition const_i32 (i : N) : option N :=
  let x := i mod 2 ^ 32 in if x <? 2 ^ 31 then Some x else None.

(** The stores of a constant. *)
Fixpoint store_constants (h : heap) (p : nat) (i : N) (vs : list V)
    : res heap :=
  match vs with
  | [] => Ok h
  | v :: r =>
      do idx <- use (const_i32 i);
      do h <- store_elem h p idx v;
      store_constants h p (i + 1) r
  end.

(** [emit_barray_value] (extension/collections/borrow_array.rs:995-1011) and
    [emit_array_value] (extension/collections/array.rs:407-423). *)
Definition emit_value (h : heap) (kd : kind) (esz : N) (vs : list V)
    : res (heap * handle) :=
  let (h, hd) := build_alloc h kd esz (N.of_nat (length vs)) false in
  do h <- store_constants h (elems_ptr hd) 0 vs;
  Ok (h, hd).

(** [unpack] (extension/collections/borrow_array.rs:1046-1071; extension/collections/array.rs:458-475): the loop over the size is unrolled. *)
Fixpoint unpack_from (h : heap) (hd : handle) (i : N) (left : nat)
    : res (heap * list V) :=
  match left with
  | O => Ok (h, [])
  | Datatypes.S l =>
      let idx := wrap (offset hd + const_int i) in
      do h <- check_present h hd idx;
      do v <- load_elem h (elems_ptr hd) idx;
      do (h, vs) <- unpack_from h hd (i + 1) l;
      Ok (h, v :: vs)
  end.

Definition emit_unpack (h : heap) (hd : handle) : res (heap * list V) :=
  unpack_from h hd 0 (N.to_nat (asize hd)).

(** [get] (extension/collections/borrow_array.rs:1072-1136; extension/collections/array.rs:476-535): [None] is the tag 0. *)
Definition emit_get (h : heap) (hd : handle) (index : N)
    : res (heap * option V) :=
  if index <? const_int (asize hd) then
    let idx := wrap (index + offset hd) in
    do h <- check_present h hd idx;
    do v <- load_elem h (elems_ptr hd) idx;
    Ok (h, Some v)
  else Ok (h, None).

(** [set] (extension/collections/borrow_array.rs:1137-1202; extension/collections/array.rs:536-596): the tag and the value in the result. *)
Definition emit_set (h : heap) (hd : handle) (index : N) (v : V)
    : res (heap * (bool * V)) :=
  if index <? const_int (asize hd) then
    let idx := wrap (index + offset hd) in
    do h <- check_present h hd idx;
    do old <- load_elem h (elems_ptr hd) idx;
    do h <- store_elem h (elems_ptr hd) idx v;
    Ok (h, (true, old))
  else Ok (h, (false, v)).

(** [swap] (extension/collections/borrow_array.rs:1203-1293; extension/collections/array.rs:597-680): the tag of the result. *)
Definition emit_swap (h : heap) (hd : handle) (index1 index2 : N)
    : res (heap * bool) :=
  if (index1 <? const_int (asize hd)) && (index2 <? const_int (asize hd)) then
    let idx1 := wrap (index1 + offset hd) in
    let idx2 := wrap (index2 + offset hd) in
    do h <- check_present h hd idx1;
    do h <- check_present h hd idx2;
    do v1 <- load_elem h (elems_ptr hd) idx1;
    do v2 <- load_elem h (elems_ptr hd) idx2;
    do h <- store_elem h (elems_ptr hd) idx1 v2;
    do h <- store_elem h (elems_ptr hd) idx2 v1;
    Ok (h, true)
  else Ok (h, false).

(** [emit_pop_op] (extension/collections/borrow_array.rs:1403-1454; extension/collections/array.rs:778-820): [None] is the tag 0, whose row is empty: the
    array is not in the result. *)
Definition emit_pop (h : heap) (hd : handle) (pop_left : bool)
    : res (heap * option (V * handle)) :=
  if asize hd =? 0 then Ok (h, None)
  else
    let '(idx, new_offset) :=
      if pop_left then (offset hd, wrap (offset hd + const_int 1))
      else (wrap (offset hd + const_int (asize hd - 1)), offset hd) in
    do h <- check_present h hd idx;
    do v <- load_elem h (elems_ptr hd) idx;
    Ok (h, Some (v, {| elems_ptr := elems_ptr hd; mask_ptr := mask_ptr hd;
                       offset := new_offset; asize := asize hd - 1;
                       esize := esize hd |})).

(** [discard_empty] (extension/collections/borrow_array.rs:1322-1334; extension/collections/array.rs:707-714). *)
Definition emit_discard_empty (h : heap) (hd : handle) : res heap :=
  do h <- free h (elems_ptr hd);
  free_mask h hd.

(** The [memcpy] of [bytes] bytes of cells of [esz] bytes, of which [n] are
    meant, from the cell [off] of one block to the start of another. *)
Definition memcpy (h : heap) (dst src : nat) (off bytes esz n : N)
    : res heap :=
  let count := cells_in bytes esz n in
  match cell h src, cell h dst with
  | Some (Elems slen scells), Some (Elems dlen dcells) =>
      if (off + count <=? slen) && (count <=? dlen) then
        Ok (set_block h dst
              (Some (Elems dlen
                 (fun j => if j <? count then scells (off + j)
                           else dcells j))))
      else UB
  | _, _ => UB
  end.

(** [emit_clone_op] (extension/collections/borrow_array.rs:1340-1386; extension/collections/array.rs:720-761). *)
Definition emit_clone (h : heap) (hd : handle) (kd : kind)
    : res (heap * handle) :=
  do h <- check_all_present h hd;
  let (h, other) := build_alloc h kd (esize hd) (asize hd) false in
  let length := const_int (asize hd) in
  do h <- memcpy h (elems_ptr other) (elems_ptr hd) (offset hd)
            (wrap (length * esize hd)) (esize hd) length;
  Ok (h, other).

(** [emit_barray_discard] (extension/collections/borrow_array.rs:1389-1400) and
    [emit_array_discard] (extension/collections/array.rs:764-775). *)
Definition emit_discard (h : heap) (hd : handle) : res heap :=
  free h (elems_ptr hd).

(** [emit_repeat_op] (extension/collections/borrow_array.rs:1457-1480; extension/collections/array.rs:823-846); [gen i] is the result of the [i]-th call. *)
Definition emit_repeat (h : heap) (kd : kind) (esz n : N) (gen : N -> V)
    : res (heap * handle) :=
  let (h, hd) := build_alloc h kd esz n false in
  do h <- build_loop (const_int n)
            (fun idx h => store_elem h (elems_ptr hd) idx (gen idx)) h;
  Ok (h, hd).

(** [emit_scan_op] (extension/collections/borrow_array.rs:1485-1547; extension/collections/array.rs:851-907); [f i] is the [i]-th call.  A result row of the
    wrong length is an error of the code generation. *)
Definition emit_scan (h : heap) (hd : handle) (kd : kind) (esz : N)
    (f : N -> V -> list V -> V * list V) (accs : list V)
    : res (heap * handle * list V) :=
  do h <- check_all_present h hd;
  let (h, tgt) := build_alloc h kd esz (asize hd) false in
  do (h, accs) <- build_loop (const_int (asize hd))
    (fun idx '(h, accs) =>
       let src_idx := wrap (idx + offset hd) in
       do v <- load_elem h (elems_ptr hd) src_idx;
       let '(v', accs') := f idx v accs in
       if Nat.eqb (length accs') (length accs) then
         do h <- store_elem h (elems_ptr tgt) idx v';
         Ok (h, accs')
       else Stuck) (h, accs);
  do h <- free h (elems_ptr hd);
  do h <- free_mask h hd;
  Ok (h, tgt, accs).

(** [borrow] (extension/collections/borrow_array.rs:1565-1583). *)
Definition emit_borrow (h : heap) (hd : handle) (mp : nat) (index : N)
    : res (heap * V) :=
  do _ <- build_bounds_check (asize hd) index;
  let idx := wrap (index + offset hd) in
  do h <- mask_check_emit CBorrow h mp idx;
  do v <- load_elem h (elems_ptr hd) idx;
  Ok (h, v).

(** [return] (extension/collections/borrow_array.rs:1584-1602). *)
Definition emit_return (h : heap) (hd : handle) (mp : nat) (index : N) (v : V)
    : res heap :=
  do _ <- build_bounds_check (asize hd) index;
  let idx := wrap (index + offset hd) in
  do h <- mask_check_emit CReturn h mp idx;
  store_elem h (elems_ptr hd) idx v.

(** [discard_all_borrowed] (extension/collections/borrow_array.rs:1603-1616). *)
Definition emit_discard_all_borrowed (h : heap) (hd : handle) (mp : nat)
    : res heap :=
  do h <- build_all_borrowed_check h mp (offset hd) (asize hd);
  do h <- free h (elems_ptr hd);
  free h mp.

(** [new_all_borrowed] (extension/collections/borrow_array.rs:1617-1621). *)
Definition emit_new_all_borrowed (h : heap) (esz n : N) : heap * handle :=
  build_alloc h Borrowable esz n true.

(** [is_borrowed] (extension/collections/borrow_array.rs:1622-1635). *)
Definition emit_is_borrowed (h : heap) (hd : handle) (mp : nat) (index : N)
    : res bool :=
  do _ <- build_bounds_check (asize hd) index;
  let idx := wrap (index + offset hd) in
  build_is_borrowed_bit h mp idx.

(** [emit_to_array_op] (extension/collections/borrow_array.rs:1641-1654). *)
Definition emit_to_array (h : heap) (hd : handle) : res (heap * handle) :=
  do h <- check_all_present h hd;
  Ok (h, {| elems_ptr := elems_ptr hd; mask_ptr := None;
            offset := offset hd; asize := asize hd; esize := esize hd |}).

(** [emit_from_array_op] (extension/collections/borrow_array.rs:1657-1684): the
    division is by the size of [usize] in bytes. *)
Definition emit_from_array (h : heap) (hd : handle) : heap * handle :=
  let mask_bits := wrap (const_int (asize hd) + offset hd) in
  let mask_blocks := wrap (mask_bits / B + 1) in
  let (h, mp) := alloc_mask h mask_blocks false in
  (h, {| elems_ptr := elems_ptr hd; mask_ptr := Some mp;
         offset := offset hd; asize := asize hd; esize := esize hd |}).

(** ** Programs

    A program is a sequence of operations on numbered wires that carry
    arrays.  An operation that takes an array and gives one back puts it on
    the same wire.  A program may look at the results it gets. *)

Inductive instr :=
| INew (kd : kind) (esz : N) (vs : list V)
| IConst (kd : kind) (esz : N) (vs : list V)
| INewAllBorrowed (esz n : N)
| IRepeat (kd : kind) (esz n : N) (gen : N -> V)
| IUnpack (w : nat)
| IGet (w : nat) (i : N)
| ISet (w : nat) (i : N) (v : V)
| ISwap (w : nat) (i j : N)
| IPop (w : nat) (pop_left : bool)
| IDiscardEmpty (w : nat)
| IClone (w : nat)
| IDiscard (w : nat)
| IScan (w : nat) (esz : N) (f : N -> V -> list V -> V * list V)
    (accs : list V)
| IBorrow (w : nat) (i : N)
| IReturn (w : nat) (i : N) (v : V)
| IDiscardAllBorrowed (w : nat)
| IIsBorrowed (w : nat) (i : N)
| IToArray (w : nat)
| IFromArray (w : nat).

(** What an operation gives besides arrays: tags and booleans, and values. *)
Definition obs : Type := (list bool * list V)%type.

Record state := { mem : heap; wires : list (option handle) }.

Definition put {A} (l : list A) (k : nat) (x : A) : list A :=
  firstn k l ++ match skipn k l with [] => [] | _ :: r => x :: r end.

Definition kind_of (hd : handle) : kind :=
  match mask_ptr hd with Some _ => Borrowable | None => Plain end.

Definition on_wire {A} (s : state) (w : nat) (k : handle -> res A) : res A :=
  match nth_error (wires s) w with Some (Some hd) => k hd | _ => Stuck end.

Definition on_borrow {A} (s : state) (w : nat) (k : handle -> nat -> res A)
    : res A :=
  on_wire s w
    (fun hd => match mask_ptr hd with Some mp => k hd mp | None => Stuck end).

Definition keep (s : state) (h : heap) : state :=
  {| mem := h; wires := wires s |}.
Definition drop (s : state) (h : heap) (w : nat) : state :=
  {| mem := h; wires := put (wires s) w None |}.
Definition change (s : state) (h : heap) (w : nat) (hd : handle) : state :=
  {| mem := h; wires := put (wires s) w (Some hd) |}.
Definition add (s : state) (h : heap) (hd : handle) : state :=
  {| mem := h; wires := wires s ++ [Some hd] |}.

Definition step (i : instr) (s : state) : res (state * obs) :=
  let h := mem s in
  match i with
  | INew kd esz vs =>
      do (h, hd) <- emit_new_array h kd esz vs; Ok (add s h hd, ([], []))
  | IConst kd esz vs =>
      do (h, hd) <- emit_value h kd esz vs; Ok (add s h hd, ([], []))
  | INewAllBorrowed esz n =>
      let (h, hd) := emit_new_all_borrowed h esz n in
      Ok (add s h hd, ([], []))
  | IRepeat kd esz n gen =>
      do (h, hd) <- emit_repeat h kd esz n gen; Ok (add s h hd, ([], []))
  | IUnpack w =>
      on_wire s w (fun hd =>
        do (h, vs) <- emit_unpack h hd; Ok (drop s h w, ([], vs)))
  | IGet w i =>
      on_wire s w (fun hd =>
        do (h, o) <- emit_get h hd i;
        Ok (keep s h, match o with Some v => ([true], [v])
                                 | None => ([false], []) end))
  | ISet w i v =>
      on_wire s w (fun hd =>
        do (h, (tag, x)) <- emit_set h hd i v; Ok (keep s h, ([tag], [x])))
  | ISwap w i j =>
      on_wire s w (fun hd =>
        do (h, tag) <- emit_swap h hd i j; Ok (keep s h, ([tag], [])))
  | IPop w pop_left =>
      on_wire s w (fun hd =>
        do (h, o) <- emit_pop h hd pop_left;
        Ok (match o with
            | Some (v, hd') => (change s h w hd', ([true], [v]))
            | None => (drop s h w, ([false], []))
            end))
  | IDiscardEmpty w =>
      on_wire s w (fun hd =>
        if asize hd =? 0 then
          do h <- emit_discard_empty h hd; Ok (drop s h w, ([], []))
        else Stuck)
  | IClone w =>
      on_wire s w (fun hd =>
        do (h, hd') <- emit_clone h hd (kind_of hd);
        Ok (add s h hd', ([], [])))
  | IDiscard w =>
      on_wire s w (fun hd =>
        do h <- emit_discard h hd; Ok (drop s h w, ([], [])))
  | IScan w esz f accs =>
      on_wire s w (fun hd =>
        do (h, hd', accs') <- emit_scan h hd (kind_of hd) esz f accs;
        Ok (change s h w hd', ([], accs')))
  | IBorrow w i =>
      on_borrow s w (fun hd mp =>
        do (h, v) <- emit_borrow h hd mp i; Ok (keep s h, ([], [v])))
  | IReturn w i v =>
      on_borrow s w (fun hd mp =>
        do h <- emit_return h hd mp i v; Ok (keep s h, ([], [])))
  | IDiscardAllBorrowed w =>
      on_borrow s w (fun hd mp =>
        do h <- emit_discard_all_borrowed h hd mp;
        Ok (drop s h w, ([], [])))
  | IIsBorrowed w i =>
      on_borrow s w (fun hd mp =>
        do b <- emit_is_borrowed h hd mp i; Ok (s, ([b], [])))
  | IToArray w =>
      on_borrow s w (fun hd mp =>
        do (h, hd') <- emit_to_array h hd; Ok (change s h w hd', ([], [])))
  | IFromArray w =>
      on_wire s w (fun hd =>
        match kind_of hd with
        | Plain =>
            let (h, hd') := emit_from_array h hd in
            Ok (change s h w hd', ([], []))
        | Borrowable => Stuck
        end)
  end.

Inductive prog := Halt | Do (i : instr) (k : obs -> prog).

(** The results of the operations in order, and how the run ends. *)
Fixpoint run (p : prog) (s : state) : list obs * res state :=
  match p with
  | Halt => ([], Ok s)
  | Do i k =>
      match step i s with
      | Ok (s', o) => let (t, r) := run (k o) s' in (o :: t, r)
      | Panic e => ([], Panic e)
      | UB => ([], UB)
      | Stuck => ([], Stuck)
      end
  end.

Definition empty_state : state :=
  {| mem := {| next := 0; cell := fun _ => None |}; wires := [] |}.

End Lowering.
