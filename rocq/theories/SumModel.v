(** Model of the representation of sum types in generated LLVM code.
    Source: hugr-llvm/src/sum/layout.rs and hugr-llvm/src/sum.rs.

    [T] stands for LLVM types with the order [BasicTypeOrd] (layout.rs l.57-89; the theorems ask
    that it is a total order, which holds when LLVM types with equal size and equal text are
    equal), [V] for LLVM values.  Instruction building is modelled by its result: [insertvalue]
    and [extractvalue] on a struct are update and lookup in a list of optional values, [None]
    being poison.  [None] as a result of a function is an error return or a panic. *)
From Coq Require Import List Bool Arith NArith.
From Verif Require Import BMap.
Import ListNotations.

Section Layout.
  Context {T : Type} (cmp : T -> T -> comparison) (elide : T -> bool).

  (** [entry(k).and_modify(f).or_insert(d)] on a [BTreeMap]. *)
  Definition entry (k : T) (f : nat -> nat) (d : nat) (m : list (T * nat)) : list (T * nat) :=
    bm_insert cmp k (match bm_get cmp k m with Some x => f x | None => d end) m.

  (** layout.rs l.108-119. *)
  Definition counts_of (variant : list T) : list (T * nat) :=
    fold_left (fun m t => if elide t then m else entry t S 1 m) variant [].
  (** l.120-127. *)
  Definition t_counts (variants : list (list T)) : list (T * nat) :=
    fold_left (fun m tc => entry (fst tc) (fun x => Nat.max (snd tc) x) (snd tc) m)
              (flat_map counts_of variants) [].
  (** l.129-132. *)
  Definition fields_of (counts : list (T * nat)) : list T :=
    flat_map (fun tc => repeat (fst tc) (snd tc)) counts.
  (** l.134-141: the index range of each type, as (start, end). *)
  Fixpoint ranges (counts : list (T * nat)) (offset : nat) : list (T * (nat * nat)) :=
    match counts with
    | [] => []
    | (t, c) :: rest => (t, (offset, offset + c)) :: ranges rest (offset + c)
    end.

  (** l.171-186: each non-elided field takes the next index of its type's range; [expect]
      panics when the range is used up. *)
  Fixpoint assign (rs : list (T * (nat * nat))) (variant : list T) : option (list (option nat)) :=
    match variant with
    | [] => Some []
    | t :: rest =>
        if elide t then option_map (cons None) (assign rs rest)
        else match bm_get cmp t rs with
             | Some (s, e) =>
                 if s <? e then option_map (cons (Some s)) (assign (bm_insert cmp t (S s, e) rs) rest)
                 else None
             | None => None
             end
    end.

  Fixpoint all_some {A B} (f : A -> option B) (l : list A) : option (list B) :=
    match l with
    | [] => Some []
    | a :: l' => match f a, all_some f l' with Some b, Some bs => Some (b :: bs) | _, _ => None end
    end.

  (** l.160-207 (and l.25-39): fields of the struct and the slot of every field. *)
  Definition layout_variants (variants : list (list T)) : option (list T * list (list (option nat))) :=
    let counts := t_counts variants in
    option_map (fun l => (fields_of counts, l)) (all_some (assign (ranges counts 0)) variants).
End Layout.

(** sum.rs l.270-276, for at least one variant. *)
Definition tag_width (num_variants : N) : N :=
  if (num_variants =? 1)%N then 1%N else (N.log2 (num_variants - 1) + 1)%N.
(** [IntType::const_int(v, false)] of a [w]-bit type keeps the low [w] bits. *)
Definition const_int (w v : N) : N := (v mod 2 ^ w)%N.

Section Sum.
  Context {T V : Type} (cmp : T -> T -> comparison) (teq : forall a b : T, {a = b} + {a <> b})
          (elide : T -> bool) (ty : V -> T) (undef : T -> V).

  (** sum.rs l.184-266: [LLVMSumTypeEnum].  Tag types are given by their width. *)
  Inductive sumty :=
  | Void
  | Unit (field_types : list T)
  | NoFields (variant_types : list (list T)) (tagw : N)
  | Single (field_types : list T) (field_index : nat)
  | SingleMulti (field_types : list T) (field_indices : list (option nat)) (struct : list T)
  | Multi (variant_types : list (list T)) (field_indices : list (list (option nat)))
          (tagw : N) (struct : list T).     (* [struct] without the leading tag field *)

  (** Runtime values of a sum type. *)
  Inductive rep :=
  | REmpty | RTag (n : N) | RVal (v : V) | RStruct (vs : list (option V))
  | RTagged (tag : option N) (vs : list (option V)).

  (** l.297-301: positions that hold a slot. *)
  Fixpoint some_positions (i : nat) (l : list (option nat)) : list nat :=
    match l with
    | [] => []
    | Some _ :: l' => i :: some_positions (S i) l'
    | None :: l' => some_positions (S i) l'
    end.

  (** l.281-338. *)
  Definition try_new (variants : list (list T)) : option sumty :=
    match variants with
    | [] => Some Void
    | [fts] =>
        match layout_variants cmp elide [fts] with
        | Some (fields, [idx]) =>
            match fields with
            | [] => Some (Unit fts)
            | [_] => match some_positions 0 idx with
                     | [i] => Some (Single fts i)
                     | _ => None                       (* exactly_one().unwrap() *)
                     end
            | _ => Some (SingleMulti fts idx fields)
            end
        | _ => None
        end
    | _ =>
        match layout_variants cmp elide variants with
        | Some (fields, idx) =>
            let w := tag_width (N.of_nat (length variants)) in
            match fields with
            | [] => Some (NoFields variants w)
            | _ => Some (Multi variants idx w fields)
            end
        | None => None
        end
    end.

  (** l.440-468. *)
  Definition num_variants (s : sumty) : nat :=
    match s with
    | Void => 0
    | Unit _ | Single _ _ | SingleMulti _ _ _ => 1
    | NoFields vs _ | Multi vs _ _ _ => length vs
    end.
  Definition fields_for_variant (s : sumty) (tag : nat) : option (list T) :=
    match s with
    | Void => None
    | Unit fts | Single fts _ | SingleMulti fts _ _ => Some fts
    | NoFields vs _ | Multi vs _ _ _ => nth_error vs tag
    end.

  Fixpoint set_nth {A} (i : nat) (a : A) (l : list A) : option (list A) :=
    match i, l with
    | _, [] => None
    | 0, _ :: l' => Some (a :: l')
    | S i', b :: l' => option_map (cons b) (set_nth i' a l')
    end.

  (** The loops l.366-372 and l.392-399. *)
  Fixpoint insert_all (idx : list (option nat)) (vs : list V) (st : list (option V)) : option (list (option V)) :=
    match idx, vs with
    | Some i :: idx', v :: vs' =>
        match set_nth i (Some v) st with Some st' => insert_all idx' vs' st' | None => None end
    | None :: idx', _ :: vs' => insert_all idx' vs' st
    | _, _ => Some st
    end.

  Fixpoint types_match (vs : list V) (ts : list T) : bool :=
    match vs, ts with
    | [], [] => true
    | v :: vs', t :: ts' => (if teq (ty v) t then true else false) && types_match vs' ts'
    | _, _ => false
    end.

  (** l.347-406; [ensure!] failures are [None]. *)
  Definition build_tag (s : sumty) (tag : nat) (vs : list V) : option rep :=
    match fields_for_variant s tag with
    | None => None
    | Some fts =>
        if (tag <? num_variants s) && types_match vs fts then
          match s with
          | Void => None
          | Unit _ => Some REmpty
          | NoFields _ w => Some (RTag (const_int w (N.of_nat tag)))
          | Single _ i => option_map RVal (nth_error vs i)
          | SingleMulti _ idx st => option_map RStruct (insert_all idx vs (repeat None (length st)))
          | Multi _ idxs w st =>
              match nth_error idxs tag with
              | Some idx => option_map (RTagged (Some (const_int w (N.of_nat tag))))
                                       (insert_all idx vs (repeat None (length st)))
              | None => None
              end
          end
        else None
    end.

  (** l.545-562. *)
  Definition get_tag (s : sumty) (r : rep) : option N :=
    match s, r with
    | Void, _ => None
    | (Unit _ | Single _ _ | SingleMulti _ _ _), _ => Some 0%N
    | NoFields _ _, RTag n => Some n
    | Multi _ _ _ _, RTagged t _ => t
    | _, _ => None
    end.

  (** Reading the fields of a struct, l.601-618 and l.622-633. *)
  Fixpoint extract_all (idx : list (option nat)) (ts : list T) (st : list (option V)) : option (list V) :=
    match idx, ts with
    | [], [] => Some []
    | mb :: idx', t :: ts' =>
        match (match mb with
               | Some i => match nth_error st i with Some (Some v) => Some v | _ => None end
               | None => Some (undef t)
               end), extract_all idx' ts' st with
        | Some v, Some vs => Some (v :: vs)
        | _, _ => None
        end
    | _, _ => None
    end.

  Fixpoint single_fields (i : nat) (field_index : nat) (ts : list T) (v : V) : list V :=
    match ts with
    | [] => []
    | t :: ts' => (if i =? field_index then v else undef t) :: single_fields (S i) field_index ts' v
    end.

  (** l.568-645: [build_untag]; [None] also for poison read from a slot. *)
  Definition untag (s : sumty) (r : rep) (tag : nat) : option (list V) :=
    if tag <? num_variants s then
      match s, r with
      | Void, _ => None
      | Unit fts, _ => Some (map undef fts)
      | NoFields vs _, _ => option_map (map undef) (nth_error vs tag)
      | Single fts i, RVal v => Some (single_fields 0 i fts v)
      | SingleMulti fts idx _, RStruct st => extract_all idx fts st
      | Multi vts idxs _ _, RTagged _ st =>
          match nth_error vts tag, nth_error idxs tag with
          | Some ts, Some idx => extract_all idx ts st
          | _, _ => None
          end
      | _, _ => None
      end
    else None.

  (** l.423-435: width of the tag type. *)
  Definition tag_type (s : sumty) : N :=
    match s with NoFields _ w | Multi _ _ w _ => w | _ => 1%N end.

  (** l.647-679: the switch compares the tag with the constants of cases 1, 2, ...; case 0 is
      the default.  Returns the case entered. *)
  Fixpoint switch_from (i : nat) (w : N) (n : nat) (tag : N) : nat :=
    match n with
    | 0 => 0
    | S n' => if (const_int w (N.of_nat i) =? tag)%N then i else switch_from (S i) w n' tag
    end.
  Definition destructure (s : sumty) (r : rep) : option (nat * list V) :=
    match num_variants s, get_tag s r with
    | S n, Some tag =>
        let k := switch_from 1 (tag_type s) n tag in
        option_map (fun vs => (k, vs)) (untag s r k)
    | _, _ => None
    end.
End Sum.
Arguments sumty : clear implicits.
Arguments rep : clear implicits.
